(** Property C38: the macro [value!]. *)
From Verif Require Import Base Utf8 Ext Errors Value Serde DecimalSpec SerdeSpec SerdeProof Macros MacroSpec Props10.

Section Ind.
Variable P : tt -> Prop.
Hypothesis Hw : forall w, P (MtWord w).
Hypothesis He : forall d, P (MtExpr d).
Hypothesis Hc : P MtComma.
Hypothesis Hd : P MtColon.
Hypothesis Hl : forall l, Forall P l -> P (MtList l).
Hypothesis Hm : forall l, Forall P l -> P (MtMap l).
Fixpoint tt_ind' (t : tt) : P t :=
  match t with
  | MtWord w => Hw w
  | MtExpr d => He d
  | MtComma => Hc
  | MtColon => Hd
  | MtList l => Hl l ((fix go l : Forall P l := match l with [] => Forall_nil _ | t :: l' => Forall_cons t (tt_ind' t) (go l') end) l)
  | MtMap l => Hm l ((fix go l : Forall P l := match l with [] => Forall_nil _ | t :: l' => Forall_cons t (tt_ind' t) (go l') end) l)
  end.
End Ind.
Section Ind2.
Variable P : lit -> Prop.
Hypothesis Hn : P LNone.
Hypothesis Ho : forall d, P (LOf d).
Hypothesis Hl : forall l, Forall P l -> P (LList l).
Hypothesis Hm : forall l, Forall (fun kx => P (snd kx)) l -> P (LMap l).
Fixpoint lit_ind' (x : lit) : P x :=
  match x with
  | LNone => Hn
  | LOf d => Ho d
  | LList l => Hl l ((fix go l : Forall P l := match l with [] => Forall_nil _ | t :: l' => Forall_cons t (lit_ind' t) (go l') end) l)
  | LMap l => Hm l ((fix go l : Forall (fun kx => P (snd kx)) l := match l with [] => Forall_nil _ | t :: l' => Forall_cons t (lit_ind' (snd t)) (go l') end) l)
  end.
End Ind2.

Scheme reads_ind3 := Induction for reads Sort Prop
  with separated_ind3 := Induction for separated Sort Prop
  with entries_ind3 := Induction for entries Sort Prop.
Combined Scheme reads_mut from reads_ind3, separated_ind3, entries_ind3.

Section Expansion.
Variable env : str -> sdata.
Notation expand := (expand env).

(** The local functions of [expand]. *)
Fixpoint list_arms (acc : list code) (ended : bool) (rest : list tt) {struct rest} : option code :=
  match rest with
  | [] => Some (CVec acc)
  | t :: rest' =>
    if ended && is_whole t then
      match expand t with Some c => list_arms (acc ++ [c]) false rest' | None => None end
    else
      match t with
      | MtWord _ | MtExpr _ =>
        if ended then
          match rest' with
          | MtComma :: rest'' => match expand t with Some c => list_arms (acc ++ [c]) true rest'' | None => None end
          | [] => match expand t with Some c => Some (CVec (acc ++ [c])) | None => None end
          | _ => None
          end
        else None
      | MtComma => if negb ended || (match acc with [] => true | _ => false end) then list_arms acc true rest' else None
      | _ => None
      end
  end.
Fixpoint map_arms (rest : list tt) {struct rest} : option (list (str * code)) :=
  match rest with
  | [] => Some []
  | MtWord k :: MtColon :: t :: rest' =>
    if is_whole t then
      match expand t, rest' with
      | Some c, MtComma :: rest'' => match map_arms rest'' with Some l => Some ((k, c) :: l) | None => None end
      | Some c, [] => Some [(k, c)]
      | _, _ => None
      end
    else
      match t with
      | MtWord _ | MtExpr _ =>
        match expand t, rest' with
        | Some c, MtComma :: rest'' => match map_arms rest'' with Some l => Some ((k, c) :: l) | None => None end
        | Some c, [] => Some [(k, c)]
        | _, _ => None
        end
      | _ => None
      end
  | _ => None
  end.
Lemma expand_list l : expand (MtList l) = list_arms [] true l.
Proof. reflexivity. Qed.
Lemma expand_map l : expand (MtMap l) = match map_arms l with Some es => Some (CMap es) | None => None end.
Proof. reflexivity. Qed.

Fixpoint code_of (x : lit) : code :=
  match x with
  | LNone => CNone
  | LOf d => CToValue d
  | LList l => CVec (map code_of l)
  | LMap l => CMap (map (fun kx => (fst kx, code_of (snd kx))) l)
  end.
Notation code_entry := (fun kx : str * lit => (fst kx, code_of (snd kx))).

Lemma list_commas n ts : list_arms [] true (repeat MtComma n ++ ts) = list_arms [] true ts.
Proof. induction n; cbn [repeat app]; [reflexivity|exact IHn]. Qed.
Lemma map_arms_last k t c : expand t = Some c -> map_arms [MtWord k; MtColon; t] = Some [(k, c)].
Proof. intros E. cbn [map_arms]. rewrite E. destruct t; cbn [is_whole]; try reflexivity; [destruct str_eqb; reflexivity|discriminate E..]. Qed.
Lemma map_arms_more k t c ts : expand t = Some c ->
  map_arms (MtWord k :: MtColon :: t :: MtComma :: ts) = match map_arms ts with Some l => Some ((k, c) :: l) | None => None end.
Proof. intros E. cbn [map_arms]. rewrite E. destruct t; cbn [is_whole]; try reflexivity; [destruct str_eqb; reflexivity|discriminate E..]. Qed.
Lemma list_arms_last acc t c : expand t = Some c -> list_arms acc true [t] = Some (CVec (acc ++ [c])).
Proof. intros E. cbn [list_arms]. rewrite E. destruct t; cbn [is_whole andb]; try reflexivity; [destruct str_eqb; reflexivity|discriminate E..]. Qed.
Lemma list_arms_more acc t c ts : expand t = Some c -> list_arms acc true (t :: MtComma :: ts) = list_arms (acc ++ [c]) true ts.
Proof. intros E. cbn [list_arms]. rewrite E. destruct t; cbn [is_whole andb]; try reflexivity; [destruct str_eqb; reflexivity|discriminate E..]. Qed.

Lemma reads_expand :
  (forall t x, reads env t x -> expand t = Some (code_of x)) /\
  (forall ts l, separated env ts l -> forall acc, list_arms acc true ts = Some (CVec (acc ++ map code_of l))) /\
  (forall ts l, entries env ts l -> map_arms ts = Some (map code_entry l)).
Proof.
  apply (reads_mut env (fun t x _ => expand t = Some (code_of x))
    (fun ts l _ => forall acc, list_arms acc true ts = Some (CVec (acc ++ map code_of l)))
    (fun ts l _ => map_arms ts = Some (map code_entry l))).
  - reflexivity.
  - intros w Hw. cbn [Macros.expand code_of]. destruct (str_eqb w (s2b "None")) eqn:E; [apply str_eqb_eq in E; contradiction|reflexivity].
  - reflexivity.
  - intros n ts l _ IH. rewrite expand_list, list_commas, IH. reflexivity.
  - intros ts l _ IH. rewrite expand_map, IH. reflexivity.
  - intros acc. cbn. now rewrite app_nil_r.
  - intros t x _ E acc. now rewrite (list_arms_last _ _ _ E).
  - intros t x ts l _ E _ IH acc. rewrite (list_arms_more _ _ _ _ E), IH, <- app_assoc. reflexivity.
  - reflexivity.
  - intros k t x _ E. now rewrite (map_arms_last _ _ _ E).
  - intros k t x ts l _ E _ IH. rewrite (map_arms_more _ _ _ _ E), IH. reflexivity.
Qed.

Definition understood (t : tt) : Prop := forall c, expand t = Some c -> exists x, reads env t x /\ code_of x = c.
Lemma map_understood n : forall ts, length ts <= n -> Forall understood ts -> forall es, map_arms ts = Some es ->
  exists l, entries env ts l /\ map code_entry l = es.
Proof.
  induction n as [|n IH]; intros ts Hn F es E.
  { destruct ts; [|cbn in Hn; lia]. injection E as <-. exists []. split; [constructor|reflexivity]. }
  destruct ts as [|[k| | | | |] ts]; try discriminate E. { injection E as <-. exists []. split; [constructor|reflexivity]. }
  destruct ts as [|[ | | | | |] ts]; try discriminate E. destruct ts as [|t ts]; [discriminate E|].
  apply Forall_inv_tail, Forall_inv_tail in F. pose proof (Forall_inv F) as U. apply Forall_inv_tail in F.
  destruct (expand t) as [c|] eqn:Et.
  - destruct (U c Et) as (x & Hx & Hc). destruct ts as [|t2 ts].
    + rewrite (map_arms_last _ _ _ Et) in E. injection E as <-. exists [(k, x)]. split; [now constructor|]. cbn. now rewrite Hc.
    + assert (D : t2 = MtComma \/ t2 <> MtComma) by (destruct t2; (left; reflexivity) || (right; discriminate)). destruct D as [->|D].
      * rewrite (map_arms_more _ _ _ _ Et) in E. destruct (map_arms ts) as [l0|] eqn:Em; [|discriminate E]. injection E as <-.
        apply Forall_inv_tail in F. destruct (IH ts ltac:(cbn in Hn; lia) F _ Em) as (l & Hl & <-).
        exists ((k, x) :: l). split; [now constructor|]. cbn. now rewrite Hc.
      * exfalso. cbn [map_arms] in E. rewrite Et in E. destruct t; cbn [is_whole] in E; try destruct str_eqb; destruct t2; try discriminate E; contradiction.
  - exfalso. cbn [map_arms] in E. rewrite Et in E. destruct (is_whole t); [discriminate E|]. destruct t; discriminate E.
Qed.
Lemma list_understood n : forall ts, length ts <= n -> Forall understood ts ->
  (forall acc c, acc <> [] -> list_arms acc true ts = Some c -> exists l, separated env ts l /\ c = CVec (acc ++ map code_of l)) /\
  (forall acc c, acc <> [] -> list_arms acc false ts = Some c -> exists l,
     (ts = [] /\ l = [] \/ exists ts', ts = MtComma :: ts' /\ separated env ts' l) /\ c = CVec (acc ++ map code_of l)) /\
  (forall c, list_arms [] true ts = Some c -> exists k ts' l, ts = repeat MtComma k ++ ts' /\ separated env ts' l /\ c = CVec (map code_of l)).
Proof.
  induction n as [|n IH]; intros ts Hn F.
  { destruct ts; [|cbn in Hn; lia]. split; [|split].
    - intros acc c _ E. injection E as <-. exists []. split; [constructor|]. now rewrite app_nil_r.
    - intros acc c _ E. injection E as <-. exists []. split; [auto|]. now rewrite app_nil_r.
    - intros c E. injection E as <-. exists 0, [], []. split; [reflexivity|]. split; [constructor|reflexivity]. }
  destruct ts as [|t ts].
  { split; [|split].
    - intros acc c _ E. injection E as <-. exists []. split; [constructor|]. now rewrite app_nil_r.
    - intros acc c _ E. injection E as <-. exists []. split; [auto|]. now rewrite app_nil_r.
    - intros c E. injection E as <-. exists 0, [], []. split; [reflexivity|]. split; [constructor|reflexivity]. }
  pose proof (Forall_inv F) as U. pose proof (Forall_inv_tail F) as F'. cbn [length] in Hn.
  destruct (IH ts ltac:(lia) F') as (I1 & I2 & I3).
  assert (Value : forall acc c, list_arms acc true (t :: ts) = Some c -> (t = MtComma /\ acc = [] /\ list_arms [] true ts = Some c) \/
     exists l, separated env (t :: ts) l /\ c = CVec (acc ++ map code_of l)).
  { intros acc c E. cbn [list_arms] in E. rewrite andb_true_l in E. destruct (is_whole t) eqn:W.
    - destruct (expand t) as [c0|] eqn:Et; [|discriminate E]. destruct (U c0 Et) as (x & Hx & <-). right.
      destruct (I2 (acc ++ [code_of x]) c ltac:(destruct acc; discriminate) E) as (l & [(-> & ->)|(ts' & -> & Hs)] & ->).
      + exists [x]. split; [now constructor|]. cbn. now rewrite app_nil_r.
      + exists (x :: l). split; [now constructor|]. cbn. now rewrite <- app_assoc.
    - assert (Expr : match ts with
                     | MtComma :: rest'' => match expand t with Some c => list_arms (acc ++ [c]) true rest'' | None => None end
                     | [] => match expand t with Some c => Some (CVec (acc ++ [c])) | None => None end
                     | _ => None
                     end = Some c -> exists l, separated env (t :: ts) l /\ c = CVec (acc ++ map code_of l)).
      { clear E. intros E. destruct ts as [|t2 ts].
        - destruct (expand t) as [c0|] eqn:Et; [|discriminate E]. destruct (U c0 Et) as (x & Hx & <-). injection E as <-. exists [x]. split; [now constructor|reflexivity].
        - destruct t2; try discriminate E. destruct (expand t) as [c0|] eqn:Et; [|discriminate E]. destruct (U c0 Et) as (x & Hx & <-).
          destruct (IH ts ltac:(cbn [length] in Hn; lia) (Forall_inv_tail F')) as (J1 & _). destruct (J1 (acc ++ [code_of x]) c ltac:(destruct acc; discriminate) E) as (l & Hs & ->).
          exists (x :: l). split; [now constructor|]. cbn. now rewrite <- app_assoc. }
      destruct t; try discriminate E; try (right; exact (Expr E)).
      destruct acc; [left; auto|discriminate E]. }
  split; [|split].
  - intros acc c Ha E. destruct (Value acc c E) as [(-> & -> & _)|H]; [contradiction|exact H].
  - intros acc c Ha E. cbn [list_arms] in E. rewrite andb_false_l in E. destruct t; try discriminate E. cbn [negb orb] in E.
    destruct (I1 _ _ Ha E) as (l & Hs & ->). exists l. split; [right; eauto|reflexivity].
  - intros c E. destruct (Value [] c E) as [(-> & _ & E')|(l & Hs & ->)].
    + destruct (I3 c E') as (k & ts' & l & -> & Hs & ->). exists (S k), ts', l. auto.
    + exists 0, (t :: ts), l. auto.
Qed.
Lemma all_understood t : understood t.
Proof.
  induction t as [w|d| | |l IH|l IH] using tt_ind'; intros c E.
  - cbn [Macros.expand] in E. destruct (str_eqb w (s2b "None")) eqn:W; injection E as <-.
    + apply str_eqb_eq in W as ->. exists LNone. split; [constructor|reflexivity].
    + exists (LOf (env w)). split; [constructor; intros ->; discriminate W|reflexivity].
  - injection E as <-. exists (LOf d). split; [constructor|reflexivity].
  - discriminate E.
  - discriminate E.
  - rewrite expand_list in E. destruct (list_understood _ l (le_n _) IH) as (_ & _ & H). destruct (H c E) as (k & ts & es & -> & Hs & ->).
    exists (LList es). split; [now constructor|reflexivity].
  - rewrite expand_map in E. destruct (map_arms l) as [es|] eqn:Em; [|discriminate E]. injection E as <-.
    destruct (map_understood _ l (le_n _) IH es Em) as (x & Hx & <-). exists (LMap x). split; [now constructor|reflexivity].
Qed.
Lemma code_of_inj x : forall y, code_of x = code_of y -> x = y.
Proof.
  induction x as [|d|l IH|l IH] using lit_ind'; intros [|d'|l'|l'] E; cbn in E; try discriminate E; [reflexivity|congruence|..]; injection E as E; f_equal.
  - revert l' E. induction IH as [|x l Hx _ IHl]; intros [|y l'] E; try discriminate E; [reflexivity|]. cbn in E. injection E as E1 E2. f_equal; auto.
  - revert l' E. induction IH as [|[k x] l Hx _ IHl]; intros [|[k' y] l'] E; try discriminate E; [reflexivity|]. cbn in E. injection E as E0 E1 E2. cbn in Hx. f_equal; auto. f_equal; auto.
Qed.

(** Running the expansion. *)
Fixpoint evals (l : list code) : res (list value) :=
  match l with
  | [] => Ok []
  | c :: l' => let* v := eval c in let* vs := evals l' in Ok (v :: vs)
  end.
Fixpoint inserts (l : list (str * code)) (m : list (str * value)) : res (list (str * value)) :=
  match l with
  | [] => Ok m
  | (k, c) :: l' => let* v := eval c in inserts l' (map_insert k v m)
  end.
Lemma eval_vec l : eval (CVec l) = let* vs := evals l in Ok (VList vs).
Proof. reflexivity. Qed.
Lemma eval_map l : eval (CMap l) = let* m := inserts l [] in Ok (VMap m).
Proof. reflexivity. Qed.
Definition refuses (d : sdata) : Prop := exists m, converts d (inr m).
Lemma run_code x : (forall d, occurs d x -> machine d) ->
  (exists v, eval (code_of x) = Ok v /\ denotes x v /\ forall d, occurs d x -> ~ refuses d) \/ (eval (code_of x) = Panic /\ exists d, occurs d x /\ refuses d).
Proof.
  induction x as [|d|l IH|l IH] using lit_ind'; intros M.
  - left. exists VNone. split; [reflexivity|]. split; [constructor|]. intros d H. inversion H.
  - destruct (C26_rules d (M d (oc_here d))) as ([v|m] & Hr & Hu & E); cbn [code_of eval]; rewrite E.
    + left. exists v. split; [reflexivity|]. split; [now constructor|]. intros d' H (m & Hm). inversion H; subst. specialize (Hu _ Hm). discriminate Hu.
    + right. split; [reflexivity|]. exists d. split; [constructor|]. exists m. exact Hr.
  - assert (K : (exists vs, evals (map code_of l) = Ok vs /\ Forall2 denotes l vs /\ forall x d, In x l -> occurs d x -> ~ refuses d) \/
                (evals (map code_of l) = Panic /\ exists x d, In x l /\ occurs d x /\ refuses d)).
    { assert (M' : forall x, In x l -> forall d, occurs d x -> machine d) by (intros; eapply M, oc_list; eauto). clear M.
      induction IH as [|x l Hx _ IHl]; [left; exists []; split; [reflexivity|]; split; [constructor|]; intros x d []|]. cbn [map evals].
      destruct (Hx (M' x (or_introl eq_refl))) as [(v & -> & Hd & Hn)|(-> & d & Ho & Hr)].
      - cbn [bind]. destruct (IHl (fun y Hy => M' y (or_intror Hy))) as [(vs & -> & Hf & Hn')|(-> & y & d & Hy & Ho & Hr)].
        + left. exists (v :: vs). split; [reflexivity|]. split; [now constructor|]. intros y d [<-|Hy]; eauto.
        + right. split; [reflexivity|]. exists y, d. split; [now right|auto].
      - right. split; [reflexivity|]. exists x, d. split; [now left|auto]. }
    cbn [code_of]. rewrite eval_vec. destruct K as [(vs & -> & Hf & Hn)|(-> & x & d & Hx & Ho & Hr)].
    + left. exists (VList vs). split; [reflexivity|]. split; [now constructor|]. intros d H. inversion H; subst. eauto.
    + right. split; [reflexivity|]. exists d. split; [eapply oc_list; eauto|exact Hr].
  - assert (K : (exists es, (forall a m, map_with a m -> exists m', inserts (map code_entry l) m = Ok m' /\ map_with (a ++ es) m') /\
                   Forall2 (fun kx kv => fst kx = fst kv /\ denotes (snd kx) (snd kv)) l es /\ forall k x d, In (k, x) l -> occurs d x -> ~ refuses d) \/
                ((forall m, inserts (map code_entry l) m = Panic) /\ exists k x d, In (k, x) l /\ occurs d x /\ refuses d)).
    { assert (M' : forall k x, In (k, x) l -> forall d, occurs d x -> machine d) by (intros; eapply M, oc_map; eauto). clear M.
      induction IH as [|[k x] l Hx _ IHl].
      { left. exists []. split; [|split; [constructor|]; intros ? ? ? []]. intros a m Ha. exists m. split; [reflexivity|]. now rewrite app_nil_r. }
      cbn [map inserts fst snd] in *. destruct (Hx (M' k x (or_introl eq_refl))) as [(v & -> & Hd & Hn)|(-> & d & Ho & Hr)].
      - cbn [bind]. destruct (IHl (fun k' y Hy => M' k' y (or_intror Hy))) as [(es & Hes & Hf & Hn')|(Hp & k' & y & d & Hy & Ho & Hr)].
        + left. exists ((k, v) :: es). split; [|split].
          * intros a m Ha. destruct (Hes (a ++ [(k, v)]) (map_insert k v m) (map_with_insert _ _ _ _ Ha)) as (m' & E & W). exists m'. split; [exact E|]. now rewrite <- app_assoc in W.
          * constructor; [split; [reflexivity|exact Hd]|exact Hf].
          * intros k' y d [E|Hy]; [injection E as <- <-; apply Hn|eauto].
        + right. split; [intros m; apply Hp|]. exists k', y, d. split; [now right|auto].
      - right. split; [reflexivity|]. exists k, x, d. split; [now left|auto]. }
    cbn [code_of]. rewrite eval_map. destruct K as [(es & Hes & Hf & Hn)|(Hp & k & x & d & Hx & Ho & Hr)].
    + destruct (Hes [] [] map_with_nil) as (m & -> & W). left. exists (VMap m). split; [reflexivity|]. split; [now apply (de_map l es m)|].
      intros d H. inversion H; subst. eauto.
    + rewrite Hp. right. split; [reflexivity|]. exists d. split; [eapply oc_map; eauto|exact Hr].
Qed.
End Expansion.

(** ** C38 *)
Section C38.
Variable env : str -> sdata.
(** C38.  [value! { ts }] compiles exactly if [ts] are entries of a map in the
    notation, which can be read in one way. *)
Theorem C38_compiles ts :
  (forall c, value_macro env ts = Some c -> exists l, entries env ts l) /\
  (forall l, entries env ts l -> exists c, value_macro env ts = Some c) /\
  (forall l l', entries env ts l -> entries env ts l' -> l = l').
Proof.
  unfold value_macro. split; [|split].
  - intros c E. destruct (all_understood env _ c E) as (x & Hx & _). inversion Hx; subst. eauto.
  - intros l H. rewrite expand_map. destruct (reads_expand env) as (_ & _ & R). rewrite (R _ _ H). eauto.
  - intros l l' H H'. destruct (reads_expand env) as (R & _). pose proof (R _ _ (rd_map env _ _ H)) as E. pose proof (R _ _ (rd_map env _ _ H')) as E'.
    rewrite E in E'. injection E' as E'. assert (K : LMap l = LMap l') by (apply code_of_inj; cbn; now f_equal). congruence.
Qed.
(** C38.  It panics exactly if one of the expressions does not convert to a value;
    otherwise it is the map denoted. *)
Theorem C38_value ts l c : entries env ts l -> value_macro env ts = Some c -> (forall d, occurs d (LMap l) -> machine d) ->
  match eval c with
  | Ok v => denotes (LMap l) v /\ forall d, occurs d (LMap l) -> exists w, converts d (inl w)
  | Panic => exists d m, occurs d (LMap l) /\ converts d (inr m)
  | _ => False
  end.
Proof.
  intros H E M. unfold value_macro in E. destruct (reads_expand env) as (R & _). rewrite (R _ _ (rd_map env _ _ H)) in E. injection E as <-.
  change (CMap _) with (code_of (LMap l)). destruct (run_code (LMap l) M) as [(v & -> & Hd & Hn)|(-> & d & Ho & m & Hm)]; [|eauto].
  split; [exact Hd|]. intros d Ho. destruct (C26_rules d (M d Ho)) as ([w|m] & Hr & _); [eauto|]. destruct (Hn d Ho). now exists m.
Qed.
(** C38.  What is denoted is determined. *)
Theorem C38_determined x : (forall d, occurs d x -> machine d) -> forall v w, denotes x v -> denotes x w -> v = w.
Proof.
  induction x as [|d|l IH|l IH] using lit_ind'; intros M v w Hv Hw; inversion Hv; inversion Hw; subst; [reflexivity|..].
  - destruct (C26_rules d (M d (oc_here d))) as (r & _ & Hu & _). pose proof (Hu _ H0) as A. pose proof (Hu _ H3) as B. congruence.
  - f_equal. assert (M' : forall x, In x l -> forall d, occurs d x -> machine d) by (intros; eapply M, oc_list; eauto). clear M Hv Hw.
    revert vs vs0 H0 H3. induction IH as [|x l Hx _ IHl]; intros vs vs0 H1 H2; inversion H1; inversion H2; subst; [reflexivity|].
    f_equal; [apply (Hx (M' x (or_introl eq_refl))); assumption|]. apply IHl; auto. intros; eapply M'; [right|]; eauto.
  - f_equal. assert (M' : forall k x, In (k, x) l -> forall d, occurs d x -> machine d) by (intros; eapply M, oc_map; eauto).
    assert (E : es = es0).
    { clear M Hv Hw H1 H5 m m0. revert es es0 H0 H4. induction IH as [|[k x] l Hx _ IHl]; intros es es0 H1 H2; inversion H1; inversion H2; subst; [reflexivity|].
      destruct y as [k1 v1], y0 as [k2 v2]. cbn [fst snd] in *. destruct H3 as [-> H3], H8 as [-> H8].
      f_equal; [f_equal; apply (Hx (M' k2 x (or_introl eq_refl))); assumption|]. apply IHl; auto. intros; eapply M'; [right|]; eauto. }
    subst es0. exact (map_with_fun _ _ _ H1 H5).
Qed.
End C38.
Print Assumptions C38_compiles.
Print Assumptions C38_value.
Print Assumptions C38_determined.

(** ** Concrete cases *)
Section Cases.
Definition vars (w : str) : sdata :=
  if str_eqb w (s2b "true") then SBool true else if str_eqb w (s2b "names") then SSeq [SStr (s2b "John"); SStr (s2b "James")] else SBool false.
Definition W (s : str) := MtWord s.
(** [value! { a: names, b: [, None, {x: -1}, true,], a: {}, }] *)
Definition sample : list tt :=
  [W (s2b "a"); MtColon; W (s2b "names"); MtComma;
   W (s2b "b"); MtColon; MtList [MtComma; W (s2b "None"); MtComma; MtMap [W (s2b "x"); MtColon; MtExpr (SI32 (-1))]; MtComma; W (s2b "true"); MtComma]; MtComma;
   W (s2b "a"); MtColon; MtMap []; MtComma].
Definition sample_lit : list (str * lit) :=
  [(s2b "a", LOf (vars (s2b "names"))); (s2b "b", LList [LNone; LMap [(s2b "x", LOf (SI32 (-1)))]; LOf (SBool true)]); (s2b "a", LMap [])].
Lemma sample_reads : entries vars sample sample_lit.
Proof.
  unfold sample, sample_lit, W. apply en_more; [apply rd_word; discriminate|]. apply en_more.
  - apply (rd_list vars 1). apply sp_more; [apply rd_none|]. apply sp_more; [apply rd_map; apply en_last; apply rd_expr|].
    apply sp_more; [apply (rd_word vars (s2b "true")); discriminate|apply sp_nil].
  - apply en_more; [apply rd_map; apply en_nil|apply en_nil].
Qed.
Ltac occ H := match type of H with
  | occurs _ (LOf _) => inversion H; subst; clear H
  | occurs _ LNone => inversion H
  | occurs _ (LList _) => let x := fresh in let Hi := fresh in let H1 := fresh in inversion H as [|x ? Hi H1|]; subst; clear H; cbn [In] in Hi; repeat (destruct Hi as [Hi|Hi]; [subst; occ H1|]); try destruct Hi
  | occurs _ (LMap _) => let k := fresh in let x := fresh in let Hi := fresh in let H1 := fresh in inversion H as [| |k x ? Hi H1]; subst; clear H; cbn [In] in Hi; repeat (destruct Hi as [Hi|Hi]; [injection Hi as <- <-; occ H1|]); try destruct Hi
  end.
Lemma sample_machine d : occurs d (LMap sample_lit) -> machine d.
Proof. intros H. unfold sample_lit in H. occ H.
  - split; [|split; [|exact I]]; now apply asciib_valid.
  - split; [discriminate|reflexivity].
  - exact I. Qed.
Example C38_case : exists c, value_macro vars sample = Some c /\
  eval c = Ok (VMap [(s2b "a", VMap []); (s2b "b", VList [VNone; VMap [(s2b "x", VInt (-1))]; VBool true])]).
Proof. exists (match value_macro vars sample with Some c => c | None => CNone end). split; vm_compute; reflexivity. Qed.
Example C38_case_denotes : denotes (LMap sample_lit) (VMap [(s2b "a", VMap []); (s2b "b", VList [VNone; VMap [(s2b "x", VInt (-1))]; VBool true])]).
Proof. destruct C38_case as (c & E & Ev). pose proof (C38_value vars _ _ _ sample_reads E sample_machine) as H. rewrite Ev in H. apply H. Qed.
(** An expression that does not convert: a panic. *)
Example C38_case_panic : exists c, value_macro vars [W (s2b "a"); MtColon; MtList [MtExpr (SU128 1)]] = Some c /\ eval c = Panic.
Proof. exists (CMap [(s2b "a", CVec [CToValue (SU128 1)])]). split; vm_compute; reflexivity. Qed.
(** What does not compile (tests/macros.rs 128-147). *)
Definition field (t : tt) : list tt := [W (s2b "field"); MtColon; t].
Example C38_case_rejected :
  map (fun t => value_macro vars (field t))
    [MtMap [MtComma]; MtMap [W (s2b "false")]; MtMap [W (s2b "None")]; MtMap [W (s2b "x")]; MtMap [W (s2b "x"); MtColon];
     MtMap [MtExpr (SStr (s2b "x")); MtColon; W (s2b "false"); MtComma]; MtMap [W (s2b "x"); W (s2b "y")];
     MtList [W (s2b "x"); MtComma; MtComma]; MtList [MtList []; MtList []]]
  = [None; None; None; None; None; None; None; None; None].
Proof. vm_compute. reflexivity. Qed.
(** tests/macros.rs 7-127. *)
Example C38_case_accepted :
  map (fun t => match value_macro vars (field t) with Some c => eval c | None => Panic end)
    [W (s2b "None"); W (s2b "true"); W (s2b "false"); MtExpr (SI32 (-123)); MtExpr (SStr (s2b "test")); MtList []; MtList [MtComma];
     MtList [W (s2b "true")]; MtList [W (s2b "true"); MtComma]; MtMap []; MtMap (field (MtExpr (SStr (s2b "hello"))) ++ [MtComma])]
  = map (fun v => Ok (VMap [(s2b "field", v)]))
    [VNone; VBool true; VBool false; VInt (-123); VStr (s2b "test"); VList []; VList []; VList [VBool true]; VList [VBool true]; VMap [];
     VMap [(s2b "field", VStr (s2b "hello"))]].
Proof. vm_compute. reflexivity. Qed.
End Cases.
