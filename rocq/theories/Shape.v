(** Templates that suit their context do not fail (C57): the proof. *)
From Verif Require Import Base Utf8 Ext Errors Value Ast Fmt Stack Filters FilterSpec FilterProof Render LookupSpec MapFacts
  OriginSpec RenderObs Meaning MeaningProof Props14 ShapeSpec.

Lemma Forall2_length {A B} (R : A -> B -> Prop) l l' : Forall2 R l l' -> length l = length l'.
Proof. induction 1; cbn; congruence. Qed.
(** ** Values *)
Lemma has_items ss v : has v (Items ss) -> forall i s, nth_error ss i = Some s -> exists l x, v = VList l /\ nth_error l i = Some x /\ has x s.
Proof.
  intros (l & -> & H) i s E. exists l. revert l H i E. induction ss as [|s0 ss IH]; intros [|x l] H i E.
  - destruct i; discriminate.
  - destruct i; discriminate.
  - destruct H.
  - destruct H as [H1 H2]. destruct i as [|i]; cbn [nth_error] in *.
    + injection E as <-. eauto.
    + destruct (IH l H2 i E) as (y & _ & E2 & Hy). eauto.
Qed.
Lemma has_fields fs v : has v (Fields fs) -> exists m, v = VMap m /\ forall k s, map_get k fs = Some s -> exists x, map_get k m = Some x /\ has x s.
Proof.
  intros (m & -> & H). exists m. split; [reflexivity|]. induction fs as [|[k0 s0] fs IH]; intros k s E; [discriminate|].
  destruct H as [H1 H2]. cbn [map_get] in E. destruct (str_eqb k k0) eqn:Ek.
  - apply str_eqb_eq in Ek. subst k0. injection E as <-. exact H1.
  - apply (IH H2 k s E).
Qed.
Lemma walk_ok s path s' : walk s path s' -> forall v, has v s -> exists v', follow v path = Found v' /\ has v' s'.
Proof.
  induction 1 as [s|fs k s o path s' E W IH|ss i s o path s' E W IH]; intros v Hv; cbn [follow].
  - eauto.
  - destruct (has_fields fs v Hv) as (m & -> & H). destruct (H k s E) as (x & Ex & Hx). cbn [ps_key]. rewrite Ex. auto.
  - destruct (has_items ss v Hv _ s E) as (l & x & -> & Ex & Hx). cbn [ps_key]. rewrite Ex. auto.
Qed.
Lemma may_walk_ok s path s' : may_walk s path s' -> forall v, has v s -> (exists v', follow v path = Found v' /\ has v' s') \/ follow v path = Absent.
Proof.
  induction 1 as [s|fs k s o path s' E W IH|ss i s o path s' E W IH|s k path s' W IH|s i path s' W IH|fs k E]; intros v Hv; cbn [follow].
  - eauto.
  - destruct (has_fields fs v Hv) as (m & -> & H). destruct (H k s E) as (x & Ex & Hx). cbn [ps_key]. rewrite Ex. auto.
  - destruct (has_items ss v Hv _ s E) as (l & x & -> & Ex & Hx). cbn [ps_key]. rewrite Ex. auto.
  - destruct Hv as (m & -> & H). cbn [ps_key ps_optional]. destruct (map_get k m) as [x|] eqn:Ex; [|auto]. apply IH. eapply H. eapply map_get_In; eauto.
  - destruct Hv as (l & -> & H). cbn [ps_key ps_optional]. destruct (nth_error l (N.to_nat i)) as [x|] eqn:Ex; [|auto]. apply IH.
    rewrite Forall_forall in H. apply H. eapply nth_error_In; eauto.
  - destruct (has_fields fs v Hv) as (m & -> & _). cbn [ps_key ps_optional]. destruct (map_get k m) as [x|]; [left; cbn; eauto|auto].
Qed.

(** ** Variables *)
Definition holds (en : env) (x : str) (k : known) : Prop :=
  exists v, has v (kn_shape k) /\ forall rest,
    match follow v rest with
    | Found v' => exists c, m_find en x rest = inl c /\ cow_val c = v'
    | Absent => kn_loop k = false -> exists c, m_find en x rest = inl c /\ cow_val c = VNone
    | Stuck _ => True
    end.
Definition sees (en : env) (sc : scope_shape) : Prop := forall x k, map_get x sc = Some k -> holds en x k.

Lemma sees_provides en sc need : sees en sc -> provides sc need -> sees en need.
Proof.
  intros H Hp x k' E. destruct (Hp x k' E) as (k & Ek & Hl & Hs). destruct (H x k Ek) as (v & Hv & Hr). exists v. split; [apply Hs, Hv|].
  intros rest. specialize (Hr rest). destruct (follow v rest); auto. intros E'. apply Hr. destruct (kn_loop k); auto. rewrite Hl in E' by auto. discriminate.
Qed.
Lemma cow_mk o v : cow_val (mk_cow o v) = v.
Proof. now destruct o. Qed.
Lemma got_ok o v rest : match follow v rest with
  | Found v' => exists c, got_of o (follow v rest) = inl c /\ cow_val c = v'
  | Absent => exists c, got_of o (follow v rest) = inl c /\ cow_val c = VNone
  | Stuck _ => True end.
Proof. destruct (follow v rest); cbn; auto; eexists; split; try reflexivity; apply cow_mk. Qed.
Lemma members_get fs x k : map_get x (members fs) = Some k -> exists s, map_get x fs = Some s /\ k = mkknown false s.
Proof.
  unfold members. induction fs as [|[k0 s0] fs IH]; cbn [map map_get fst snd]; [discriminate|]. destruct (str_eqb x k0); [|exact IH]. intros E. injection E as <-. eauto.
Qed.
Lemma sees_members c fs : has (cow_val c) (Fields fs) -> sees [BScope c] (members fs).
Proof.
  intros H x k E. destruct (members_get fs x k E) as (s & Es & ->). destruct (has_fields _ _ H) as (m & Em & Hm). destruct (Hm x s Es) as (v & Ev & Hv).
  exists v. split; [exact Hv|]. intros rest. cbn [m_find ask]. rewrite Em, Ev. pose proof (got_ok (is_owned c) v rest) as G. destruct (follow v rest); auto.
Qed.
Lemma sees_name en sc x s c : sees en sc -> has (cow_val c) s -> sees (BName x c :: en) ((x, mkknown false s) :: sc).
Proof.
  intros H Hc y k E. cbn [map_get] in E. destruct (str_eqb y x) eqn:Ey.
  - injection E as <-. exists (cow_val c). split; [exact Hc|]. intros rest. cbn [m_find ask]. rewrite Ey.
    pose proof (got_ok (is_owned c) (cow_val c) rest) as G. destruct (follow (cow_val c) rest); auto.
  - destruct (H y k E) as (v & Hv & Hr). exists v. split; [exact Hv|]. intros rest. cbn [m_find ask]. rewrite Ey. apply Hr.
Qed.
Lemma loop_ok i rem rest : match follow (loop_map i rem) rest with
  | Found v' => exists c, loop_path i rem rest = inl c /\ cow_val c = v' | _ => True end.
Proof.
  destruct rest as [|[o [k|n]] rest]; cbn [follow loop_path ps_key ps_optional].
  - eexists. split; reflexivity.
  - unfold loop_map. destruct (map_get k _) as [v|] eqn:E; [|now destruct o].
    destruct rest as [|[o2 [k2|n2]] rest]; cbn [follow ps_key]; [eexists; split; reflexivity|..].
    + assert (N : exists b, v = VBool b \/ exists z, v = VInt z).
      { cbn [map_get] in E. destruct (str_eqb k _); [injection E as <-; eauto|]. destruct (str_eqb k _); [injection E as <-; exists true; eauto|]. destruct (str_eqb k _); [injection E as <-; eauto|discriminate]. }
      destruct N as (b & [->|(z & ->)]); exact I.
    + assert (N : exists b, v = VBool b \/ exists z, v = VInt z).
      { cbn [map_get] in E. destruct (str_eqb k _); [injection E as <-; eauto|]. destruct (str_eqb k _); [injection E as <-; exists true; eauto|]. destruct (str_eqb k _); [injection E as <-; eauto|discriminate]. }
      destruct N as (b & [->|(z & ->)]); exact I.
  - exact I.
Qed.
Lemma has_loop i rem : has (loop_map i rem) loop_shape.
Proof.
  eexists. split; [reflexivity|]. split; [|split; [|split; [|exact I]]]; (eexists; split; [reflexivity|cbn; eauto]).
Qed.
Lemma item_ok o v rest : match follow v rest with
  | Found v' => exists c, item_path o v rest = Some (inl c) /\ cow_val c = v' | _ => True end.
Proof. unfold item_path. destruct (follow v rest); cbn; auto. eexists. split; [reflexivity|apply cow_mk]. Qed.
Lemma sees_item en sc x s o v i rem : sees en sc -> has v s ->
  sees (BItem x o v i rem :: en) ((s2b "loop", mkknown true loop_shape) :: (x, mkknown true s) :: sc).
Proof.
  intros H Hv y k E. cbn [map_get] in E. destruct (str_eqb y (s2b "loop")) eqn:El.
  - injection E as <-. exists (loop_map i rem). split; [apply has_loop|]. intros rest. cbn [m_find ask]. rewrite El.
    pose proof (loop_ok i rem rest) as L. destruct (follow (loop_map i rem) rest); auto. discriminate.
  - destruct (str_eqb y x) eqn:Ey.
    + injection E as <-. exists v. split; [exact Hv|]. intros rest. cbn [m_find ask]. rewrite El, Ey.
      pose proof (item_ok o v rest) as L. destruct (follow v rest); auto; [|discriminate]. destruct L as (c & -> & Ec). eauto.
    + destruct (H y k E) as (v0 & Hv0 & Hr). exists v0. split; [exact Hv0|]. intros rest. cbn [m_find ask]. rewrite El, Ey. apply Hr.
Qed.
Lemma sees_entry en sc kn vn s o key v i rem : sees en sc -> has v s ->
  sees (BEntry kn vn o key v i rem :: en) ((s2b "loop", mkknown true loop_shape) :: (kn, mkknown true Text) :: (vn, mkknown true s) :: sc).
Proof.
  intros H Hv y k E. cbn [map_get] in E. destruct (str_eqb y (s2b "loop")) eqn:El.
  - injection E as <-. exists (loop_map i rem). split; [apply has_loop|]. intros rest. cbn [m_find ask]. rewrite El.
    pose proof (loop_ok i rem rest) as L. destruct (follow (loop_map i rem) rest); auto. discriminate.
  - destruct (str_eqb y kn) eqn:Ek.
    + injection E as <-. exists (VStr key). split; [cbn; eauto|]. intros rest. cbn [m_find ask]. rewrite El, Ek.
      destruct rest as [|[o2 [k2|n2]] rest]; cbn [follow ps_key]; auto. eexists. split; reflexivity.
    + destruct (str_eqb y vn) eqn:Ey.
      * injection E as <-. exists v. split; [exact Hv|]. intros rest. cbn [m_find ask]. rewrite El, Ek, Ey.
        pose proof (item_ok o v rest) as L. destruct (follow v rest); auto; [|discriminate]. destruct L as (c & -> & Ec). eauto.
      * destruct (H y k E) as (v0 & Hv0 & Hr). exists v0. split; [exact Hv0|]. intros rest. cbn [m_find ask]. rewrite El, Ek, Ey. apply Hr.
Qed.

(** ** Expressions *)
Section World.
Context `{X : Ext}.
Variable w : world.
Variable P : promises.
Hypothesis Hfilter : forall name r args s, In (name, (r, args, s)) (p_filters P) -> exists f, w_function w name = Some (EFilter f) /\ filter_keeps f r args s.
Hypothesis Hformat : forall name s, In (name, s) (p_formatters P) -> exists f, w_function w name = Some (EFormatter f) /\ formatter_keeps f s.
Hypothesis Hdefault : formatter_keeps (w_default w) (p_default P).

Definition atom_value (en : env) (a : patom) : got := match a with PLit v => inl (Borrowed v) | PVar first rest => m_find en first rest end.
Lemma atom_ok en sc a s : sees en sc -> atom_has sc a s -> exists c, atom_value en a = inl c /\ has (cow_val c) s.
Proof.
  intros H. induction 1 as [v s Hv|x k path s E W|x k path s E El W|a s s' _ IH L]; cbn [atom_value].
  - exists (Borrowed v). auto.
  - destruct (H x k E) as (v & Hv & Hr). destruct (walk_ok _ _ _ W v Hv) as (v' & Ef & Hv'). specialize (Hr path). rewrite Ef in Hr.
    destruct Hr as (c & Em & Ec). exists c. rewrite Ec. auto.
  - destruct (H x k E) as (v & Hv & Hr). specialize (Hr path). destruct (may_walk_ok _ _ _ W v Hv) as [(v' & Ef & Hv')|Ef]; rewrite Ef in Hr.
    + destruct Hr as (c & Em & Ec). exists c. rewrite Ec. split; [exact Em|now right].
    + destruct (Hr El) as (c & Em & Ec). exists c. rewrite Ec. split; [exact Em|now left].
  - destruct IH as (c & E & Hc). exists c. auto.
Qed.
Lemma args_ok en sc l args : sees en sc -> Forall2 (atom_has sc) l args -> exists cs, Forall2 (fun a c => atom_value en a = inl c) l cs /\ Forall2 (fun c a => has (cow_val c) a) cs args.
Proof.
  intros H. induction 1 as [|a s l args Ha _ (cs & I1 & I2)]; [exists []; auto|]. destruct (atom_ok en sc a s H Ha) as (c & E & Hc). exists (c :: cs). auto.
Qed.
Lemma arg_passes en t a c av : atom_value en a = inl c -> passes t c av -> m_arg en t a = inl av.
Proof.
  intros E Hp. unfold m_arg. change (match a with PLit v => inl (Borrowed v) | PVar first rest => m_find en first rest end) with (atom_value en a). rewrite E.
  replace (if is_owned c then from_value t (cow_val c) else from_value_ref t (cow_val c)) with (convert t c) by (destruct c; reflexivity).
  pose proof (convert_passes t c) as C. destruct (convert t c) as [av'|e].
  - destruct C as (C & _), Hp as (Hp & _). now rewrite (fits_fun _ _ _ _ C Hp).
  - destruct Hp as (Hf & Hr). destruct C as [r U|R O _].
    + destruct (fits_not_unfit _ _ _ _ _ Hf U).
    + rewrite (Hr R) in O. discriminate.
Qed.
Lemma args_pass en tys l cs avs : Forall2 (fun a c => atom_value en a = inl c) l cs -> passed tys cs avs -> m_args en tys l = inl avs.
Proof.
  intros H. revert tys avs. induction H as [|a c l cs E _ IH]; intros tys avs Hp; inversion Hp as [|t c' av ts cs' avs' Hp1 Hp2]; subst; [reflexivity|]. cbn [m_args].
  rewrite (arg_passes _ _ _ _ _ E Hp1), (IH _ _ Hp2). reflexivity.
Qed.
Lemma call_ok en f r args s l cs v : filter_keeps f r args s -> has v r ->
  Forall2 (fun a c => atom_value en a = inl c) l cs -> Forall2 (fun c a => has (cow_val c) a) cs args ->
  exists v', m_call en f v l = inl v' /\ has v' s.
Proof.
  intros (El & Hk) Hv Hl Hc. destruct (Hk v cs Hv Hc) as (a & avs & v' & Hf & Hp & Er & Hs). exists v'. split; [|exact Hs].
  unfold m_call. assert (En : length l = length (fl_args f)).
  { rewrite El. apply Forall2_length in Hc, Hl. congruence. }
  rewrite (proj2 (Nat.eqb_eq _ _) En).
  pose proof (ref_fits (s2b "value") (fl_recv f) v) as R. destruct (from_value_ref (fl_recv f) v) as [a'|e].
  - rewrite (fits_fun _ _ _ _ R Hf), (args_pass _ _ _ _ _ Hl Hp), Er. reflexivity.
  - destruct (fits_not_unfit _ _ _ _ _ Hf (proj1 R)).
Qed.
Lemma expr_ok en sc e s : sees en sc -> expr_has P sc e s -> exists c, m_expr w en e = inl c /\ has (cow_val c) s.
Proof.
  intros H. induction 1 as [a s Ha|e r f l args s _ IH Hin Hl|e r f s _ IH Hin|e s s' _ IH L].
  - destruct (atom_ok en sc a s H Ha) as (c & E & Hc). destruct a as [x rest|v]; cbn [atom_value m_expr] in *.
    + rewrite E. eauto.
    + injection E as <-. exists (Owned v). auto.
  - destruct IH as (c & E & Hc). cbn [m_expr]. rewrite E. destruct (Hfilter f r args s Hin) as (fl & Ef & Hk). unfold m_apply. rewrite Ef.
    destruct (args_ok en sc l args H Hl) as (cs & A1 & A2). destruct (call_ok en fl r args s l cs (cow_val c) Hk Hc A1 A2) as (v' & -> & Hv). exists (Owned v'). auto.
  - destruct IH as (c & E & Hc). cbn [m_expr]. rewrite E. destruct (Hfilter f r [] s Hin) as (fl & Ef & Hk). unfold m_apply. rewrite Ef.
    destruct (call_ok en fl r [] s [] [] (cow_val c) Hk Hc) as (v' & -> & Hv); [constructor..|]. exists (Owned v'). auto.
  - destruct IH as (c & E & Hc). exists c. auto.
Qed.
Lemma show_ok en sc e : sees en sc ->
  expr_has P sc e (p_default P) \/ (exists e' f s, e = PCall e' f None /\ In (f, s) (p_formatters P) /\ expr_has P sc e' s) ->
  exists f v out, m_show w en e = inl (f, v) /\ says (f v) out.
Proof.
  intros H [Ht|(e' & f & s & -> & Hin & Ht)].
  - destruct (expr_ok en sc e _ H Ht) as (c & E & Hc). destruct (Hdefault _ Hc) as (out & Ho). exists (w_default w), (cow_val c), out. split; [|exact Ho].
    unfold m_show. destruct e as [a|e' f [args|]]; try (now rewrite E). cbn [m_expr] in E. destruct (m_expr w en e') as [c'|]; [|discriminate].
    unfold m_apply in E. destruct (w_function w f) as [[fm|fl]|]; try discriminate E. destruct (m_call en fl (cow_val c') []) as [v|]; [|discriminate]. injection E as <-. reflexivity.
  - destruct (expr_ok en sc e' s H Ht) as (c & E & Hc). destruct (Hformat f s Hin) as (fm & Ef & Hk). destruct (Hk _ Hc) as (out & Ho).
    exists fm, (cow_val c), out. split; [|exact Ho]. cbn [m_show]. now rewrite E, Ef.
Qed.

(** ** Statements *)
Fixpoint lands {A} (x : rt A) : Prop :=
  match x with RRet (Ok _) => True | RRet _ => False | RWrite _ ok _ => lands ok end.
Lemma lands_bind {A B} (x : rt A) (f : A -> rt B) : lands x -> (forall a, lands (f a)) -> lands (rbind x f).
Proof. intros Hx Hf. induction x as [[a| | |]|s o IH e _]; cbn in *; auto; contradiction. Qed.
Lemma lands_fmt p out on_err : says p out -> lands (run_fmt p on_err).
Proof. induction 1; cbn; auto. Qed.
Lemma lands_each body en bs : (forall b, In b bs -> forall asked, lands (body (b :: en) asked)) -> forall asked, lands (m_each body en bs asked).
Proof. induction bs as [|b bs IH]; intros H asked; cbn [m_each]; [exact I|]. apply lands_bind; [apply H; now left|]. intros a. apply IH. intros b' Hb. apply H. now right. Qed.
Lemma rounds_in x o : forall l i b, In b (item_rounds x o i l) -> exists v j rem, b = BItem x o v j rem /\ In v l.
Proof. induction l as [|v l IH]; intros i b Hb; [destruct Hb|]. destruct Hb as [<-|Hb]; [eexists _, _, _; split; [reflexivity|now left]|]. destruct (IH _ _ Hb) as (v' & j & rem & -> & Hi). eexists _, _, _. split; [reflexivity|now right]. Qed.
Lemma entries_in kn vn o : forall l i b, In b (entry_rounds kn vn o i l) -> exists k v j rem, b = BEntry kn vn o k v j rem /\ In (k, v) l.
Proof. induction l as [|[k v] l IH]; intros i b Hb; [destruct Hb|]. destruct Hb as [<-|Hb]; [eexists _, _, _, _; split; [reflexivity|now left]|]. destruct (IH _ _ Hb) as (k' & v' & j & rem & -> & Hi). eexists _, _, _, _. split; [reflexivity|now right]. Qed.

Variable tree : str -> list pstmt.
Hypothesis Hfind : forall name need d, In (name, (need, d)) (p_templates P) ->
  (forall asked, exists asked', w_find w asked name = inl (tree name, asked')) /\ suits_all P d need (tree name).

Section Stmts.
Variable inc : option meaning.
Variable depth : nat.
Hypothesis Hinc : forall name need d, In (name, (need, d)) (p_templates P) -> d < depth ->
  exists m, inc = Some m /\ forall en asked, sees en need -> lands (m (tree name) (Some name) en asked).
Variable tname : option str.
Lemma stmt_lands s : forall sc en asked, sees en sc -> suits P depth sc s -> lands (m_stmt w inc tname s en asked).
Proof.
  assert (SC : forall l, Forall (fun s => forall sc en asked, sees en sc -> suits P depth sc s -> lands (m_stmt w inc tname s en asked)) l ->
    forall sc en asked, sees en sc -> suits_all P depth sc l -> lands (m_scope w inc tname l en asked)).
  { induction 1 as [|s0 l Hs _ IH]; intros sc en asked H Hl; cbn [m_scope]; [exact I|]. destruct Hl as [H1 H2]. apply lands_bind; [eapply Hs; eauto|]. intros a. eapply IH; eauto. }
  induction s as [t|e|name arg|neg c thn els IHt IHe|item e b IHb|kn vn e b IHb|e name b IHb] using pstmt_ind'; intros sc en asked H Hs.
  - exact I.
  - cbn [m_stmt]. destruct (show_ok en sc e H Hs) as (f & v & out & -> & Ho). apply lands_bind; [eapply lands_fmt; eauto|]. intros a. exact I.
  - cbn [m_stmt]. destruct arg as [e|].
    + destruct Hs as (need & d & fs & Hin & Hd & He & Hp). destruct (expr_ok en sc e _ H He) as (c & -> & Hc).
      destruct (proj1 (Hfind name need d Hin) asked) as (asked' & ->). destruct (Hinc name need d Hin Hd) as (m & -> & Hm).
      apply Hm. eapply sees_provides; [|exact Hp]. now apply sees_members.
    + destruct Hs as (need & d & Hin & Hd & Hp).
      destruct (proj1 (Hfind name need d Hin) asked) as (asked' & ->). destruct (Hinc name need d Hin Hd) as (m & -> & Hm).
      apply Hm. eapply sees_provides; eauto.
  - rewrite m_stmt_if. destruct Hs as ((s & Hc) & Ht & Hel). destruct (expr_ok en sc c s H Hc) as (v & -> & _).
    destruct (xorb neg (as_bool (cow_val v))); [exact (SC thn IHt sc en asked H Ht)|]. destruct els as [l|]; [exact (SC l IHe sc en asked H Hel)|exact I].
  - rewrite m_stmt_for. destruct Hs as (s & He & Hb). destruct (expr_ok en sc e _ H He) as (c & -> & (l & El & Hl)). rewrite El.
    apply lands_each. intros bd Hbd asked'. destruct (rounds_in _ _ _ _ _ Hbd) as (v & j & rem & -> & Hi). rewrite Forall_forall in Hl.
    eapply (SC b IHb); [|exact Hb]. apply sees_item; auto.
  - rewrite m_stmt_entries. destruct Hs as (s & He & Hb). destruct (expr_ok en sc e _ H He) as (c & -> & (l & El & Hl)). rewrite El.
    apply lands_each. intros bd Hbd asked'. destruct (entries_in _ _ _ _ _ _ Hbd) as (k & v & j & rem & -> & Hi).
    eapply (SC b IHb); [|exact Hb]. apply sees_entry; eauto.
  - rewrite m_stmt_with. destruct Hs as (s & He & Hb). destruct (expr_ok en sc e _ H He) as (c & -> & Hc).
    eapply (SC b IHb); [|exact Hb]. apply sees_name; auto.
Qed.
Lemma scope_lands l : forall sc en asked, sees en sc -> suits_all P depth sc l -> lands (m_scope w inc tname l en asked).
Proof.
  induction l as [|s l IH]; intros sc en asked H Hl; cbn [m_scope]; [exact I|]. destruct Hl as [H1 H2].
  apply lands_bind; [eapply stmt_lands; eauto|]. intros a. eapply IH; eauto.
Qed.
End Stmts.
Lemma template_lands : forall n d body tname sc en asked, d <= n -> sees en sc -> suits_all P d sc body -> lands (m_template w n body tname en asked).
Proof.
  induction n as [|n IH]; intros d body tname sc en asked Hd H Hs; cbn [m_template].
  - eapply (scope_lands None d); eauto. intros. lia.
  - eapply (scope_lands _ d); eauto. intros name need d' Hin Hd'. exists (m_template w n). split; [reflexivity|].
    intros en' asked' H'. eapply (IH d'); eauto; [lia|]. apply (Hfind name need d' Hin).
Qed.
Lemma render_lands d body tname sc en : d <= N.to_nat (w_limit w) - 1 -> sees en sc -> suits_all P d sc body -> lands (m_render w body tname en).
Proof. intros Hd H Hs. unfold m_render. apply lands_bind; [eapply template_lands; eauto|]. intros a. exact I. Qed.
End World.

(** ** What lands, succeeds *)
Lemma lands_string (x : rt unit) : lands x -> exists out, string_result x = Ok out.
Proof.
  unfold string_result. generalize (@nil byte). induction x as [[[]| | |]|s o IH e _]; intros acc H; cbn in *; try contradiction; eauto.
Qed.
Lemma run_refused {A} k (x : rt A) : forall w code, snd (fst (Fmt.run k w (Some code) x)) <> None.
Proof. induction x as [r|s o IHo e IHe]; intros w code; cbn; [discriminate|]. destruct (sk_write k w s) as [w' [c|]]; auto. Qed.
Lemma lands_writer k w (x : rt unit) : lands x ->
  match snd (writer_result k w x) with Ok _ | Panic | OutOfFuel => True | Err e => exists code, e = mk_io_error code end.
Proof.
  unfold writer_result. revert w. induction x as [[[]| | |]|s o IH e _]; intros w H; cbn [lands Fmt.run] in *; try contradiction; [exact I|].
  destruct (sk_write k w s) as [w' [code|]]; [|apply IH; exact H].
  pose proof (run_refused k e w' code) as N. destruct (Fmt.run k w' (Some code) e) as [[w2 [c|]] [[]| | |]]; cbn in *; auto; [eauto|congruence].
Qed.
