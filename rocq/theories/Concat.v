(** Templates put one after the other: their tokens and statements. *)
From Verif Require Import Base Utf8 Ext Errors Syntax SearchSpec SyntaxSpec Value Ast Lexer LexSpec TrimProof LexProof Wp GrammarSpec LayoutSpec
  CompileFacts ParseComplete ParseMain Meaning LayoutProof ConcatSpec.

Section Concat.
Context `{X : Ext}.
Variable sx : syntax.
Hypothesis Hu : user_syntax sx.
Variables a b : str.
Hypothesis Ha : valid_utf8 a.
Hypothesis Hb : valid_utf8 b.
Hypothesis Hs : no_straddle sx a b.
Hypothesis Hta : no_trim_after sx a.
Hypothesis Htb : no_trim_before sx b.
Notation ab := (a ++ b).
Notation la := (length a).

(** ** Positions *)
Lemma pat_ne k p : In (k, p) sx -> p <> [].
Proof. intros H. exact (proj1 (user_syntax_pat _ Hu _ _ H)). Qed.
Lemma pat_len k p : In (k, p) sx -> 0 < length p.
Proof. intros H. apply pat_ne in H. destruct p; [congruence|cbn; lia]. Qed.
Lemma sub_l m n : n <= la -> sub ab m n = sub a m n.
Proof.
  intros H. unfold sub. destruct (Nat.le_gt_cases m n) as [L|L].
  - rewrite skipn_app. replace (m - la) with 0 by lia. rewrite firstn_app, skipn_length.
    replace (n - m - (la - m)) with 0 by lia. cbn [firstn skipn]. now rewrite app_nil_r.
  - replace (n - m) with 0 by lia. reflexivity.
Qed.
Lemma sub_r m n : sub ab (la + m) (la + n) = sub b m n.
Proof.
  unfold sub. replace (la + n - (la + m)) with (n - m) by lia. f_equal. rewrite skipn_app, skipn_all2 by lia.
  replace (la + m - la) with m by lia. reflexivity.
Qed.
Lemma sub_mid2 m n : m <= la -> sub ab m (la + n) = sub a m la ++ sub b 0 n.
Proof. intros H. rewrite (sub_split ab m la (la + n)) by lia. rewrite sub_l by lia. f_equal. rewrite <- (sub_r 0 n). f_equal. lia. Qed.
Lemma skipn_l m : m <= la -> skipn m ab = skipn m a ++ b.
Proof. intros H. rewrite skipn_app. replace (m - la) with 0 by lia. reflexivity. Qed.
Lemma skipn_r m : skipn (la + m) ab = skipn m b.
Proof. rewrite skipn_app, skipn_all2 by lia. cbn. f_equal. lia. Qed.
Lemma bound_l m : m <= la -> boundary a m = true -> boundary ab m = true.
Proof.
  intros H B. destruct (Nat.eq_dec m la) as [->|N]; [now apply boundary_app|].
  unfold boundary in *. rewrite nth_error_app1 by lia. destruct (nth_error a m) eqn:E; [exact B|]. apply nth_error_None in E. lia.
Qed.
Lemma bound_r m : boundary b m = true -> boundary ab (la + m) = true.
Proof.
  intros B. destruct (Nat.eq_dec m 0) as [->|N]; [rewrite Nat.add_0_r; now apply boundary_app|].
  unfold boundary in *. rewrite nth_error_app2 by lia. replace (la + m - la) with m by lia. rewrite app_length.
  destruct (nth_error b m).
  - rewrite (proj2 (Nat.eqb_neq m 0) N), orb_false_r in B. rewrite B. reflexivity.
  - apply Nat.eqb_eq in B as ->. apply Nat.eqb_refl.
Qed.
Lemma occ_l k p i : In (k, p) sx -> i < la -> occurs_at p ab i <-> occurs_at p a i.
Proof.
  intros Hin Hi. split.
  - intros O. pose proof (Hs k p i Hin O Hi) as L. destruct O as (_ & t & E). split; [lia|].
    rewrite skipn_l in E by lia. exists (skipn (i + length p) a).
    assert (F : firstn (length p) (skipn i a ++ b) = p) by (rewrite E, firstn_app, firstn_all, Nat.sub_diag; apply app_nil_r).
    rewrite firstn_app, skipn_length in F. replace (length p - (la - i)) with 0 in F by lia. cbn [firstn] in F. rewrite app_nil_r in F.
    rewrite <- (firstn_skipn (length p) (skipn i a)) at 1. rewrite F. f_equal. rewrite skipn_skipn. f_equal. lia.
  - intros (_ & t & E). split; [rewrite app_length; lia|]. exists (t ++ b). rewrite skipn_l by lia. rewrite E. now rewrite <- app_assoc.
Qed.
Lemma occ_r p i : occurs_at p ab (la + i) <-> occurs_at p b i.
Proof. unfold occurs_at. rewrite skipn_r, app_length. split; intros (L & t & E); (split; [lia|eauto]). Qed.

(** ** Delimiters *)
Lemma best_l at_ k i j : i < la -> best sx ab at_ k i j <-> (best sx a at_ k i j).
Proof.
  intros Hi. split.
  - intros (H1 & H2 & H3 & H4 & H5 & bf & p & af & E & O & L & F).
    assert (Hin : In (k, p) sx) by (rewrite E; apply in_elt).
    assert (Oa : occurs_at p a i) by (now apply (occ_l k)).
    assert (Lj : j <= la) by (pose proof (Hs k p i Hin O Hi); lia).
    repeat split; auto.
    + intros i' k' p' Hin' O' L'. destruct (Nat.lt_ge_cases i' la) as [G|G]; [|lia]. apply (H4 i' k' p'); auto. now apply (occ_l k').
    + intros k' p' Hin' O'. apply (H5 k' p'); auto. now apply (occ_l k').
    + exists bf, p, af. auto.
  - intros (H1 & H2 & H3 & H4 & H5 & bf & p & af & E & O & L & F).
    assert (Hin : In (k, p) sx) by (rewrite E; apply in_elt).
    repeat split; auto.
    + rewrite app_length; lia.
    + intros i' k' p' Hin' O' L'. destruct (Nat.lt_ge_cases i' la) as [G|G]; [|lia]. apply (H4 i' k' p'); auto. now apply (occ_l k').
    + intros k' p' Hin' O'. apply (H5 k' p'); auto. now apply (occ_l k').
    + exists bf, p, af. split; [exact E|]. split; [now apply (occ_l k p i Hin Hi)|]. split; [exact L|exact F].
Qed.
Lemma best_r at_ k i j : best sx b at_ k i j <-> best sx ab (la + at_) k (la + i) (la + j).
Proof.
  split.
  - intros (H1 & H2 & H3 & H4 & H5 & bf & p & af & E & O & L & F). repeat split; try lia.
    + rewrite app_length; lia.
    + intros i' k' p' Hin' O' L'. replace i' with (la + (i' - la)) in O' |- * by lia. apply occ_r in O'. apply (H4 _ k' p') in O'; auto; lia.
    + intros k' p' Hin' O'. apply occ_r in O'. replace (la + j - (la + i)) with (j - i) by lia. eauto.
    + exists bf, p, af. replace (la + j - (la + i)) with (j - i) by lia. split; [exact E|]. split; [now apply occ_r|]. split; [exact L|exact F].
  - intros (H1 & H2 & H3 & H4 & H5 & bf & p & af & E & O & L & F). rewrite app_length in H3. repeat split; try lia.
    + intros i' k' p' Hin' O' L'. apply occ_r in O'. apply (H4 _ k' p') in O'; auto; lia.
    + intros k' p' Hin' O'. apply occ_r in O'. apply (H5 k' p') in O'; auto. lia.
    + exists bf, p, af. replace (la + j - (la + i)) with (j - i) in L by lia. split; [exact E|]. split; [now apply occ_r|]. split; [exact L|exact F].
Qed.
Lemma tag_nonempty (s : str) k m n : tag_at sx s k m n -> m < n /\ n <= length s.
Proof.
  intros (H1 & H2 & H3 & H4 & H5 & bf & p & af & E & O & L & F). assert (Hin : In (k, p) sx) by (rewrite E; apply in_elt).
  apply pat_len in Hin. lia.
Qed.
Lemma tag_l k m n : m < la -> tag_at sx ab k m n <-> tag_at sx a k m n.
Proof. intros H. now apply best_l. Qed.
Lemma tag_r k m n : tag_at sx b k m n <-> tag_at sx ab k (la + m) (la + n).
Proof. apply best_r. Qed.

(** ** White space *)
Lemma trims_app : trims_ok sx a -> trims_ok sx b -> trims_ok sx ab.
Proof.
  intros Ta Tb k m i k' j n T O W B O' H' L.
  pose proof (tag_nonempty ab _ _ _ T) as (L1 & L2). destruct (Nat.lt_ge_cases m la) as [Lm|Lm].
  - apply tag_l in T; [|exact Lm]. pose proof (tag_nonempty a _ _ _ T) as (_ & Li). rewrite sub_l in W by lia.
    destruct (Nat.lt_ge_cases j la) as [Lj|Lj].
    + rewrite sub_l by lia. apply (best_l i k' j n) in B; [|exact Lj]. exact (Ta _ _ _ _ _ _ T O W B O' H' L).
    + replace j with (la + (j - la)) by lia. rewrite sub_mid2 by lia. intros Hw.
      assert (Bb : tag_at sx b k' (j - la) (n - la)).
      { apply tag_r. replace (la + (j - la)) with j by lia. assert (j <= n) by apply B. replace (la + (n - la)) with n by lia.
        destruct B as (H1 & H2 & H3 & H4 & H5 & H6). split; [lia|]. repeat split; auto. }
      assert (V : valid_utf8 (sub b 0 (j - la))).
      { apply sub_valid; auto; [lia|apply boundary_0|]. destruct (tag_occurs sx b _ _ _ Bb) as (p & Hin & Oc).
        exact (proj1 (occurs_boundary p b _ Hb (proj2 (user_syntax_pat _ Hu _ _ Hin)) (pat_ne _ _ Hin) Oc)). }
      assert (V' : valid_utf8 (sub a i la)).
      { destruct T as (_ & _ & _ & _ & _ & bf & p & af & E & Oc & Lp & _). assert (Hin : In (k, p) sx) by (rewrite E; apply in_elt).
        pose proof (proj1 (proj2 (occurs_boundary p a _ Ha (proj2 (user_syntax_pat _ Hu _ _ Hin)) (pat_ne _ _ Hin) Oc))) as Bi.
        apply sub_valid; auto; [|apply boundary_len]. replace i with (m + length p) by lia. exact Bi. }
      apply white_suffix in Hw as (_ & Hw); auto. exact (Htb _ _ _ Bb O' H' Hw).
  - assert (Lj : i <= j) by lia. assert (Ln : j <= n) by apply B.
    replace m with (la + (m - la)) in T, W by lia. replace i with (la + (i - la)) in T, W, B |- * by lia.
    replace j with (la + (j - la)) in B |- * by lia. replace n with (la + (n - la)) in B by lia.
    apply tag_r in T. rewrite sub_r in W |- *. apply best_r in B. apply (Tb _ _ _ _ _ _ T O W B O' H'). lia.
Qed.

(** ** Tokens *)
Definition shift_span (sp : span) : span := mkspan (la + sp_m sp) (la + sp_n sp).
Definition shift (t : tok) : tok := (fst t, shift_span (snd t)).

Lemma trims_r ts : next_trims sx ab (map shift ts) <-> next_trims sx b ts.
Proof.
  destruct ts as [|[t sp] ts]; cbn [map next_trims shift fst snd shift_span sp_m sp_n]; [tauto|].
  split; intros (k & T & H); exists k; (split; [now apply tag_r|exact H]).
Qed.
Lemma tiling_r full at_ md ts : tiling sx b full at_ md ts -> tiling sx ab full (la + at_) md (map shift ts).
Proof.
  induction 1 as [at_ md H|at_ md m n at' ts H1 H2 H3 H4 H5 H6 H7 Hm H8 H9 H10 H11 Hr IH|m n k tr ts Ho Ht Hr IH|m n k md ts Ho Ht Hm Hr IH|m n t e path ts H1 H2 H3 H4 Hd Hl Hx Hr IH];
    cbn [map]; try (unfold shift at 1; cbn [fst snd]; unfold shift_span; cbn [sp_m sp_n]).
  - constructor. intros F. rewrite app_length, H; auto.
  - apply (ti_raw sx ab full (la + at_) md (la + m) (la + n) (la + at')); try lia; auto using bound_r.
    + rewrite app_length. lia.
    + intros k p i Hin L1 L2 Oc. replace i with (la + (i - la)) in Oc by lia. apply occ_r in Oc. apply (H8 k p (i - la)) in Oc; auto; lia.
    + destruct H9 as [->|(k & p & Hin & Oc)]; [left; now rewrite app_length|right]. exists k, p. split; [exact Hin|now apply occ_r].
    + rewrite trims_r, !sub_r. destruct H10 as [H10|(H10 & ->)]; [now left|right; auto].
    + rewrite !sub_r. destruct (match md with MText true => true | _ => false end); [exact H11|lia].
  - apply ti_open; auto. now apply tag_r.
  - apply ti_close; auto. now apply tag_r.
  - apply ti_tok; auto using bound_r; try lia.
    + rewrite app_length. lia.
    + intros k p Hin Oc. apply occ_r in Oc. exact (Hd k p Hin Oc).
    + now rewrite sub_r.
    + now rewrite skipn_r.
Qed.

(** The tokens of both texts: raw tokens that meet become one. *)
Fixpoint join (ts tb : list tok) : list tok :=
  match ts with
  | [] => map shift tb
  | [(TRaw, sp)] =>
    match tb with
    | (TRaw, sp') :: tb' => (TRaw, mkspan (sp_m sp) (la + sp_n sp')) :: map shift tb'
    | _ => (TRaw, sp) :: map shift tb
    end
  | t :: ts' => t :: join ts' tb
  end.
(** Are all tags closed? *)
Fixpoint closed (inside : bool) (ts : list tok) : bool :=
  match ts with
  | [] => negb inside
  | (t, _) :: ts' =>
    match t with
    | TBeginComment | TBeginExpr | TBeginBlock => closed true ts'
    | TEndExpr | TEndBlock | TEndComment => closed false ts'
    | _ => closed inside ts'
    end
  end.
Definition mode_in (md : mode) : bool := match md with MText _ => false | _ => true end.

Lemma trims_l ts tb : ts <> [] -> (forall t sp ts', ts = (t, sp) :: ts' -> t <> TRaw -> sp_m sp < la) ->
  next_trims sx ab (join ts tb) <-> next_trims sx a ts.
Proof.
  intros Hne Hlt. destruct ts as [|[t sp] ts]; [congruence|]. specialize (Hlt t sp ts eq_refl).
  assert (R : forall s sp0 l, ~ next_trims sx s ((TRaw, sp0) :: l)).
  { intros s0 sp0 l (k & _ & E & _). destruct k; discriminate E. }
  destruct t, ts as [|t2 ts]; try (specialize (Hlt ltac:(discriminate)); cbn [join next_trims]; split; intros (k & T & H); exists k; (split; [now apply tag_l|exact H])).
  - cbn [join]. split; [|intros H; now apply R in H]. destruct tb as [|[[] sp'] tb]; intros H; now apply R in H.
  - cbn [join]. split; intros H; now apply R in H.
Qed.
Lemma stops_app pred r r' : valid_utf8 r -> valid_utf8 r' -> r <> [] -> stops pred r -> stops pred (r ++ r').
Proof.
  intros (cs & Hc & ->) V Hne. unfold stops. rewrite chars_app, !chars_flat_map by (auto; now exists cs).
  destruct cs; [now cbn in Hne|]. cbn [app]. auto.
Qed.
Lemma maximal_app t r r' : valid_utf8 r -> valid_utf8 r' -> r <> [] -> maximal t r -> maximal t (r ++ r').
Proof. intros H1 H2 H3. destruct t; cbn [maximal]; auto; now apply stops_app. Qed.
Lemma closed_more at_ ts md : tiling sx a true at_ md ts -> mode_in md = true -> closed true ts = true -> at_ < la.
Proof.
  intros H Hm Hc. inversion H; subst.
  - discriminate Hc.
  - lia.
  - discriminate Hm.
  - pose proof (tag_nonempty a _ _ _ H1). lia.
  - lia.
Qed.

Lemma tag_bound k m n : tag_at sx a k m n -> boundary a m = true /\ boundary a n = true.
Proof.
  intros (_ & _ & _ & _ & _ & bf & p & af & E & O & L & _). assert (Hin : In (k, p) sx) by (rewrite E; apply in_elt).
  assert (Lp : 0 < length p) by (now apply pat_len in Hin).
  destruct (occurs_boundary p a m Ha (proj2 (user_syntax_pat _ Hu _ _ Hin)) (pat_ne _ _ Hin) O) as (B1 & B2 & _). split; [exact B1|]. now replace n with (m + length p) by lia.
Qed.
Lemma head_lt full at_ md ts : tiling sx a full at_ md ts -> forall t sp ts', ts = (t, sp) :: ts' -> t <> TRaw -> sp_m sp < la.
Proof.
  destruct 1; intros t0 sp ts0 E Hne; try discriminate E; injection E as <- <- <-; cbn [sp_m]; try congruence.
  - pose proof (tag_nonempty a _ _ _ H0). lia.
  - pose proof (tag_nonempty a _ _ _ H0). lia.
  - lia.
Qed.
Lemma join_cons t ts tb : ts <> [] -> join (t :: ts) tb = t :: join ts tb.
Proof. intros H. destruct t as [[] sp], ts; reflexivity || congruence. Qed.
Lemma join_other t sp ts tb : t <> TRaw -> join ((t, sp) :: ts) tb = (t, sp) :: join ts tb.
Proof. intros H. destruct t, ts; try congruence; reflexivity. Qed.
Lemma starts_app x y : valid_utf8 x -> x <> [] -> valid_utf8 y -> starts_white (x ++ y) -> starts_white x.
Proof.
  intros (cs & Hc & ->) Hne _ (c & t & Sc & W & E). destruct cs as [|d cs]; [now cbn in Hne|]. cbn [flat_map] in *.
  apply Forall_cons_iff in Hc as (Hd & Hc). rewrite <- app_assoc in E. apply encode_app_inj in E as (-> & _); auto. exists c, (flat_map encode cs). auto.
Qed.

Lemma tiling_l tb : tiling sx b true 0 (MText false) tb ->
  forall full at_ md ts, tiling sx a full at_ md ts -> full = true -> closed (mode_in md) ts = true ->
  (md = MText true -> exists k m, tag_at sx a k m at_ /\ opening k = false /\ hyphenated k = true) -> boundary a at_ = true ->
  tiling sx ab true at_ md (join ts tb).
Proof.
  intros Tb full. pose proof (tiling_r _ _ _ _ Tb) as Tr. rewrite Nat.add_0_r in Tr.
  induction 1 as [at_ md H|at_ md m n at' ts H1 H2 H3 H4 H5 H6 H7 Hm H8 H9 H10 H11 Hr IH|m n k tr ts Ho Ht Hr IH|m n k md ts Ho Ht Hm Hr IH|m n t e path ts H1 H2 H3 H4 Hd Hl Hx Hr IH];
    intros -> Hcl Htr Hbd.
  - cbn [join]. rewrite H by reflexivity. rewrite H in Htr by reflexivity. destruct md as [[]| |]; try discriminate Hcl; auto.
    destruct (Htr eq_refl) as (k & m & T & O & Hy). exfalso. apply (Hta k m la T O Hy). rewrite sub_nil. apply white_nil.
  - cbn [closed] in Hcl.
    assert (D : forall at2, at2 <= la -> forall k p i, In (k, p) sx -> at_ <= i -> i < at2 -> i < at' -> ~ occurs_at p ab i).
    { intros at2 L2 k p i Hin L3 L4 L5 Oc. apply (occ_l k) in Oc; auto; [|lia]. exact (H8 k p i Hin L3 L5 Oc). }
    destruct ts as [|t0 ts].
    + assert (at' = la) as -> by (inversion Hr; auto). clear IH Hr.
      destruct H10 as [(F & _)|(_ & ->)]; [contradiction F|].
      destruct md as [h| |]; try discriminate Hcl.
      assert (Lb : la <= length ab) by (rewrite app_length; lia).
      assert (Start : if match MText h with MText true => true | _ => false end then white (sub ab at_ m) /\ ~ starts_white (sub ab m la) else m = at_).
      { rewrite !sub_l by lia. exact H11. }
      destruct tb as [|[t1 sp1] tb].
      * cbn [join map]. assert (b = []) as Eb by (inversion Tb; subst; destruct b; [reflexivity|specialize (H eq_refl); discriminate H]).
        apply (ti_raw sx ab true at_ (MText h) m la la); auto; try lia; try discriminate.
        -- now apply bound_l.
        -- now apply boundary_app.
        -- intros k p i Hin L1 L2. now apply (D la (le_n _) k).
        -- left. rewrite app_length, Eb. cbn. lia.
      * destruct (token_eqb t1 TRaw) eqn:Et; [apply token_eqb_eq in Et as ->|assert (Ne : t1 <> TRaw) by (intros ->; discriminate Et)].
        -- cbn [join]. inversion Tb as [|at0 md0 m1 n1 at1 ts1 A1 A2 A3 A4 A5 A6 A7 Am A8 A9 A10 A11 Ar| | |]; subst; [|destruct k; discriminate..]. cbn [sp_m sp_n] in *.
           assert (Va : forall x y, x <= y -> boundary a x = true -> boundary a y = true -> valid_utf8 (sub a x y)) by (intros; now apply sub_valid).
           assert (Vb : forall x y, x <= y -> boundary b x = true -> boundary b y = true -> valid_utf8 (sub b x y)) by (intros; now apply sub_valid).
           pose proof (tiling_r _ _ _ _ Ar) as Ar'.
           apply (ti_raw sx ab true at_ (MText h) m (la + n1) (la + at1)); try lia; try discriminate.
           ++ rewrite app_length. lia.
           ++ now apply bound_l.
           ++ now apply bound_r.
           ++ intros k p i Hin L1 L2 Oc. destruct (Nat.lt_ge_cases i la) as [G|G]; [exact (D la (le_n _) k p i Hin L1 G G Oc)|].
              replace i with (la + (i - la)) in Oc by lia. apply occ_r in Oc. apply (A8 k p (i - la)) in Oc; auto; lia.
           ++ destruct A9 as [->|(k & p & Hin & Oc)]; [left; now rewrite app_length|right]. exists k, p. split; [exact Hin|now apply occ_r].
           ++ rewrite trims_r. destruct A10 as [(N1 & N2 & N3)|(N1 & ->)]; [left|right; auto]. rewrite sub_r. split; [exact N1|]. split; [exact N2|].
              rewrite sub_mid2 by lia. intros K. apply N3. apply ends_white_app in K; auto.
              ** apply Va; auto; lia.
              ** intros E. assert (n1 = 0) as ->. { apply (f_equal (@length _)) in E. rewrite sub_length in E by lia. cbn in E. lia. }
                 destruct tb as [|[t2 sp2] ts1]; [contradiction N1|]. destruct N1 as (k & T & Ek & O & Hy). apply (Htb k _ _ T O Hy).
                 revert Ek N2; clear - Ar; intros Ek N2. inversion Ar; subst; [destruct k; discriminate|exact N2..].
           ++ destruct h; [|exact H11]. rewrite (sub_l at_ m) by lia. destruct H11 as (W1 & W2). split; [exact W1|].
              rewrite sub_mid2 by lia. intros K. apply W2. refine (starts_app _ _ _ _ _ K).
              ** apply Va; auto.
              ** intros E. assert (m = la) as ->. { apply (f_equal (@length _)) in E. rewrite sub_length in E by lia. cbn in E. lia. }
                 destruct (Htr eq_refl) as (k & m & T & O & Hy). exact (Hta k m _ T O Hy W1).
              ** apply Vb; auto; lia.
           ++ exact Ar'.
        -- assert (E1 : exists k, opening k = true /\ tag_at sx b k 0 (sp_n sp1) /\ t1 = tag_token k /\ sp_m sp1 = 0).
           { inversion Tb as [|at0 md0 m1 n1 at1 ts1 A1 A2 A3 A4 A5 A6 A7 Am A8 A9 A10 A11 Ar|m1 n1 k tr1 ts1 Ao At Ar|m1 n1 k md1 ts1 Ao At Am Ar|]; subst; [congruence| |].
             - exists k. auto.
             - destruct Am as [(? & Am)|(Am & _)]; discriminate Am. }
           destruct E1 as (k & O & T & -> & Em).
           assert (J : join [(TRaw, mkspan m la)] ((tag_token k, sp1) :: tb) = (TRaw, mkspan m la) :: map shift ((tag_token k, sp1) :: tb)) by (destruct k; reflexivity || discriminate O).
           rewrite J. apply (ti_raw sx ab true at_ (MText h) m la la); auto; try lia; try discriminate.
           ++ now apply bound_l.
           ++ now apply boundary_app.
           ++ intros k' p i Hin L1 L2. now apply (D la (le_n _) k').
           ++ right. destruct (tag_occurs sx b _ _ _ T) as (p & Hin & Oc). exists k, p. split; [exact Hin|]. replace la with (la + 0) by lia. now apply occ_r.
           ++ right. split; [|reflexivity]. rewrite trims_r. intros (k' & T' & E' & O' & Hy'). rewrite Em in T'. apply (Htb k' _ _ T' O' Hy'). apply white_nil.
    + rewrite join_cons by discriminate. pose proof (head_lt _ _ _ _ Hr) as Hh.
      assert (Lt : at' < la).
      { inversion Hr; subst; try lia; match goal with T : tag_at _ _ _ _ _ |- _ => apply (tag_nonempty a) in T; lia end. }
      apply (ti_raw sx ab true at_ md m n at'); auto; try lia.
      * rewrite app_length. lia.
      * apply bound_l; [lia|auto].
      * apply bound_l; [lia|auto].
      * intros k p i Hin L1 L2. apply (D at' ltac:(lia) k); auto.
      * right. destruct H9 as [E|(k & p & Hin & Oc)]; [lia|]. exists k, p. split; [exact Hin|]. apply (occ_l k); auto.
      * rewrite trims_l by (auto; discriminate). rewrite !sub_l by lia. exact H10.
      * rewrite !sub_l by lia. exact H11.
      * apply IH; auto; [destruct md; exact Hcl|destruct md; discriminate|]. destruct H9 as [E|(k & p & Hin & Oc)]; [lia|].
        exact (proj1 (occurs_boundary p a at' Ha (proj2 (user_syntax_pat _ Hu _ _ Hin)) (pat_ne _ _ Hin) Oc)).
  - rewrite join_other by (destruct k; discriminate). pose proof (tag_nonempty a _ _ _ Ht). apply ti_open; auto; [apply tag_l; auto; lia|].
    apply IH; auto.
    + destruct k; try discriminate Ho; exact Hcl.
    + destruct k; try discriminate Ho; discriminate.
    + apply tag_bound in Ht. tauto.
  - rewrite join_other by (destruct k; discriminate). pose proof (tag_nonempty a _ _ _ Ht). apply ti_close; auto; [apply tag_l; auto; lia|].
    apply IH; auto.
    + destruct k; try discriminate Ho; exact Hcl.
    + intros E. injection E as E. eauto.
    + apply tag_bound in Ht. tauto.
  - assert (t <> TRaw) by (intros ->; contradiction Hl). rewrite join_other by auto.
    assert (Hn : n < la). { apply (closed_more n ts _ Hr eq_refl). destruct t; try contradiction Hl; exact Hcl. }
    apply ti_tok; auto.
    + rewrite app_length. lia.
    + apply bound_l; [lia|auto].
    + apply bound_l; [lia|auto].
    + intros k p Hin Oc. apply (occ_l k) in Oc; auto; [|lia]. exact (Hd k p Hin Oc).
    + rewrite sub_l; auto.
    + rewrite skipn_l by lia. destruct (boundary_split a n Ha H4) as (V1 & V2). apply maximal_app; auto.
      intros E. apply (f_equal (@length _)) in E. rewrite skipn_length in E. cbn in E. lia.
    + apply IH; auto; [|discriminate]. destruct t; try contradiction Hl; exact Hcl.
Qed.

(** ** Statements *)
Fixpoint insd (inside : bool) (ts : list tok) : bool :=
  match ts with
  | [] => inside
  | (t, _) :: ts' =>
    match t with
    | TBeginComment | TBeginExpr | TBeginBlock => insd true ts'
    | TEndExpr | TEndBlock | TEndComment => insd false ts'
    | _ => insd inside ts'
    end
  end.
Lemma closed_insd i ts : closed i ts = negb (insd i ts).
Proof. revert i. induction ts as [|[t sp] ts IH]; intros i; [reflexivity|]. destruct t; cbn [closed insd]; apply IH. Qed.
Lemma insd_app i x y : insd i (x ++ y) = insd (insd i x) y.
Proof. revert i. induction x as [|[t sp] x IH]; intros i; [reflexivity|]. destruct t; cbn [app insd]; apply IH. Qed.
Lemma insd_inert i ts : inert ts -> insd i ts = i.
Proof. intros H. induction H as [|[t sp] ts Ht _ IH]; [reflexivity|]. destruct t; try discriminate Ht; exact IH. Qed.
Lemma insd_space i ts : insd i (nonspace ts) = insd i ts.
Proof. revert i. induction ts as [|[t sp] ts IH]; intros i; [reflexivity|]. destruct t; cbn [nonspace List.filter is_space fst negb insd]; apply IH. Qed.
Lemma insd_tag i t : tag_block i t -> insd false t = false.
Proof. intros (x & y & ->). cbn [insd]. rewrite insd_app. reflexivity. Qed.
Lemma insd_grammar source : (forall ts s, g_stmt source ts s -> insd false ts = false) /\
  (forall ts l, g_scope source ts l -> insd false ts = false) /\ (forall ts e, g_else source ts e -> insd false ts = false).
Proof.
  apply g_mut; intros; rewrite ?insd_app; repeat match goal with H : tag_block _ _ |- _ => apply insd_tag in H end; try reflexivity; try congruence.
  - cbn [insd]. now rewrite insd_app.
  - cbn [insd]. auto.
Qed.

Lemma nonspace_app x y : nonspace (x ++ y) = nonspace x ++ nonspace y.
Proof. apply filter_app. Qed.
Lemma nonspace_shift ts : nonspace (map shift ts) = map shift (nonspace ts).
Proof. induction ts as [|[t sp] ts IH]; [reflexivity|]. destruct t; cbn [map nonspace List.filter is_space shift fst negb]; f_equal; exact IH. Qed.
Lemma same_r ts : same b ab ts (map shift ts).
Proof.
  unfold same. induction ts as [|[t sp] ts IH]; [reflexivity|]. cbn [map]. rewrite IH. f_equal. unfold sense, txt. cbn [shift shift_span fst snd sp_m sp_n]. now rewrite sub_r.
Qed.
Lemma same_l ts : Forall (fun t => sp_n (snd t) <= la) ts -> same a ab ts ts.
Proof.
  unfold same. induction 1 as [|[t sp] ts Ht _ IH]; [reflexivity|]. cbn [map]. rewrite IH. f_equal. unfold sense, txt. cbn [fst snd] in *. now rewrite sub_l.
Qed.
Lemma spans_l full at_ md ts : tiling sx a full at_ md ts -> Forall (fun t => sp_n (snd t) <= la) ts.
Proof.
  induction 1; constructor; auto; cbn [snd sp_n]; try lia; match goal with T : tag_at _ _ _ _ _ |- _ => apply (tag_nonempty a) in T; lia end.
Qed.
Lemma raw_last full at_ md ts : tiling sx a full at_ md ts -> full = true -> forall ts0 sp, ts = ts0 ++ [(TRaw, sp)] -> sp_n sp = la /\ sp_m sp <= la.
Proof.
  induction 1 as [at_ md H|at_ md m n at' ts H1 H2 H3 H4 H5 H6 H7 Hm H8 H9 H10 H11 Hr IH|m n k tr ts Ho Ht Hr IH|m n k md ts Ho Ht Hm Hr IH|m n t e path ts H1 H2 H3 H4 Hd Hl Hx Hr IH];
    intros F ts0 sp E; destruct ts0 as [|t0 ts0]; cbn [app] in E.
  - discriminate E.
  - discriminate E.
  - injection E as <- ->. destruct H10 as [(N & _)|(_ & ->)]; [contradiction N|]. cbn [sp_n sp_m]. split; [inversion Hr; auto|lia].
  - injection E as <- ->. eapply IH; eauto.
  - injection E as E1 _ _. destruct k; discriminate E1.
  - injection E as <- ->. eapply IH; eauto.
  - injection E as E1 _ _. destruct k; discriminate E1.
  - injection E as <- ->. eapply IH; eauto.
  - injection E as -> _ _. contradiction Hl.
  - injection E as <- ->. eapply IH; eauto.
Qed.
Lemma raw_first ts sp : tiling sx b true 0 (MText false) ((TRaw, sp) :: ts) -> sp_m sp = 0.
Proof. intros H. inversion H; subst; [reflexivity|destruct k; discriminate..]. Qed.
Lemma join_cases ts tb : join ts tb = ts ++ map shift tb \/
  exists ts0 sp sp' tb', ts = ts0 ++ [(TRaw, sp)] /\ tb = (TRaw, sp') :: tb' /\ join ts tb = ts0 ++ (TRaw, mkspan (sp_m sp) (la + sp_n sp')) :: map shift tb'.
Proof.
  induction ts as [|[t sp] ts IH]; [now left|]. destruct ts as [|t2 ts].
  - destruct (token_eqb t TRaw) eqn:Et; [apply token_eqb_eq in Et as ->|].
    + cbn [join]. destruct tb as [|[t1 sp1] tb]; [now left|]. destruct (token_eqb t1 TRaw) eqn:E1; [apply token_eqb_eq in E1 as ->|].
      * right. exists [], sp, sp1, tb. auto.
      * left. destruct t1; try reflexivity; discriminate E1.
    + rewrite join_other by (intros ->; discriminate Et). now left.
  - rewrite join_cons by discriminate. destruct IH as [->|(ts0 & s1 & s2 & tb' & -> & -> & ->)]; [now left|]. right. exists ((t, sp) :: ts0), s1, s2, tb'. auto.
Qed.
Lemma scope_app source x l y l' : g_scope source x l -> g_scope source y l' -> g_scope source (x ++ y) (l ++ l').
Proof.
  intros H. assert (K : (forall ts s, g_stmt source ts s -> True) /\ (forall ts l, g_scope source ts l -> g_scope source y l' -> g_scope source (ts ++ y) (l ++ l')) /\ (forall ts e, g_else source ts e -> True)).
  { apply g_mut; auto; intros.
    - cbn [app]. constructor. auto.
    - cbn [app]. rewrite <- app_assoc. constructor; auto. }
  now apply K.
Qed.
Lemma tag_last i t : tag_block i t -> exists x e, t = x ++ [(TEndBlock, e)].
Proof. intros (x & y & ->). now exists ((TBeginBlock, x) :: i), y. Qed.
Definition not_raw_last (ts : list tok) : Prop := exists x t, ts = x ++ [t] /\ fst t <> TRaw.
Lemma not_raw_app x y : not_raw_last y -> not_raw_last (x ++ y).
Proof. intros (z & t & -> & H). exists (x ++ z), t. split; [now rewrite app_assoc|exact H]. Qed.
Lemma not_raw_tag i t : tag_block i t -> not_raw_last t.
Proof. intros H. destruct (tag_last _ _ H) as (x & e & ->). exists x, (TEndBlock, e). split; [reflexivity|discriminate]. Qed.
Lemma not_raw_no ts ts0 sp : not_raw_last ts -> ts <> ts0 ++ [(TRaw, sp)].
Proof. intros (x & t & -> & H) E. apply app_inj_tail in E as (_ & ->). now apply H. Qed.
Lemma stmt_ne source s : ~ g_stmt source [] s.
Proof.
  intros G. remember [] as ts eqn:E. destruct G; try discriminate E; repeat match goal with H : tag_block _ _ |- _ => destruct H as (? & ? & ->) end; discriminate E.
Qed.
Lemma scope_nil source l : g_scope source [] l -> l = [].
Proof.
  intros G. remember [] as ts eqn:E. destruct G as [| |ts s ts' l G G']; try discriminate E; [reflexivity|].
  apply app_eq_nil in E as (-> & _). now apply stmt_ne in G.
Qed.
Lemma scope_last source : (forall ts s, g_stmt source ts s -> (exists sp, ts = [(TRaw, sp)] /\ s = SRaw sp) \/ not_raw_last ts) /\
  (forall ts l, g_scope source ts l -> forall ts0 sp, ts = ts0 ++ [(TRaw, sp)] -> exists l0, l = l0 ++ [SRaw sp] /\ g_scope source ts0 l0) /\
  (forall ts e, g_else source ts e -> not_raw_last ts).
Proof.
  apply g_mut; intros; try (left; eauto; fail); try (right; eauto using not_raw_app, not_raw_tag; fail); eauto using not_raw_app, not_raw_tag.
  - right. exists ((TBeginExpr, b0) :: ts), (TEndExpr, en). split; [reflexivity|discriminate].
  - destruct ts0; discriminate H.
  - destruct ts0 as [|t0 [|t1 [|t2 ts0]]]; cbn [app] in H1; try discriminate H1. injection H1 as <- <- <- E. destruct (H0 _ _ E) as (l0 & -> & G). exists l0. split; [reflexivity|]. now constructor.
  - destruct ts' as [|t' ts'] using rev_ind.
    + rewrite app_nil_r in H3. apply scope_nil in H1 as ->.
      destruct H0 as [(sp0 & E & ->)|H0]; [|now apply not_raw_no in H3]. rewrite E in H3. destruct ts0 as [|t0 [|]]; try discriminate H3. injection H3 as ->. exists []. split; [reflexivity|constructor].
    + rewrite app_assoc in H3. apply app_inj_tail in H3 as (<- & ->). destruct (H2 _ _ eq_refl) as (l0 & -> & G). exists (s :: l0). split; [reflexivity|]. now constructor.
Qed.
Lemma scope_first source sp ts l : g_scope source ((TRaw, sp) :: ts) l -> exists l0, l = SRaw sp :: l0 /\ g_scope source ts l0.
Proof.
  intros H. inversion H as [| |ts1 s ts2 l0 G1 G2 E1 E2]; subst.
  destruct ts1 as [|t1 ts1].
  - now apply stmt_ne in G1.
  - injection E1 as -> E1. inversion G1; subst; repeat match goal with H : tag_block _ _ |- _ => destruct H as (? & ? & H) end; try discriminate; subst; try discriminate.
    exists l0. split; [reflexivity|exact G2].
Qed.

Definition joined (x y z : list pstmt) : Prop :=
  z = x ++ y \/ exists x' s y' t, x = x' ++ [PText s] /\ y = PText t :: y' /\ z = x' ++ PText (s ++ t) :: y'.
Lemma derives_app l1 l2 : derives sx a l1 -> derives sx b l2 -> exists l, derives sx ab l /\ joined (bare a l1) (bare b l2) (bare ab l).
Proof.
  intros (ts & Ta & Ga) (tb & Tb & Gb).
  assert (Cl : closed (mode_in (MText false)) ts = true).
  { cbn [mode_in]. rewrite closed_insd, <- insd_space, (proj1 (proj2 (insd_grammar a)) _ _ Ga). reflexivity. }
  pose proof (tiling_l tb Tb true 0 _ ts Ta eq_refl Cl ltac:(discriminate) (boundary_0 _)) as T.
  assert (SA : same a ab (nonspace ts) (nonspace ts)).
  { apply same_l. pose proof (spans_l _ _ _ _ Ta) as F. clear - F. induction F as [|[t sp] ts Ht _ IH]; [constructor|]. cbn [nonspace List.filter]. destruct (negb _); [constructor|]; auto. }
  destruct (join_cases ts tb) as [E|(ts0 & sp & sp' & tb' & -> & -> & E)].
  - destruct (proj1 (proj2 (transfer a ab)) _ _ Ga _ SA) as (m1 & G1 & B1).
    destruct (proj1 (proj2 (transfer b ab)) _ _ Gb _ (same_r _)) as (m2 & G2 & B2).
    exists (m1 ++ m2). split.
    + exists (join ts tb). split; [exact T|]. rewrite E, nonspace_app, nonspace_shift. now apply scope_app.
    + left. unfold bare. rewrite map_app. unfold bare in B1, B2. congruence.
  - rewrite nonspace_app in Ga, SA. cbn [nonspace List.filter is_space fst negb] in Ga, SA, Gb. fold (nonspace tb') in Gb.
    destruct (proj1 (proj2 (scope_last a)) _ _ Ga _ _ eq_refl) as (k1 & -> & Ga').
    destruct (scope_first _ _ _ _ Gb) as (k2 & -> & Gb').
    assert (SA' : same a ab (nonspace ts0) (nonspace ts0)).
    { unfold same in *. rewrite !map_app in SA. now apply app_inj_tail in SA. }
    destruct (proj1 (proj2 (transfer a ab)) _ _ Ga' _ SA') as (m1 & G1 & B1).
    destruct (proj1 (proj2 (transfer b ab)) _ _ Gb' _ (same_r _)) as (m2 & G2 & B2).
    exists (m1 ++ SRaw (mkspan (sp_m sp) (la + sp_n sp')) :: m2). split.
    + eexists. split; [exact T|]. rewrite E, nonspace_app. apply scope_app; [exact G1|]. cbn [nonspace List.filter is_space fst negb]. fold (nonspace (map shift tb')). rewrite nonspace_shift.
      change ((TRaw, mkspan (sp_m sp) (la + sp_n sp')) :: map shift (nonspace tb')) with ([(TRaw, mkspan (sp_m sp) (la + sp_n sp'))] ++ map shift (nonspace tb')).
      constructor; [constructor|exact G2].
    + right. exists (bare a k1), (word a sp), (bare b k2), (word b sp'). unfold bare. rewrite !map_app. cbn [map bare_stmt]. split; [reflexivity|]. split; [reflexivity|].
      unfold bare in B1, B2. rewrite B1, B2. do 2 f_equal. unfold word. cbn [sp_m sp_n].
      pose proof (raw_last _ _ _ _ Ta eq_refl _ _ eq_refl) as (En & Lm). pose proof (raw_first _ _ Tb) as Em. rewrite En, Em. f_equal. now apply sub_mid2.
Qed.
End Concat.
