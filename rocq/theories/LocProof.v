From Verif Require Import Base Utf8 Ext Errors LocSpec.

Lemma newlines_app a b : newlines (a ++ b) = newlines a + newlines b.
Proof. apply count_occ_app. Qed.
Lemma newlines_none a : ~ In x0a a -> newlines a = 0.
Proof. apply count_occ_not_In. Qed.
Lemma newlines_nl : newlines [x0a] = 1.
Proof. reflexivity. Qed.

(** ** Lines *)
Lemma lines_aux_text t : ~ In x0a t -> forall cur, split_lines_aux cur t = [rev cur ++ t].
Proof.
  induction t as [|b t IH]; intros H cur; cbn [split_lines_aux]; [now rewrite app_nil_r|].
  destruct (Byte.eqb b x0a) eqn:E; [apply Byte.byte_dec_bl in E; subst; destruct H; now left|].
  rewrite IH by (intros K; apply H; now right). cbn [rev]. now rewrite <- app_assoc.
Qed.
Lemma lines_aux_cons t s : ~ In x0a t -> forall cur, split_lines_aux cur (t ++ x0a :: s) = (rev cur ++ t) :: split_lines_aux [] s.
Proof.
  induction t as [|b t IH]; intros H cur; cbn [split_lines_aux app]; [now rewrite app_nil_r|].
  destruct (Byte.eqb b x0a) eqn:E; [apply Byte.byte_dec_bl in E; subst; destruct H; now left|].
  rewrite IH by (intros K; apply H; now right). cbn [rev]. now rewrite <- app_assoc.
Qed.
Lemma lines_aux_nonempty s : forall cur, split_lines_aux cur s <> [].
Proof. induction s as [|b s IH]; intros cur; cbn [split_lines_aux]; [discriminate|]. destruct (Byte.eqb b x0a); [discriminate|apply IH]. Qed.
Lemma st_nil : split_terminator [] = [].
Proof. reflexivity. Qed.
Lemma st_text t : ~ In x0a t -> t <> [] -> split_terminator t = [t].
Proof. intros H N. unfold split_terminator. rewrite lines_aux_text by exact H. cbn [rev app]. destruct t; [now destruct N|reflexivity]. Qed.
Lemma st_cons t s : ~ In x0a t -> split_terminator (t ++ x0a :: s) = t :: split_terminator s.
Proof.
  intros H. unfold split_terminator. rewrite lines_aux_cons by exact H. cbn [rev app].
  pose proof (lines_aux_nonempty s []) as N. destruct (rev (split_lines_aux [] s)) as [|l r] eqn:E.
  - apply (f_equal (@rev _)) in E. rewrite rev_involutive in E. now destruct N.
  - cbn [app]. destruct l as [|x l]; [|reflexivity]. rewrite rev_app_distr. reflexivity.
Qed.
(** Induction over the lines of a text. *)
Lemma first_line s : (~ In x0a s) \/ exists t s', s = t ++ x0a :: s' /\ ~ In x0a t.
Proof.
  induction s as [|b s IH]; [left; auto|]. destruct (Byte.byte_eq_dec b x0a) as [->|N].
  - right. exists [], s. auto.
  - destruct IH as [IH|(t & s' & -> & H)].
    + left. intros [H|H]; auto.
    + right. exists (b :: t), s'. split; [reflexivity|]. intros [K|K]; auto.
Qed.
Lemma lines_ind (P : str -> Prop) : (forall t, ~ In x0a t -> P t) -> (forall t s, ~ In x0a t -> P s -> P (t ++ x0a :: s)) -> forall s, P s.
Proof.
  intros H1 H2 s. remember (length s) as n eqn:E. revert s E. induction n as [n IH] using lt_wf_ind; intros s E.
  destruct (first_line s) as [H|(t & s' & -> & H)]; [auto|]. apply H2; [exact H|]. apply (IH (length s')); [|reflexivity].
  subst n. rewrite app_length. cbn. lia.
Qed.

(** Lines of a text with a line in front. *)
Lemma line_first t s : ~ In x0a t -> line_at (t ++ x0a :: s) [] t (x0a :: s).
Proof. intros H. split; auto. right. eauto. Qed.
Lemma line_only t : ~ In x0a t -> line_at t [] t [].
Proof. intros H. split; auto. cbn. now rewrite app_nil_r. Qed.
Lemma line_later t s b l a : ~ In x0a t -> line_at s b l a -> line_at (t ++ x0a :: s) (t ++ x0a :: b) l a.
Proof.
  intros H [H1 H2 H3 H4]. split; auto.
  - subst s. now rewrite <- app_assoc.
  - right. destruct H2 as [->|(b' & ->)]; [now exists t|]. exists (t ++ x0a :: b'). now rewrite <- app_assoc.
Qed.
Lemma nl_split_unique a b a' b' : ~ In x0a a -> ~ In x0a a' -> a ++ x0a :: b = a' ++ x0a :: b' -> a = a' /\ b = b'.
Proof.
  revert a'. induction a as [|x a IH]; intros [|x' a'] H H' E; cbn in E.
  - injection E as ->. auto.
  - injection E as <- _. destruct H'; now left.
  - injection E as -> _. destruct H; now left.
  - injection E as -> E. destruct (IH a') as (-> & ->); auto; intros K; [apply H|apply H']; now right.
Qed.
Lemma line_of_text t b l a : ~ In x0a t -> line_at t b l a -> b = [] /\ l = t /\ a = [].
Proof.
  intros H [H1 H2 H3 H4]. destruct H2 as [->|(b' & ->)]; [|subst t; destruct H; rewrite <- app_assoc; apply in_or_app; right; now left].
  cbn in H1. destruct H4 as [->|(a' & ->)]; [rewrite app_nil_r in H1; auto|subst t; destruct H; apply in_or_app; right; now left].
Qed.
Lemma line_of_cons t s b l a : ~ In x0a t -> line_at (t ++ x0a :: s) b l a ->
  (b = [] /\ l = t /\ a = x0a :: s) \/ exists b', b = t ++ x0a :: b' /\ line_at s b' l a.
Proof.
  intros H [H1 H2 H3 H4]. destruct H2 as [->|(b0 & ->)].
  - left. cbn in H1. destruct H4 as [->|(a' & ->)].
    + rewrite app_nil_r in H1. subst l. destruct H3. apply in_or_app. right. now left.
    + apply nl_split_unique in H1 as (-> & ->); auto.
  - right. destruct (first_line b0) as [N|(t' & s' & -> & N)].
    + rewrite <- app_assoc in H1. cbn in H1. apply nl_split_unique in H1 as (<- & ->); auto. exists []. split; [reflexivity|].
      split; auto.
    + rewrite <- !app_assoc in H1. cbn in H1. apply nl_split_unique in H1 as (<- & ->); auto. exists (s' ++ [x0a]).
      split; [now rewrite <- app_assoc|]. split; auto; [now rewrite <- !app_assoc|]. right. eauto.
Qed.
(** Every place is on exactly one line. *)
Lemma place_exists s : forall m, m <= length s -> exists ln col text, at_line_column s m ln col text.
Proof.
  induction s as [t H|t s H IH] using lines_ind; intros m Hm.
  - exists 0, m, t. exists [], []. split; [now apply line_only|]. auto.
  - destruct (Nat.le_gt_cases m (length t)) as [L|G].
    + exists 0, m, t. exists [], (x0a :: s). split; [now apply line_first|]. auto.
    + rewrite app_length in Hm. cbn in Hm. destruct (IH (m - length t - 1)) as (ln & col & text & b & a & Hl & -> & E & Hc); [lia|].
      exists (S (newlines b)), col, text. exists (t ++ x0a :: b), a. split; [now apply line_later|]. split; [|split; [|exact Hc]].
      * change (x0a :: b) with ([x0a] ++ b). rewrite !newlines_app, (newlines_none t) by exact H. reflexivity.
      * rewrite app_length. cbn. lia.
Qed.
Lemma place_unique s : forall m ln col text ln' col' text',
  at_line_column s m ln col text -> at_line_column s m ln' col' text' -> ln = ln' /\ col = col' /\ text = text'.
Proof.
  induction s as [t H|t s H IH] using lines_ind; intros m ln col text ln' col' text' (b & a & Hl & -> & -> & Hc) (b' & a' & Hl' & -> & E & Hc').
  - apply line_of_text in Hl as (-> & -> & ->); auto. apply line_of_text in Hl' as (-> & -> & ->); auto.
  - apply line_of_cons in Hl as [(-> & -> & ->)|(b1 & -> & Hl)]; auto; apply line_of_cons in Hl' as [(-> & -> & ->)|(b2 & -> & Hl')]; auto.
    + cbn in E. rewrite app_length in E. cbn in E. lia.
    + cbn in E. rewrite app_length in E. cbn in E. lia.
    + destruct (IH (length b1 + col) (newlines b1) col text (newlines b2) col' text') as (E1 & -> & ->).
      * now exists b1, a.
      * exists b2, a'. split; [exact Hl'|]. split; [reflexivity|]. split; [|exact Hc']. rewrite !app_length in E. cbn in E. lia.
      * split; [|auto]. change (x0a :: b1) with ([x0a] ++ b1). change (x0a :: b2) with ([x0a] ++ b2). rewrite !newlines_app. lia.
Qed.
Lemma place_line s m ln col text : at_line_column s m ln col text -> ln = newlines (firstn m s).
Proof.
  intros (b & a & [H1 H2 H3 H4] & -> & -> & Hc). subst s. rewrite firstn_app_2, newlines_app.
  rewrite (newlines_none (firstn _ _)); [lia|]. rewrite firstn_app. replace (col - length text) with 0 by lia. rewrite firstn_O, app_nil_r.
  intros K. apply H3. rewrite <- (firstn_skipn col text). apply in_or_app. now left.
Qed.

(** ** The code *)
Section WithExt.
Context `{X : Ext}.
Lemma loc_loop s : forall i n b text a col,
  line_at s b text a -> text ++ a <> [] ->
  (forall b' l a', line_at s b' l a' -> length b' < length b -> display_width l = length l) ->
  col <= display_width text ->
  to_ln_col_loop (split_terminator s) i n (n + length b + col) = Some (i + newlines b, col) /\
  nth_error (split_terminator s) (newlines b) = Some text.
Proof.
  induction s as [t H|t s H IH] using lines_ind; intros i n b text a col Hl Hne Hw Hc.
  - apply line_of_text in Hl as (-> & -> & ->); auto. rewrite app_nil_r in Hne. rewrite (st_text t H Hne). cbn [to_ln_col_loop length].
    replace (n + 0 + col <? n + (display_width t + 1)) with true by (symmetry; apply Nat.ltb_lt; lia). cbn. split; [|reflexivity].
    f_equal. f_equal; lia.
  - rewrite (st_cons t s H). cbn [to_ln_col_loop]. apply line_of_cons in Hl as [(-> & -> & ->)|(b1 & -> & Hl)]; auto.
    + cbn [length]. replace (n + 0 + col <? n + (display_width t + 1)) with true by (symmetry; apply Nat.ltb_lt; lia). cbn. split; [|reflexivity].
      f_equal. f_equal; lia.
    + rewrite (Hw [] t (x0a :: s)); [|now apply line_first|rewrite app_length; cbn; lia].
      rewrite app_length. cbn [length]. replace (n + (length t + S (length b1)) + col <? n + (length t + 1)) with false by (symmetry; apply Nat.ltb_ge; lia).
      change (x0a :: b1) with ([x0a] ++ b1). rewrite !newlines_app, (newlines_none t), newlines_nl by exact H. cbn [Nat.add nth_error].
      destruct (IH (S i) (n + (length t + 1)) b1 text a col Hl Hne) as (E1 & E2); auto.
      * intros b' l a' Hl' Hb. apply (Hw (t ++ x0a :: b') l a'); [now apply line_later|]. rewrite !app_length. cbn. lia.
      * split; [|exact E2]. replace (n + (length t + S (length b1)) + col) with (n + (length t + 1) + length b1 + col) by lia.
        rewrite E1. f_equal. f_equal. lia.
Qed.
(** Where the code says it is. *)
Lemma build_pretty_place s sp p b text a col : line_at s b text a -> text ++ a <> [] ->
  (forall b' l a', line_at s b' l a' -> length b' < length b -> display_width l = length l) ->
  sp_m sp = length b + col -> col <= display_width text ->
  build_pretty s sp = Ok p -> p_ln p = newlines b /\ p_col p = col /\ p_text p = text.
Proof.
  intros Hl Hne Hw Hm Hc E. destruct (loc_loop s 0 0 b text a col Hl Hne Hw Hc) as (E1 & E2).
  unfold build_pretty, to_ln_col in E. rewrite Hm in E. cbn [Nat.add] in E1. rewrite E1 in E. cbn iota beta in E.
  destruct (index_span s sp); cbn [bind] in E; try discriminate E. rewrite E2 in E. cbn [bind] in E. injection E as <-. auto.
Qed.
Lemma pretty_in_range s sp p : build_pretty s sp = Ok p -> sp_m sp <= sp_n sp /\ sp_n sp <= length s.
Proof.
  unfold build_pretty, index_span, slice. destruct (to_ln_col _ _). destruct (_ && _) eqn:E; cbn [bind]; [|discriminate]. intros _.
  repeat (apply andb_prop in E as [E ?]). repeat match goal with H : (_ <=? _) = true |- _ => apply Nat.leb_le in H end. lia.
Qed.
Lemma pretty_width s sp p : build_pretty s sp = Ok p -> p_width p = Nat.max 1 (display_width (sub s (sp_m sp) (sp_n sp))).
Proof.
  unfold build_pretty, index_span, slice. destruct (to_ln_col _ _). destruct (_ && _); cbn [bind]; [|discriminate].
  destruct (match nth_error _ _ with Some _ => _ | None => _ end); cbn [bind]; try discriminate. intros E. injection E as <-. reflexivity.
Qed.
(** The line shown is always a line of the text. *)
Lemma st_line s text : In text (split_terminator s) -> is_line s text.
Proof.
  induction s as [t H|t s H IH] using lines_ind; intros Hi.
  - destruct t as [|x t]; [destruct Hi|]. rewrite (st_text _ H ltac:(discriminate)) in Hi. destruct Hi as [<-|[]]. exists [], []. now apply line_only.
  - rewrite (st_cons t s H) in Hi. destruct Hi as [<-|Hi].
    + exists [], (x0a :: s). now apply line_first.
    + destruct (IH Hi) as (b & a & Hl). exists (t ++ x0a :: b), a. now apply line_later.
Qed.
Lemma pretty_line s sp p : build_pretty s sp = Ok p -> is_line s (p_text p).
Proof.
  unfold build_pretty. destruct (to_ln_col _ _) as [ln col]. destruct (index_span s sp); cbn [bind]; try discriminate.
  intros E. apply st_line. destruct (nth_error (split_terminator s) ln) as [l|] eqn:En; cbn [bind] in E.
  - injection E as <-. cbn. now apply nth_error_In in En.
  - destruct (rev (split_terminator s)) as [|l r] eqn:Er; cbn in E; [discriminate|]. injection E as <-. cbn. apply in_rev. rewrite Er. now left.
Qed.
Lemma narrow_place s sp p : narrow s -> ~ past_last_line s (sp_m sp) -> build_pretty s sp = Ok p ->
  at_line_column s (sp_m sp) (p_ln p) (p_col p) (p_text p).
Proof.
  intros Hn Hp E. pose proof (pretty_in_range _ _ _ E) as R. destruct (place_exists s (sp_m sp) ltac:(lia)) as (ln & col & text & b & a & Hl & -> & Em & Hc).
  assert (Hne : text ++ a <> []).
  { intros Ea. apply Hp. destruct Hl as [H1 H2 _ _]. apply app_eq_nil in Ea as (-> & ->). cbn in H1, Hc. rewrite app_nil_r in H1. subst s.
    split; [lia|]. destruct H2 as [->|K]; eauto. }
  assert (Hw : display_width text = length text) by (apply Hn; now exists b, a).
  destruct (build_pretty_place s sp p b text a col Hl Hne) as (-> & -> & ->); auto.
  - intros b' l a' Hl' _. apply Hn. now exists b', a'.
  - lia.
  - exists b, a. auto.
Qed.
(** ** What is shown *)
Lemma columns_front t b n : ~ In x0a t -> columns b n -> columns (t ++ x0a :: b) (display_width t + 1 + n).
Proof.
  intros H K. induction K as [|b text n K IH Hn].
  - rewrite Nat.add_0_r. change (t ++ [x0a]) with ([] ++ t ++ [x0a]). exact (columns_line [] t 0 columns_none H).
  - replace (t ++ x0a :: b ++ text ++ [x0a]) with ((t ++ x0a :: b) ++ text ++ [x0a]) by now rewrite <- app_assoc.
    replace (display_width t + 1 + (n + display_width text + 1)) with (display_width t + 1 + n + display_width text + 1) by lia.
    now apply columns_line.
Qed.
Lemma columns_back b n : columns b n -> b = [] /\ n = 0 \/ exists t b' n', ~ In x0a t /\ b = t ++ x0a :: b' /\ columns b' n' /\ n = display_width t + 1 + n'.
Proof.
  intros K. induction K as [|b text n K IH Hn]; [now left|]. right. destruct IH as [(-> & ->)|(t & b' & n' & Ht & -> & K' & ->)].
  - exists text, [], 0. repeat split; auto using columns_none.
  - exists t, (b' ++ text ++ [x0a]), (n' + display_width text + 1). split; [exact Ht|]. split; [now rewrite <- app_assoc|].
    split; [now apply columns_line|lia].
Qed.
Lemma columns_front_inv t b n : ~ In x0a t -> columns (t ++ x0a :: b) n -> exists n', columns b n' /\ n = display_width t + 1 + n'.
Proof.
  intros H K. destruct (columns_back _ _ K) as [(E & _)|(t' & b' & n' & H' & E & K' & ->)]; [now destruct t|].
  apply nl_split_unique in E as (<- & <-); auto. now exists n'.
Qed.
Lemma columns_fun b : forall n n', columns b n -> columns b n' -> n = n'.
Proof.
  induction b as [t H|t b H IH] using lines_ind; intros n n' K K'.
  - destruct (columns_back _ _ K) as [(-> & ->)|(? & ? & ? & _ & -> & _)]; [|destruct H; apply in_or_app; right; now left].
    destruct (columns_back _ _ K') as [(_ & ->)|(t & ? & ? & _ & E & _)]; [reflexivity|now destruct t].
  - apply columns_front_inv in K as (m & K & ->); auto. apply columns_front_inv in K' as (m' & K' & ->); auto.
Qed.
Lemma columns_exist s b t a : line_at s b t a -> exists n, columns b n.
Proof.
  revert b. induction s as [u H|u s H IH] using lines_ind; intros b Hl.
  - apply line_of_text in Hl as (-> & _); auto. exists 0. constructor.
  - apply line_of_cons in Hl as [(-> & _)|(b' & -> & Hl)]; auto; [exists 0; constructor|].
    destruct (IH _ Hl) as (n & K). exists (display_width u + 1 + n). now apply columns_front.
Qed.

Lemma shown_front t s m ln col text : ~ In x0a t -> shown s m ln col text -> shown (t ++ x0a :: s) (display_width t + 1 + m) (S ln) col text.
Proof.
  intros H (b & a & n & Hl & Hne & K & C). exists (t ++ x0a :: b), a, (display_width t + 1 + n).
  split; [now apply line_later|]. split; [exact Hne|]. split; [now apply columns_front|].
  change (x0a :: b) with ([x0a] ++ b). rewrite !newlines_app, (newlines_none t), newlines_nl by exact H.
  destruct C as [(-> & -> & Hc)|(Ha & -> & Hc & ->)]; [left|right]; repeat split; auto; lia.
Qed.
(** The loop of the code, from any line on. *)
Lemma loop_shown s m : s <> [] ->
  match to_ln_col_loop (split_terminator s) 0 0 m with
  | Some (ln, col) => exists text, nth_error (split_terminator s) ln = Some text /\ shown s m ln col text
  | None => exists l ls, rev (split_terminator s) = l :: ls /\ shown s m (length (split_terminator s)) (display_width l) l
  end.
Proof.
  assert (G : forall s, s <> [] -> forall i n m, n <= m ->
    match to_ln_col_loop (split_terminator s) i n m with
    | Some (ln, col) => exists text ln', ln = i + ln' /\ nth_error (split_terminator s) ln' = Some text /\ shown s (m - n) ln' col text
    | None => exists l ls, rev (split_terminator s) = l :: ls /\ shown s (m - n) (length (split_terminator s)) (display_width l) l
    end).
  { clear. intros s. induction s as [t H|t s H IH] using lines_ind; intros Hne i n m Hm.
    - rewrite (st_text t H Hne). cbn [to_ln_col_loop]. destruct (Nat.ltb_spec m (n + (display_width t + 1))) as [L|L].
      + exists t, 0. split; [lia|]. split; [reflexivity|]. exists [], [], 0. split; [now apply line_only|]. rewrite app_nil_r.
        split; [exact Hne|]. split; [constructor|]. left. repeat split; lia.
      + exists t, []. split; [reflexivity|]. exists [], [], 0. split; [now apply line_only|]. rewrite app_nil_r. split; [exact Hne|].
        split; [constructor|]. right. split; [now left|]. repeat split; lia.
    - rewrite (st_cons t s H). cbn [to_ln_col_loop]. destruct (Nat.ltb_spec m (n + (display_width t + 1))) as [L|L].
      + exists t, 0. split; [lia|]. split; [reflexivity|]. exists [], (x0a :: s), 0. split; [now apply line_first|].
        split; [now destruct t|]. split; [constructor|]. left. repeat split; lia.
      + assert (D : s = [] \/ s <> []) by (destruct s; [now left|right; discriminate]). destruct D as [->|Hs].
        * cbn [split_terminator split_lines_aux rev to_ln_col_loop app]. exists t, []. split; [reflexivity|].
          exists [], [x0a], 0. split; [now apply line_first|]. split; [now destruct t|]. split; [constructor|]. right.
          split; [now right|]. cbn. repeat split; lia.
        * specialize (IH Hs (S i) (n + (display_width t + 1)) m L).
          destruct (to_ln_col_loop (split_terminator s) (S i) (n + (display_width t + 1)) m) as [[ln col]|].
          -- destruct IH as (text & ln' & -> & En & Sh). exists text, (S ln'). split; [lia|]. split; [exact En|].
             replace (m - n) with (display_width t + 1 + (m - (n + (display_width t + 1)))) by lia. now apply shown_front.
          -- destruct IH as (l & ls & Er & Sh). exists l, (ls ++ [t]). split; [cbn [rev]; now rewrite Er|].
             replace (m - n) with (display_width t + 1 + (m - (n + (display_width t + 1)))) by lia. cbn [length]. now apply shown_front. }
  intros Hne. specialize (G s Hne 0 0 m ltac:(lia)). rewrite Nat.sub_0_r in G.
  destruct (to_ln_col_loop (split_terminator s) 0 0 m) as [[ln col]|]; [|exact G].
  destruct G as (text & ln' & E & En & Sh). cbn in E. subst ln'. eauto.
Qed.
(** Every place shown is the one of [shown]. *)
Lemma pretty_shown s sp p : build_pretty s sp = Ok p -> shown s (sp_m sp) (p_ln p) (p_col p) (p_text p).
Proof.
  intros E. assert (D : s = [] \/ s <> []) by (destruct s; [now left|right; discriminate]). destruct D as [->|Hs].
  { unfold build_pretty in E. cbn in E. destruct (index_span [] sp); cbn in E; discriminate E. }
  pose proof (loop_shown s (sp_m sp) Hs) as L. unfold build_pretty, to_ln_col in E.
  destruct (to_ln_col_loop (split_terminator s) 0 0 (sp_m sp)) as [[ln col]|].
  - destruct L as (text & En & Sh). destruct (index_span s sp); cbn [bind] in E; try discriminate E. rewrite En in E. cbn [bind] in E.
    injection E as <-. exact Sh.
  - destruct L as (l & ls & Er & Sh). rewrite Er in E. cbn iota in E. destruct (index_span s sp); cbn [bind] in E; try discriminate E.
    assert (En : nth_error (split_terminator s) (length (split_terminator s)) = None) by (apply nth_error_None; lia).
    rewrite En in E. cbn [bind hd_error unwrap] in E. injection E as <-. exact Sh.
Qed.
(** There is only one. *)
Lemma shown_unique s : forall m ln col text ln' col' text', shown s m ln col text -> shown s m ln' col' text' -> ln = ln' /\ col = col' /\ text = text'.
Proof.
  induction s as [t H|t s H IH] using lines_ind; intros m ln col text ln' col' text' (b & a & n & Hl & Hne & K & C) (b' & a' & n' & Hl' & Hne' & K' & C').
  - apply line_of_text in Hl as (-> & -> & ->); auto. apply line_of_text in Hl' as (-> & -> & ->); auto.
    rewrite (columns_fun _ _ _ K' K) in C'. destruct C as [(-> & -> & Hc)|(_ & -> & Hc & ->)], C' as [(-> & E & Hc')|(_ & -> & Hc' & ->)]; repeat split; lia.
  - assert (W : forall b1 n1 text1 a1, line_at s b1 text1 a1 -> columns (t ++ x0a :: b1) n1 -> text1 ++ a1 <> [] ->
        exists n2, columns b1 n2 /\ n1 = display_width t + 1 + n2).
    { intros b1 n1 text1 a1 _ K1 _. now apply columns_front_inv in K1. }
    assert (Z : forall n1, columns [] n1 -> n1 = 0).
    { intros n1 K1. apply (columns_fun _ _ _ K1). constructor. }
    assert (N : forall b1 text1 a1, line_at s b1 text1 a1 -> text1 ++ a1 <> [] -> s <> []).
    { intros b1 text1 a1 [-> _ _ _] Q E. apply app_eq_nil in E as (_ & E). auto. }
    apply line_of_cons in Hl as [(-> & -> & ->)|(b1 & -> & Hl)]; auto; apply line_of_cons in Hl' as [(-> & -> & ->)|(b2 & -> & Hl')]; auto.
    + rewrite (Z _ K), (Z _ K') in *. destruct C as [(-> & -> & Hc)|(_ & -> & Hc & ->)], C' as [(-> & E & Hc')|(_ & -> & Hc' & ->)]; repeat split; lia.
    + destruct (W _ _ _ _ Hl' K' Hne') as (n2 & K2 & ->). rewrite (Z _ K) in *. specialize (N _ _ _ Hl' Hne').
      destruct C as [(-> & -> & Hc)|([Q|Q] & -> & Hc & ->)]; [|discriminate Q|injection Q as ->; now destruct N].
      destruct C' as [(-> & E & Hc')|(_ & -> & Hc' & ->)]; lia.
    + destruct (W _ _ _ _ Hl K Hne) as (n2 & K2 & ->). rewrite (Z _ K') in *. specialize (N _ _ _ Hl Hne).
      destruct C' as [(-> & -> & Hc)|([Q|Q] & -> & Hc & ->)]; [|discriminate Q|injection Q as ->; now destruct N].
      destruct C as [(-> & E & Hc')|(_ & -> & Hc' & ->)]; lia.
    + destruct (W _ _ _ _ Hl K Hne) as (n2 & K2 & ->). destruct (W _ _ _ _ Hl' K' Hne') as (n3 & K3 & ->).
      assert (NL : forall b0, newlines (t ++ x0a :: b0) = S (newlines b0)).
      { intros b0. change (x0a :: b0) with ([x0a] ++ b0). now rewrite !newlines_app, (newlines_none t) by exact H. }
      rewrite !NL in *.
      destruct (IH (m - (display_width t + 1)) (ln - 1) col text (ln' - 1) col' text') as (E1 & -> & ->).
      * exists b1, a, n2. split; [exact Hl|]. split; [exact Hne|]. split; [exact K2|].
        destruct C as [(-> & -> & Hc)|(Ha & -> & Hc & ->)]; [left; repeat split; lia|right; split; [exact Ha|]; repeat split; lia].
      * exists b2, a', n3. split; [exact Hl'|]. split; [exact Hne'|]. split; [exact K3|].
        destruct C' as [(-> & E & Hc)|(Ha & -> & Hc & ->)]; [left; repeat split; lia|right; split; [exact Ha|]; repeat split; lia].
      * split; [|auto]. destruct C as [(-> & _)|(_ & -> & _)], C' as [(-> & _)|(_ & -> & _)]; lia.
Qed.
(** It is right exactly when the lines before take as many columns as bytes. *)
Lemma line_number_unique s : forall b b0 t t0 a a0, line_at s b t a -> line_at s b0 t0 a0 -> newlines b0 = newlines b -> b0 = b /\ t0 = t /\ a0 = a.
Proof.
  induction s as [t H|t s H IH] using lines_ind; intros b b0 l l0 a a0 Hl Hl0 E.
  - apply line_of_text in Hl as (-> & -> & ->); auto. apply line_of_text in Hl0 as (-> & -> & ->); auto.
  - assert (NL : forall b0, newlines (t ++ x0a :: b0) = S (newlines b0)).
    { intros b1. change (x0a :: b1) with ([x0a] ++ b1). now rewrite !newlines_app, (newlines_none t) by exact H. }
    apply line_of_cons in Hl as [(-> & -> & ->)|(b1 & -> & Hl)]; auto; apply line_of_cons in Hl0 as [(-> & -> & ->)|(b2 & -> & Hl0)]; auto.
    + rewrite NL in E. discriminate E.
    + rewrite NL in E. discriminate E.
    + rewrite !NL in E. injection E as E. destruct (IH _ _ _ _ _ _ Hl Hl0 E) as (-> & -> & ->). auto.
Qed.
(** No line but an empty one after the last line break is numbered one more than a line
    at the end. *)
Lemma line_after_last s : forall b b0 t t0 a a0, line_at s b t a -> line_at s b0 t0 a0 -> a0 = [] \/ a0 = [x0a] -> newlines b = newlines b0 + 1 -> t ++ a = [].
Proof.
  induction s as [t H|t s H IH] using lines_ind; intros b b0 l l0 a a0 Hl Hl0 Ha E.
  - apply line_of_text in Hl as (-> & -> & ->); auto. apply line_of_text in Hl0 as (-> & -> & ->); auto. discriminate E.
  - assert (NL : forall b0, newlines (t ++ x0a :: b0) = S (newlines b0)).
    { intros b1. change (x0a :: b1) with ([x0a] ++ b1). now rewrite !newlines_app, (newlines_none t) by exact H. }
    apply line_of_cons in Hl as [(-> & -> & ->)|(b1 & -> & Hl)]; auto; apply line_of_cons in Hl0 as [(-> & -> & ->)|(b2 & -> & Hl0)]; auto.
    + discriminate E.
    + rewrite NL in E. cbn in E. lia.
    + destruct Ha as [Q|Q]; [discriminate Q|]. injection Q as ->. apply line_of_text in Hl as (-> & -> & ->); auto.
    + rewrite !NL in E. cbn in E. injection E as E. exact (IH _ _ _ _ _ _ Hl Hl0 Ha E).
Qed.
Lemma shown_right s m ln col text before text' after col' :
  shown s m ln col text -> line_at s before text' after -> m = length before + col' -> col' <= length text' -> ~ past_last_line s m ->
  (ln = newlines before /\ col = col' <-> columns before (length before) /\ col' <= display_width text').
Proof.
  intros Sh Hl Em Hc Hp.
  assert (Hne : text' ++ after <> []).
  { intros Ea. apply Hp. destruct Hl as [H1 H2 _ _]. apply app_eq_nil in Ea as (-> & ->). cbn in H1, Hc. rewrite app_nil_r in H1. subst s.
    split; [lia|]. destruct H2 as [->|K]; eauto. }
  split.
  - intros (-> & ->). destruct Sh as (b0 & a0 & n0 & Hl0 & Hne0 & K & [(E1 & E2 & Hc')|(Ha & E1 & Hc' & _)]).
    + destruct (line_number_unique _ _ _ _ _ _ _ Hl Hl0 (eq_sym E1)) as (-> & -> & ->). replace n0 with (length before) in K by lia. auto.
    + destruct Hne. exact (line_after_last _ _ _ _ _ _ _ Hl Hl0 Ha E1).
  - intros (K & Hc').
    assert (S2 : shown s m (newlines before) col' text').
    { exists before, after, (length before). split; [exact Hl|]. split; [exact Hne|]. split; [exact K|]. left. auto. }
    destruct (shown_unique _ _ _ _ _ _ _ _ Sh S2) as (-> & -> & _). auto.
Qed.
End WithExt.
