(** The lexer produces exactly the tilings of the source. *)
From Verif Require Import Base Utf8 Ext Errors Syntax AhoCorasick SearchSpec SyntaxSpec AcProof Lexer LexSpec Wp TrimProof.

(** ** Occurrences of valid patterns *)

Lemma occurs_boundary p s i : valid_utf8 s -> valid_utf8 p -> p <> [] -> occurs_at p s i ->
  boundary s i = true /\ boundary s (i + length p) = true /\ sub s i (i + length p) = p.
Proof.
  intros Hs Hp Hne [Hi [t Ht]].
  assert (B : boundary s i = true).
  { unfold boundary. destruct p as [|b p]; [contradiction|].
    rewrite <- (firstn_skipn i s), Ht, nth_error_app2; rewrite firstn_length_le by lia; [|lia].
    rewrite Nat.sub_diag. simpl. rewrite (valid_hd_not_cont b p Hp). reflexivity. }
  split; [exact B|].
  destruct (boundary_split s i Hs B) as [V1 V2]. rewrite Ht in V2.
  assert (L : length (skipn i s) = length p + length t) by (rewrite Ht, app_length; reflexivity).
  rewrite skipn_length in L. split.
  - apply boundary_of_valid; [lia|]. rewrite Nat.add_comm, <- skipn_skipn, Ht, skipn_app, skipn_all, Nat.sub_diag.
    simpl. apply (valid_app_inv_l p t); auto.
  - unfold sub. rewrite Ht. replace (i + length p - i) with (length p) by lia.
    rewrite firstn_app, firstn_all, Nat.sub_diag, app_nil_r. reflexivity.
Qed.

Lemma best_unique {K} (ps : list (K * str)) h a1 a2 k k' i j :
  best ps h a1 k i j -> best ps h a2 k' i j -> k = k'.
Proof.
  intros (_ & H1 & H2 & _ & _ & (b & p & a & E & O & L & F)) (_ & _ & _ & _ & _ & (b' & p' & a' & E' & O' & L' & F')).
  assert (p = p').
  { destruct O as [_ [t Ht]], O' as [_ [t' Ht']]. rewrite Ht in Ht'.
    apply (f_equal (firstn (length p))) in Ht'.
    rewrite !firstn_app in Ht'. replace (length p - length p') with 0 in Ht' by lia.
    rewrite Nat.sub_diag in Ht'. replace (length p) with (length p') in Ht' at 2 by lia.
    rewrite !firstn_all in Ht'. simpl in Ht'. now rewrite !app_nil_r in Ht'. }
  subst p'. rewrite E' in E. clear E'. revert b' F' E. induction b as [|x b IH]; intros [|x' b'] F' E; simpl in E.
  - congruence.
  - injection E as -> E. exfalso. apply (F' k p); simpl; auto.
  - injection E as <- E. exfalso. apply (F k' p); simpl; auto.
  - injection E as -> E. apply (IH (fun k p H => F k p (or_intror H)) b'); auto.
    intros k1 p1 H. apply (F' k1 p1 (or_intror H)).
Qed.

Section Facts.
Variable sx : syntax.
Hypothesis Hsx : user_syntax sx.
Variable source : str.
Hypothesis Hsrc : valid_utf8 source.

Lemma best_facts0 at_ k i j : best sx source at_ k i j ->
  at_ <= i /\ i < j /\ j <= length source /\ boundary source i = true /\ boundary source j = true /\
  In (k, sub source i j) sx /\ best sx source i k i j /\
  (forall k' p' i', In (k', p') sx -> at_ <= i' -> i' < i -> ~ occurs_at p' source i').
Proof.
  intros (H1 & H2 & H3 & H4 & H5 & (b & p & a & E & O & L & F)).
  assert (Hin : In (k, p) sx) by (rewrite E; apply in_or_app; simpl; auto).
  destruct (user_syntax_pat sx Hsx k p Hin) as [Hne Hv].
  destruct (occurs_boundary p source i Hsrc Hv Hne O) as (B1 & B2 & B3).
  assert (Lp : 0 < length p) by (destruct p; [contradiction|simpl; lia]).
  replace (i + length p) with j in * by lia. rewrite B3.
  split; [exact H1|]. split; [lia|]. split; [exact H3|]. split; [exact B1|]. split; [exact B2|].
  split; [exact Hin|]. split.
  - split; [lia|]. split; [lia|]. split; [exact H3|]. split; [auto|]. split; [auto|].
    exists b, p, a. auto.
  - intros k' p' i' Hi Hle Hlt Ho. specialize (H4 i' k' p' Hi Ho Hle). lia.
Qed.

Lemma tag_facts0 k m n : tag_at sx source k m n ->
  m < n /\ n <= length source /\ boundary source m = true /\ boundary source n = true /\
  In (k, sub source m n) sx.
Proof. intros H. apply best_facts0 in H. tauto. Qed.

End Facts.

(** If no closing delimiter ends in white space, all sources are fine. *)
Lemma closers_trims sx source : closers_ok sx -> trims_ok sx source.
Proof.
  intros Hc k m i k' j n (_ & _ & _ & _ & _ & (b & p & a & E & Ho & Hl & _)) Hk Hw _ _ _ _ _.
  apply (Hc k p); auto; [rewrite E; apply in_elt|]. unfold sub in Hw. rewrite <- Hl in Hw. destruct Ho as [_ (t & Ho)]. rewrite Ho, firstn_app, firstn_all, Nat.sub_diag, firstn_O, app_nil_r in Hw. exact Hw.
Qed.

Section LexProof.
Context `{X : Ext}.
Variable sx : syntax.
Hypothesis Hsx : user_syntax sx.
Variable sr : searcher.
Hypothesis Hsr : forall h at_, exists r, @find_at error sr h at_ = Ok r /\
  match r with Some (k, i, j) => best sx h at_ k i j | None => no_occurrence sx h at_ end.
Variable source : str.
Hypothesis Hsrc : valid_utf8 source.
Hypothesis Hclosers : trims_ok sx source.

Let best_facts := best_facts0 sx Hsx source Hsrc.
Let tag_facts := tag_facts0 sx Hsx source Hsrc.

Lemma source_ne : forall i, i < length source -> source <> [].
Proof. intros i H E. rewrite E in H. simpl in H. lia. Qed.

(** ** lex_while *)
Lemma lex_while_spec pred : forall rest, valid_utf8 rest -> forall off,
  off + length rest = length source ->
  exists w r, rest = w ++ r /\ valid_utf8 w /\ valid_utf8 r /\
    Forall (fun c => pred c = true) (chars w) /\ stops pred r /\
    lex_while source (char_indices off rest) pred = off + length w.
Proof.
  intros rest Hrest. induction Hrest as [|c s Hc Hs IH] using valid_ind; intros off Hoff.
  - exists [], []. simpl. repeat split; auto using valid_nil; try constructor; simpl in Hoff; lia.
  - rewrite char_indices_encode by assumption. simpl. destruct (pred c) eqn:Ep.
    + destruct (IH (off + len_utf8 c)) as (w & r & -> & Vw & Vr & Fw & Sr & ->).
      { unfold len_utf8. rewrite app_length in Hoff. lia. }
      exists (encode c ++ w), r. rewrite chars_encode by assumption. repeat split; auto.
      * now rewrite app_assoc.
      * apply valid_app; auto using valid_encode.
      * rewrite app_length. unfold len_utf8. lia.
    + exists [], (encode c ++ s). simpl. repeat split; auto using valid_nil.
      * apply valid_app; auto using valid_encode.
      * constructor.
      * unfold stops. rewrite chars_encode by assumption. assumption.
Qed.

(** ** lex_string *)
Lemma lex_string_spec : forall rest, valid_utf8 rest -> forall off i curr,
  off + length rest = length source -> i < off -> boundary source i = true ->
  valid_utf8 (skipn off source) -> skipn off source = rest ->
  wp (lex_string_loop source (char_indices off rest) i curr) (fun '(t, j) =>
    t = TString /\ exists body r, rest = body ++ [x22] ++ r /\ valid_utf8 body /\ valid_utf8 r /\
      str_body_ok curr (chars body) /\ j = off + length body + 1).
Proof.
  intros rest Hrest. induction Hrest as [|c s Hc Hs IH] using valid_ind; intros off i curr Hoff Hi Bi Vsk Esk.
  - simpl. apply err_syntax_wp; [apply (source_ne i); simpl in Hoff; lia|].
    simpl in Hoff. split; simpl; [lia|]. split; auto using boundary_len.
  - rewrite char_indices_encode by assumption. simpl.
    assert (Hlen : off < length source).
    { rewrite app_length in Hoff. pose proof (len_utf8_pos c). unfold len_utf8 in *. lia. }
    destruct ((c =? 13) || (c =? 10))%N eqn:E1.
    + apply err_syntax_wp; [now apply (source_ne off)|]. split; simpl; [lia|]. split; auto.
      apply boundary_of_valid; auto. lia.
    + destruct ((c =? 34) && negb (curr =? 92))%N eqn:E2.
      * simpl. split; auto. exists [], s. apply andb_true_iff in E2 as [E2 E3].
        apply N.eqb_eq in E2. subst c. rewrite negb_true_iff, N.eqb_neq in E3.
        simpl. repeat split; auto using valid_nil; lia.
      * assert (Hsk : skipn (off + len_utf8 c) source = s).
        { rewrite Nat.add_comm, <- skipn_skipn, Esk, skipn_app. unfold len_utf8.
          rewrite skipn_all, Nat.sub_diag. reflexivity. }
        eapply wp_mono; [apply IH|].
        -- unfold len_utf8. rewrite app_length in Hoff. lia.
        -- lia.
        -- assumption.
        -- now rewrite Hsk.
        -- assumption.
        -- intros [t j] (-> & body & r & -> & Vb & Vr & Sb & ->). split; auto.
           exists (encode c ++ body), r. rewrite chars_encode by assumption.
           split; [now rewrite <- !app_assoc|]. split; [apply valid_app; auto using valid_encode|].
           split; [assumption|]. split; [simpl; split; [|assumption]|].
           ++ rewrite orb_false_iff, !N.eqb_neq in E1. unfold str_char_ok. repeat split; try tauto.
              intros ->. rewrite andb_false_iff in E2. destruct E2 as [E2|E2]; [discriminate|].
              rewrite negb_false_iff, N.eqb_eq in E2. exact E2.
           ++ rewrite app_length. unfold len_utf8. lia.
Qed.

(** ** One token inside a tag *)
Lemma sub_here i w r : skipn i source = w ++ r -> sub source i (i + length w) = w.
Proof.
  intros H. unfold sub. rewrite H. replace (i + length w - i) with (length w) by lia.
  rewrite firstn_app, firstn_all, Nat.sub_diag, app_nil_r. reflexivity.
Qed.
Lemma skip_here i w r : skipn i source = w ++ r -> skipn (i + length w) source = r.
Proof.
  intros H. rewrite Nat.add_comm, <- skipn_skipn, H, skipn_app, skipn_all, Nat.sub_diag. reflexivity.
Qed.

Definition tok_post (path : bool) (i : nat) (t : token) (j : nat) : Prop :=
  i < j /\ j <= length source /\ boundary source j = true /\
  lexeme path t (sub source i j) /\ maximal t (skipn j source).

(** Accept [w] as the token's text. *)
Lemma tok_post_intro path i t w r : i < length source -> skipn i source = w ++ r -> w <> [] ->
  valid_utf8 r -> lexeme path t w -> maximal t r -> tok_post path i t (i + length w).
Proof.
  intros Hi H Hne Hr HL HM.
  assert (Lw : 0 < length w) by (destruct w; [contradiction|simpl; lia]).
  assert (HB : i + length w <= length source).
  { apply (f_equal (@length byte)) in H. rewrite skipn_length, app_length in H. lia. }
  split; [lia|]. split; [lia|]. rewrite (sub_here _ _ _ H), (skip_here _ _ _ H). repeat split; auto.
  apply boundary_of_valid; auto. now rewrite (skip_here _ _ _ H).
Qed.

Lemma encode_ascii c : (c < 128)%N -> encode c = [byte_of c].
Proof. intros H. unfold encode. apply N.ltb_lt in H. now rewrite H. Qed.

Definition is_path (bs : block_state) : bool := match bs with BPath => true | BUnknown => false end.

Lemma lex_block_char_spec bs i c s : scalar c -> valid_utf8 s -> i < length source ->
  boundary source i = true -> skipn i source = encode c ++ s ->
  wp (lex_block_char source bs (char_indices (i + len_utf8 c) s) i c)
     (fun '(t, j) => tok_post (is_path bs) i t j).
Proof.
  intros Hc Hs Hi Bi Esk.
  assert (Hne : source <> []) by now apply (source_ne i).
  assert (Hlen : i + len_utf8 c + length s = length source).
  { apply (f_equal (@length byte)) in Esk. rewrite skipn_length, app_length in Esk. unfold len_utf8. lia. }
  assert (Vsk : valid_utf8 (encode c ++ s)) by (apply valid_app; auto using valid_encode).
  assert (Bc : boundary source (i + len_utf8 c) = true).
  { apply boundary_of_valid; [lia|]. unfold len_utf8. rewrite (skip_here _ _ _ Esk). assumption. }
  assert (P1 : forall b t, encode c = [b] -> lexeme (is_path bs) t [b] -> (forall r, maximal t r) ->
     wp (Ok (t, i + 1) : res (token * nat)) (fun '(t, j) => tok_post (is_path bs) i t j)).
  { intros b t Eb HL HM. simpl. rewrite Eb in Esk. apply (tok_post_intro _ i t [b] s); auto. discriminate. }
  assert (PW : forall t pred, pred c = true \/ True ->
     (forall cs w, chars w = c :: cs -> Forall (fun c => pred c = true) cs -> w <> [] -> lexeme (is_path bs) t w) ->
     (forall r, stops pred r -> maximal t r) ->
     tok_post (is_path bs) i t (lex_while source (char_indices (i + len_utf8 c) s) pred)).
  { intros t pred _ HL HM. destruct (lex_while_spec pred s Hs (i + len_utf8 c) Hlen)
      as (w & r & -> & Vw & Vr & Fw & Sr & ->).
    replace (i + len_utf8 c + length w) with (i + length (encode c ++ w)) by (rewrite app_length; unfold len_utf8; lia).
    apply tok_post_intro with r; auto.
    - rewrite Esk. now rewrite app_assoc.
    - intros E. apply app_eq_nil in E as [E _]. now apply encode_nonempty in E.
    - apply HL with (chars w); auto; [now rewrite chars_encode|].
      intros E. apply app_eq_nil in E as [E _]. now apply encode_nonempty in E. }
  unfold lex_block_char.
  destruct (N.eqb_spec c 46); [subst c; eapply P1; try reflexivity; auto|].
  destruct (N.eqb_spec c 124); [subst c; eapply P1; try reflexivity; auto|].
  destruct (N.eqb_spec c 44); [subst c; eapply P1; try reflexivity; auto|].
  destruct (N.eqb_spec c 58); [subst c; eapply P1; try reflexivity; auto|].
  destruct (N.eqb_spec c 43); [subst c; eapply P1; try reflexivity; auto|].
  destruct (N.eqb_spec c 45); [subst c; eapply P1; try reflexivity; auto|].
  destruct (N.eqb_spec c 63).
  { subst c. unfold lex_question_dot. destruct s as [|b s'].
    - simpl. apply err_syntax_wp; auto. repeat split; simpl; auto using boundary_len. lia.
    - destruct (valid_cons_inv b s' Hs) as (c2 & r2 & Hc2 & Hr2 & E2). rewrite E2 in *.
      rewrite char_indices_encode by assumption. simpl (match _ with [] => _ | _ => _ end).
      cbv beta iota. destruct (N.eqb_spec c2 46).
      + subst c2. simpl. change (i + 2) with (i + length [x3f; x2e]).
        apply tok_post_intro with r2; auto; try discriminate; try reflexivity; exact I.
      + apply err_syntax_wp; auto. repeat split; simpl; auto; [lia|].
        apply boundary_of_valid.
        * unfold len_utf8 in *. rewrite app_length in Hlen. lia.
        * replace (i + len_utf8 63 + len_utf8 c2) with (i + length (encode 63 ++ encode c2))
            by (rewrite app_length; unfold len_utf8; lia).
          rewrite (skip_here i (encode 63 ++ encode c2) r2); [assumption|]. rewrite Esk. now rewrite app_assoc. }
  destruct (N.eqb_spec c 34).
  { subst c. unfold lex_string. eapply wp_mono; [apply lex_string_spec; auto|].
    - change (len_utf8 34) with 1. lia.
    - change (len_utf8 34) with (length (encode 34)). now rewrite (skip_here i (encode 34) s Esk).
    - now apply (skip_here i (encode 34) s).
    - intros [t j] (-> & body & r & -> & Vb & Vr & Sb & ->).
      replace (i + len_utf8 34 + length body + 1) with (i + length (encode 34 ++ body ++ [x22]))
        by (rewrite !app_length; change (len_utf8 34) with 1; simpl; lia).
      apply tok_post_intro with r; auto.
      + rewrite Esk, <- !app_assoc. reflexivity.
      + discriminate.
      + cbn [lexeme]. exists (chars body). split; auto. rewrite chars_encode; auto.
        * rewrite chars_app; auto. now apply asciib_valid.
        * apply valid_app; auto. now apply asciib_valid.
      + exact I. }
  destruct (ascii_digit c) eqn:Ed.
  { destruct bs; simpl.
    - apply PW; auto. intros cs w Ew Fw _. split; auto. exists c, cs. auto.
    - apply PW; auto. intros cs w Ew Fw Hw. split; auto. split; auto. rewrite Ew. constructor; auto. }
  destruct (is_ws c) eqn:Ew.
  { simpl. apply PW; auto. intros cs w Ec Fw Hw. split; auto. rewrite Ec. constructor; auto. }
  destruct (is_ident_start c) eqn:Ei.
  { unfold lex_ident_or_keyword.
    destruct (lex_while_spec is_ident s Hs (i + len_utf8 c) Hlen)
      as (w & r & -> & Vw & Vr & Fw & Sr & ->).
    replace (i + len_utf8 c + length w) with (i + length (encode c ++ w)) by (rewrite app_length; unfold len_utf8; lia).
    assert (E3 : skipn i source = (encode c ++ w) ++ r) by (rewrite Esk; now rewrite app_assoc).
    rewrite slice_Ok.
    - rewrite (sub_here i _ r E3). cbn [bind].
      assert (Hsh : ident_shape (encode c ++ w)).
      { exists c, (chars w). rewrite chars_encode; auto. repeat split; auto.
        simpl. intuition congruence. }
      assert (Hne2 : encode c ++ w <> []).
      { intros E. apply app_eq_nil in E as [E _]. now apply encode_nonempty in E. }
      destruct (existsb (str_eqb (encode c ++ w)) keyword_all) eqn:Ek; simpl wp.
      + apply tok_post_intro with r; auto. apply existsb_exists in Ek as (k & Hk & Ek).
        apply str_eqb_eq in Ek. simpl lexeme. split; auto. rewrite Ek. exact Hk.
      + apply tok_post_intro with r; auto. simpl lexeme. split.
        * intros Hk. assert (H : existsb (str_eqb (encode c ++ w)) keyword_all = true).
          { apply existsb_exists. exists (encode c ++ w). split; auto. apply str_eqb_refl. }
          congruence.
        * exact Hsh.
    - lia.
    - assumption.
    - apply boundary_of_valid; [apply (f_equal (@length byte)) in E3; rewrite skipn_length, app_length in E3; lia|].
      now rewrite (skip_here _ _ _ E3). }
  apply err_syntax_wp; auto. repeat split; simpl; auto. lia.
Qed.

(** ** trim_raw_token *)
Lemma trim_raw_spec lt i j (tr : bool) : i < j -> j <= length source ->
  boundary source i = true -> boundary source j = true ->
  (tr = true -> ~ ends_white (firstn i source) \/ ~ white (sub source i j)) ->
  exists m n, trim_raw_token source lt i j tr = Ok (mkspan m n, false) /\
    i <= m /\ m <= n /\ n <= j /\ boundary source m = true /\ boundary source n = true /\
    (if lt then white (sub source i m) /\ ~ starts_white (sub source m n) else m = i) /\
    (if tr then white (sub source n j) /\ ~ ends_white (sub source i n) else n = j).
Proof.
  intros Hij Hj Bi Bj Htr. unfold trim_raw_token.
  destruct (boundary_split source i Hsrc Bi) as [Vi Vi'].
  assert (H1 : exists n, (if tr then let* s := slice source 0 j in Ok (length (trim_end s)) else Ok j) = (Ok n : res nat) /\
     i <= n /\ n <= j /\ boundary source n = true /\
     (if tr then white (sub source n j) /\ ~ ends_white (sub source i n) else n = j)).
  { destruct tr; [|exists j; repeat split; auto; lia].
    rewrite slice_Ok; auto using boundary_0; [|lia]. cbn [bind].
    assert (E : sub source 0 j = firstn i source ++ sub source i j).
    { rewrite (sub_split source 0 i j) by lia. unfold sub at 1. rewrite skipn_O, Nat.sub_0_r. reflexivity. }
    assert (Vij : valid_utf8 (sub source i j)) by (apply sub_valid; auto; lia).
    rewrite E, trim_end_app; auto.
    destruct (trim_end_spec (sub source i j) Vij) as (w & Es & Hw & Vt & Ht).
    set (t := trim_end (sub source i j)) in *.
    assert (Hl : length t + length w = j - i).
    { rewrite <- (sub_length source i j) by lia. rewrite Es, app_length. reflexivity. }
    assert (Hsk : skipn i source = t ++ w ++ skipn j source).
    { rewrite app_assoc, <- Es. unfold sub. replace j with ((j - i) + i) at 2 by lia.
      rewrite <- skipn_skipn, firstn_skipn. reflexivity. }
    exists (i + length t). rewrite app_length, firstn_length_le by lia.
    assert (Hsk2 := skip_here _ _ _ Hsk).
    repeat split; try lia.
    - apply boundary_of_valid; [lia|]. rewrite Hsk2. apply valid_app; [now apply white_valid|].
      now apply boundary_split.
    - unfold sub. rewrite Hsk2. replace (j - (i + length t)) with (length w) by lia.
      rewrite firstn_app, firstn_all, Nat.sub_diag, app_nil_r. exact Hw.
    - rewrite (sub_here _ _ _ Hsk). exact Ht. }
  destruct H1 as (n & -> & H1 & H2 & Bn & H3). cbn [bind].
  destruct lt.
  - rewrite slice_Ok; auto. cbn [bind].
    assert (Vin : valid_utf8 (sub source i n)) by (apply sub_valid; auto).
    destruct (trim_start_spec (sub source i n) Vin) as (w & Es & Hw & Vt & Ht).
    set (t := trim_start (sub source i n)) in *.
    assert (Hl : length w + length t = n - i).
    { rewrite <- (sub_length source i n) by lia. rewrite Es, app_length. reflexivity. }
    assert (Hsk : skipn i source = w ++ t ++ skipn n source).
    { rewrite app_assoc, <- Es. unfold sub. replace n with ((n - i) + i) at 2 by lia.
      rewrite <- skipn_skipn, firstn_skipn. reflexivity. }
    exists (i + length w), n. rewrite sub_length by lia.
    replace (i + (n - i - length t)) with (i + length w) by lia.
    assert (Hsk2 := skip_here _ _ _ Hsk).
    assert (Esub : sub source (i + length w) n = t).
    { unfold sub. rewrite Hsk2. replace (n - (i + length w)) with (length t) by lia.
      rewrite firstn_app, firstn_all, Nat.sub_diag, app_nil_r. reflexivity. }
    repeat split; try lia; auto.
    + apply boundary_of_valid; [lia|]. rewrite Hsk2. apply valid_app; auto. now apply boundary_split.
    + rewrite (sub_here _ _ _ Hsk). exact Hw.
    + now rewrite Esub.
  - exists i, n. repeat split; auto; try lia.
Qed.

(** ** The lexer invariant *)
(** White space after [pos] can be trimmed. *)
Definition calm (pos : nat) : Prop := forall k j n, best sx source pos k j n -> opening k = true -> hyphenated k = true -> pos < j ->
  ~ ends_white (firstn pos source) \/ ~ white (sub source pos j).

Inductive inv : lexer -> nat -> mode -> Prop :=
| inv_open pos n k b lt st :
    opening k = true -> tag_at sx source k pos n ->
    st = match tag_token k with
         | TBeginComment => LComment (mkspan pos n) (closing_of (tag_token k))
         | _ => LBlock (mkspan pos n) (closing_of (tag_token k)) end ->
    inv (mklexer n st lt (Some (tag_token k, mkspan pos n))) pos (MText b)
| inv_close pos n k :
    opening k = false -> tag_at sx source k pos n -> tag_token k = TEndComment ->
    inv (mklexer n LTemplate (hyphenated k) (Some (tag_token k, mkspan pos n))) pos MComment
| inv_text pos lt b :
    boundary source pos = true ->
    (pos < length source -> lt = b /\ calm pos) ->
    inv (mklexer pos LTemplate lt None) pos (MText b)
| inv_tag pos lt bs e (path : bool) :
    boundary source pos = true -> span_ok source bs -> e = TEndExpr \/ e = TEndBlock ->
    inv (mklexer pos (if path then LBlockPath bs e else LBlock bs e) lt None) pos (MTag e path)
| inv_comment pos lt bs :
    boundary source pos = true -> span_ok source bs ->
    inv (mklexer pos (LComment bs TEndComment) lt None) pos MComment.

Lemma inv_new : inv lexer_new 0 (MText false).
Proof.
  apply inv_text; [apply boundary_0|]. intros _. split; auto. intros k j n _ _ _ _. left. simpl. intros (c & t & _ & _ & E).
  symmetry in E. apply app_eq_nil in E as [_ E]. now apply encode_nonempty in E.
Qed.

Definition lmeas (lx : lexer) : nat :=
  2 * (length source - lx_cursor lx) + match lx_next lx with Some _ => 1 | None => 0 end.

(** What one call of [lex] does. *)
Definition step_post (lx : lexer) (pos : nat) (md : mode) (r : option (token * span) * lexer) : Prop :=
  match r with
  | (None, lx') => lx' = lx /\ pos = length source
  | (Some (t, sp), lx') =>
    lmeas lx' < lmeas lx /\
    exists pos' md', inv lx' pos' md' /\
    ((t <> TRaw /\ forall full ts, tiling sx source full pos' md' ts -> tiling sx source full pos md ((t, sp) :: ts)) \/
     (t = TRaw /\ pos < pos' /\ pos <= sp_m sp /\ sp_m sp <= sp_n sp /\ sp_n sp <= pos' /\ pos' <= length source /\
      boundary source (sp_m sp) = true /\ boundary source (sp_n sp) = true /\ (forall e b, md <> MTag e b) /\
      (forall k p i, In (k, p) sx -> pos <= i -> i < pos' -> ~ occurs_at p source i) /\
      (if match md with MText true => true | _ => false end
       then white (sub source pos (sp_m sp)) /\ ~ starts_white (sub source (sp_m sp) (sp_n sp))
       else sp_m sp = pos) /\
      md' = match md with MText _ => MText false | md => md end /\
      (pos' = length source \/ exists k p, In (k, p) sx /\ occurs_at p source pos') /\
      match lx_next lx' with
      | None => pos' = length source /\ sp_n sp = pos'
      | Some (t', sp') => exists k, t' = tag_token k /\ tag_at sx source k (sp_m sp') (sp_n sp') /\
         if opening k && hyphenated k
         then white (sub source (sp_n sp) pos') /\ ~ ends_white (sub source pos (sp_n sp))
         else sp_n sp = pos'
      end))
  end.

Lemma from_kind_eq k : from_kind k = (tag_token k, hyphenated k).
Proof. now destruct k. Qed.
Lemma is_begin_opening k : is_begin_tag (tag_token k) = opening k.
Proof. now destruct k. Qed.
Lemma token_pair_tag k : token_pair (tag_token k) =
  Ok (if opening k then closing_of (tag_token k) else match tag_token k with TEndExpr => TBeginExpr | TEndBlock => TBeginBlock | _ => TBeginComment end).
Proof. now destruct k. Qed.
Lemma token_eqb_eq a b : token_eqb a b = true <-> a = b.
Proof. unfold token_eqb. destruct (token_eq_dec a b); split; auto; discriminate. Qed.

Lemma after_open_cases k : opening k = true ->
  (after_open (tag_token k) = MComment /\ tag_token k = TBeginComment) \/
  (exists e, after_open (tag_token k) = MTag e false /\ e = closing_of (tag_token k) /\ (e = TEndExpr \/ e = TEndBlock) /\ tag_token k <> TBeginComment).
Proof.
  destruct k; simpl; intros H; try discriminate; [right|right|right|right|left|left]; eauto;
  eexists; repeat split; eauto; discriminate.
Qed.

(** The lexer just after an opening tag. *)
Lemma inv_after_open k pos n lt : opening k = true -> tag_at sx source k pos n ->
  inv (mklexer n (match tag_token k with
         | TBeginComment => LComment (mkspan pos n) (closing_of (tag_token k))
         | _ => LBlock (mkspan pos n) (closing_of (tag_token k)) end) lt None) n (after_open (tag_token k)).
Proof.
  intros Hk Ht. pose proof (tag_facts k pos n Ht) as (H1 & H2 & H3 & H4 & _).
  assert (Hsp : span_ok source (mkspan pos n)) by (repeat split; simpl; auto; lia).
  destruct (after_open_cases k Hk) as [[-> ->]|(e & -> & -> & He & Hn)].
  - now apply inv_comment.
  - pose proof (inv_tag n lt (mkspan pos n) (closing_of (tag_token k)) false H4 Hsp He) as Hi. cbv iota in Hi.
    destruct (tag_token k); auto. contradiction.
Qed.

(** The lexer just after a closing tag. *)
Lemma inv_after_close k pos n : opening k = false -> tag_at sx source k pos n ->
  inv (mklexer n LTemplate (hyphenated k) None) n (MText (hyphenated k)).
Proof.
  intros Hk Ht. pose proof (tag_facts k pos n Ht) as (H1 & H2 & H3 & H4 & H5).
  apply inv_text; auto. intros _. split; auto. intros k' j n' Hb Ho Hh Hlt.
  destruct (ends_white_dec (sub source pos n) ltac:(apply sub_valid; auto; lia)) as [Hw|Hw]; [right; eapply Hclosers; eauto|]. left. intros K. apply Hw.
  assert (E : firstn n source = firstn pos source ++ sub source pos n).
  { replace (firstn n source) with (sub source 0 n) by (unfold sub; now rewrite skipn_O, Nat.sub_0_r).
    rewrite (sub_split source 0 pos n) by lia. f_equal. unfold sub. now rewrite skipn_O, Nat.sub_0_r. }
  rewrite E in K. apply ends_white_app in K; auto.
  - now apply boundary_split.
  - intros E2. apply (f_equal (@length byte)) in E2. rewrite sub_length in E2 by lia. simpl in E2. lia.
  - apply sub_valid; auto. lia.
Qed.

Lemma best_occurs at_ k i j : best sx source at_ k i j ->
  exists k p, In (k, p) sx /\ occurs_at p source i.
Proof.
  intros (_ & _ & _ & _ & _ & (b & p & a & E & O & _ & _)). exists k, p. split; auto.
  rewrite E. apply in_or_app. simpl. auto.
Qed.

Lemma skipn_lt pos x rest : skipn pos source = x :: rest -> pos < length source.
Proof. intros H. apply (f_equal (@length byte)) in H. rewrite skipn_length in H. simpl in H. lia. Qed.
Lemma skipn_end pos : boundary source pos = true -> skipn pos source = [] -> pos = length source.
Proof.
  intros Bp H. apply (f_equal (@length byte)) in H. rewrite skipn_length in H. simpl in H.
  apply boundary_le in Bp. lia.
Qed.

Lemma lex_block_ok pos lt bs e (path : bool) : boundary source pos = true -> span_ok source bs ->
  e = TEndExpr \/ e = TEndBlock -> pos < length source ->
  let lx := mklexer pos (if path then LBlockPath bs e else LBlock bs e) lt None in
  wp (lex_block sr source lx (if path then BPath else BUnknown) bs e pos) (step_post lx pos (MTag e path)).
Proof.
  intros Bp Hbs He Hlt lx. unfold lex_block, starts_with. destruct (Hsr source pos) as (r & -> & Hr). cbn [bind].
  set (bst := if path then BPath else BUnknown) in *.
  assert (Hpath : is_path bst = path) by (unfold bst; destruct path; reflexivity).
  assert (Hnone : (forall k p, In (k, p) sx -> ~ occurs_at p source pos) ->
     wp (let* (tk, j, st0, lt0) := (let* rest := slice_from source pos in
            match char_indices pos rest with
            | [] => Panic
            | (i, c) :: iter =>
              let* (tk, j) := lex_block_char source bst iter i c in
              Ok (tk, j, lx_state lx, lx_left_trim lx)
            end) in
         Ok (Some (tk, mkspan pos j), mklexer j (match bst, tk with
            | BUnknown, TIdent => LBlockPath bs e
            | BPath, (TPipe | TComma | TColon) => LBlock bs e
            | _, _ => st0 end) lt0 None)) (step_post lx pos (MTag e path))).
  { intros Hno. rewrite slice_from_Ok by assumption. cbn [bind].
    assert (Vsk : valid_utf8 (skipn pos source)) by now apply boundary_split.
    destruct (skipn pos source) as [|x rest] eqn:Esk.
    { apply skipn_end in Esk; auto. lia. }
    destruct (valid_cons_inv x rest Vsk) as (c & s & Hc & Hs & E2). rewrite E2 in *.
    rewrite char_indices_encode by assumption. rewrite bind_assoc. apply wp_bind.
    eapply wp_mono; [apply lex_block_char_spec; eauto|].
    intros [tk j] (P1 & P2 & P3 & P4 & P5). cbn [bind wp step_post]. rewrite Hpath in P4.
    split; [unfold lmeas, lx; simpl; lia|]. exists j, (MTag e (after_tok path tk)). split.
    - match goal with |- inv (mklexer _ ?s _ _) _ _ =>
        replace s with (if after_tok path tk then LBlockPath bs e else LBlock bs e)
          by (unfold lx, bst; destruct path, tk; reflexivity) end.
      now apply inv_tag.
    - left. split; [intros ->; exact P4|]. intros full ts H. apply ti_tok; auto. }
  destruct r as [[[k i] j]|].
  - pose proof (best_facts _ _ _ _ Hr) as (F1 & F2 & F3 & F4 & F5 & F6 & F7 & F8).
    destruct (Nat.eqb_spec pos i) as [<-|Hne].
    + cbn [bind]. rewrite from_kind_eq, is_begin_opening. destruct (opening k) eqn:Ek.
      * unfold err_unclosed. destruct He as [->| ->]; cbn [token_pair bind];
          apply wp_bind; apply err_syntax_wp; auto; now apply (source_ne pos).
      * destruct (token_eqb (tag_token k) e) eqn:Et; cbn [negb].
        -- apply token_eqb_eq in Et. cbn [bind wp step_post]. split; [unfold lmeas, lx; simpl; lia|].
           exists j, (MText (hyphenated k)). split.
           ++ match goal with |- inv (mklexer _ ?s _ _) _ _ => replace s with LTemplate by (destruct bst, k; try discriminate; reflexivity) end.
              now apply inv_after_close with pos.
           ++ left. split; [now destruct k|]. intros full ts H. apply ti_close; auto. subst e. eauto.
        -- apply wp_bind. apply err_syntax_wp; [now apply (source_ne pos)|]. repeat split; simpl; auto. lia.
    + cbn [bind]. apply Hnone. intros k' p' Hin. apply F8 with k'; auto. lia.
  - cbn [bind]. apply Hnone. intros k' p' Hin. now apply (Hr k' p' pos).
Qed.

Lemma step_ok lx pos md : inv lx pos md -> wp (lex sr source lx) (step_post lx pos md).
Proof.
  intros Hinv. destruct Hinv as [pos n k b lt st Hk Ht ->|pos n k Hk Ht Hc|pos lt b Bp Hp|pos lt bs e path Bp Hbs He|pos lt bs Bp Hbs].
  - (* pending opening tag *)
    unfold lex. cbn [lx_next lx_cursor lx_state lx_left_trim wp step_post]. split; [unfold lmeas; simpl; lia|].
    exists n, (after_open (tag_token k)). split; [now apply inv_after_open|]. left. split; [now destruct k|].
    intros full ts H. now apply ti_open.
  - (* pending end of comment *)
    unfold lex. cbn [lx_next lx_cursor lx_state lx_left_trim wp step_post]. split; [unfold lmeas; simpl; lia|].
    exists n, (MText (hyphenated k)). split; [now apply inv_after_close with pos|]. left. split; [now destruct k|].
    intros full ts H. apply ti_close; auto.
  - (* template text *)
    unfold lex. cbn [lx_next lx_cursor lx_state lx_left_trim]. rewrite slice_from_Ok by assumption. cbn [bind].
    destruct (skipn pos source) as [|x rest] eqn:Esk.
    { simpl. split; auto. now apply skipn_end. }
    assert (Hlt := skipn_lt _ _ _ Esk).
    clear x rest Esk. destruct (Hp Hlt) as [-> Hw]. unfold lex_template. cbn [lx_next lx_cursor lx_state lx_left_trim].
    destruct (Hsr source pos) as (r & -> & Hr). cbn [bind]. destruct r as [[[k j] n]|].
    + rewrite from_kind_eq. rewrite is_begin_opening.
      pose proof (best_facts _ _ _ _ Hr) as (F1 & F2 & F3 & F4 & F5 & F6 & F7 & F8).
      destruct (opening k) eqn:Ek; cbn [negb].
      * rewrite token_pair_tag, Ek. cbn [bind]. destruct (Nat.eqb_spec pos j) as [<-|Hne].
        -- cbn [wp step_post]. split; [unfold lmeas; simpl; lia|].
           exists n, (after_open (tag_token k)). split; [now apply inv_after_open|]. left. split; [now destruct k|].
           intros full ts H. now apply ti_open.
        -- destruct (trim_raw_spec b pos j (hyphenated k)) as (m & n' & -> & T1 & T2 & T3 & T4 & T5 & T6 & T7); auto; try lia.
           { intros Hh. apply (Hw k j n); auto. lia. }
           cbn [bind wp step_post]. split; [unfold lmeas; simpl; lia|].
           exists j, (MText false). split; [now apply inv_open|]. right. cbn [sp_m sp_n lx_next].
           split; auto. split; [lia|]. split; [lia|]. split; [lia|]. split; [lia|]. split; [lia|].
           split; [assumption|]. split; [assumption|]. split; [discriminate|].
           split; [intros; eapply F8; eauto|]. split; [destruct b; auto|]. split; auto.
           split; [right; now apply (best_occurs pos k j n)|].
           exists k. rewrite Ek. cbn [andb sp_m sp_n]. auto.
      * apply err_syntax_wp; [now apply (source_ne pos)|]. repeat split; simpl; auto. lia.
    + destruct (trim_raw_spec b pos (length source) false) as (m & n' & -> & T1 & T2 & T3 & T4 & T5 & T6 & T7);
        auto using boundary_len; try lia; try discriminate.
      cbn [bind wp step_post]. split; [unfold lmeas; simpl; lia|].
      exists (length source), (MText false). split; [apply inv_text; auto using boundary_len; lia|]. right. cbn [sp_m sp_n lx_next].
      split; auto. split; [lia|]. split; [lia|]. split; [lia|]. split; [lia|]. split; [lia|].
      split; [assumption|]. split; [assumption|]. split; [discriminate|].
      split; [intros k p i Hi H1 _; now apply (Hr k p i)|]. split; [destruct b; auto|]. split; auto.
  - (* inside a tag *)
    unfold lex. cbn [lx_next lx_cursor lx_state lx_left_trim]. rewrite slice_from_Ok by assumption. cbn [bind].
    destruct (skipn pos source) as [|x rest] eqn:Esk.
    { simpl. split; auto. now apply skipn_end. }
    assert (Hlt := skipn_lt _ _ _ Esk).
    pose proof (lex_block_ok pos lt bs e path Bp Hbs He Hlt) as HH. destruct path; exact HH.
  - (* inside a comment *)
    unfold lex. cbn [lx_next lx_cursor lx_state lx_left_trim]. rewrite slice_from_Ok by assumption. cbn [bind].
    destruct (skipn pos source) as [|x rest] eqn:Esk.
    { simpl. split; auto. now apply skipn_end. }
    assert (Hlt := skipn_lt _ _ _ Esk).
    clear x rest Esk. unfold lex_comment. cbn [lx_next lx_cursor lx_state lx_left_trim].
    destruct (Hsr source pos) as (r & -> & Hr). cbn [bind]. destruct r as [[[k j] n]|].
    + rewrite from_kind_eq, is_begin_opening.
      pose proof (best_facts _ _ _ _ Hr) as (F1 & F2 & F3 & F4 & F5 & F6 & F7 & F8).
      destruct (opening k) eqn:Ek.
      * unfold err_unclosed. cbn [token_pair bind]. apply err_syntax_wp; auto. now apply (source_ne pos).
      * destruct (token_eqb (tag_token k) TEndComment) eqn:Et; cbn [negb].
        -- apply token_eqb_eq in Et. destruct (Nat.eqb_spec pos j) as [<-|Hne].
           ++ cbn [wp step_post]. split; [unfold lmeas; simpl; lia|].
              exists n, (MText (hyphenated k)). split; [now apply inv_after_close with pos|]. left.
              split; [now destruct k|]. intros full ts H. apply ti_close; auto.
           ++ cbn [wp step_post]. split; [unfold lmeas; simpl; lia|].
              exists j, MComment. split; [now apply inv_close|]. right. cbn [sp_m sp_n lx_next].
              split; auto. split; [lia|]. split; [lia|]. split; [lia|]. split; [lia|]. split; [lia|].
              split; [assumption|]. split; [assumption|]. split; [discriminate|].
              split; [intros; eapply F8; eauto|]. split; auto. split; auto.
              split; [right; now apply (best_occurs pos k j n)|].
              exists k. rewrite Ek. cbn [andb sp_m sp_n]. auto.
        -- apply err_syntax_wp; [now apply (source_ne pos)|]. repeat split; simpl; auto. lia.
    + cbn [bind wp step_post]. split; [unfold lmeas; simpl; lia|].
      exists (length source), MComment. split; [apply inv_comment; auto using boundary_len|]. right. cbn [sp_m sp_n lx_next].
      split; auto. split; [lia|]. split; [lia|]. split; [lia|]. split; [lia|]. split; [lia|].
      split; [assumption|]. split; [apply boundary_len|]. split; [discriminate|].
      split; [intros k p i Hi H1 _; now apply (Hr k p i)|]. split; auto.
Qed.

(** ** Whole token streams *)
Inductive lexes : lexer -> list (token * span) -> option error -> Prop :=
| lxs_end lx : lex sr source lx = Ok (None, lx) -> lexes lx [] None
| lxs_err lx e : lex sr source lx = Err e -> lexes lx [] (Some e)
| lxs_cons lx t lx' ts fin : lex sr source lx = Ok (Some t, lx') -> lexes lx' ts fin ->
    lexes lx (t :: ts) fin.

Lemma lexes_total : forall n lx pos md, inv lx pos md -> lmeas lx < n ->
  exists ts fin, lexes lx ts fin /\ length ts <= lmeas lx.
Proof.
  induction n as [|n IH]; intros lx pos md Hinv Hn; [lia|].
  pose proof (step_ok lx pos md Hinv) as Hs. apply wp_inv in Hs as [([[[t sp]|] lx'] & El & Hs)|(e & El)].
  - destruct Hs as (Hm & pos' & md' & Hinv' & _).
    destruct (IH lx' pos' md' Hinv' ltac:(lia)) as (ts & fin & Hl & Hle).
    exists ((t, sp) :: ts), fin. split; [eapply lxs_cons; eauto|]. simpl. lia.
  - destruct Hs as [-> _]. exists [], None. split; [now constructor|]. simpl. lia.
  - exists [], (Some e). split; [now constructor|]. simpl. lia.
Qed.

Lemma lexes_tiling lx ts fin : lexes lx ts fin -> forall pos md, inv lx pos md ->
  tiling sx source (match fin with None => true | Some _ => false end) pos md ts.
Proof.
  induction 1 as [lx Hl|lx e Hl|lx [t sp] lx' ts fin Hl Hls IH]; intros pos md Hinv;
    pose proof (step_ok lx pos md Hinv) as Hs; rewrite Hl in Hs; cbn [wp step_post] in Hs.
  - destruct Hs as [_ ->]. constructor. auto.
  - constructor. discriminate.
  - destruct Hs as (Hm & pos' & md' & Hinv' & [[Hne Ht]|(-> & H1 & H2 & H3 & H4 & H5 & H6 & H7 & H8 & H9 & H10 & -> & H12 & H11)]).
    + apply Ht. now apply IH.
    + destruct sp as [m n]. cbn [sp_m sp_n] in *. apply ti_raw with pos'; auto.
      destruct (lx_next lx') as [[t' sp']|] eqn:En.
      * assert (Hts : exists ts', ts = (t', sp') :: ts').
        { inversion Hls as [? Hl'|? ? Hl'|? t0 ? ts0 ? Hl' Hls']; subst;
            unfold lex in Hl'; rewrite En in Hl'; try discriminate. injection Hl' as <- <-. eauto. }
        destruct Hts as [ts' ->]. destruct H11 as (k & -> & Htag & Hk).
        destruct (opening k && hyphenated k) eqn:Ek.
        -- left. split; [|tauto]. simpl. exists k. apply andb_true_iff in Ek. tauto.
        -- right. split; auto. simpl. intros (k' & Htag' & Et & Ho & Hh).
           assert (k = k') by (eapply best_unique; eauto). subst k'. rewrite Ho, Hh in Ek. discriminate.
      * right. destruct H11 as [-> ->]. split; auto.
        assert (Hts : ts = []).
        { pose proof (step_ok lx' _ _ Hinv') as Hs'.
          inversion Hls as [? Hl'|? ? Hl'|? [t0 sp0] ? ts0 ? Hl' Hls']; subst; auto. exfalso.
          rewrite Hl' in Hs'. cbn [wp step_post] in Hs'. destruct Hs' as (Hm' & _).
          assert (Hc : length source <= lx_cursor lx').
          { inversion Hinv' as [? ? ? ? ? ? ? ? ? E1|? ? ? ? ? ? E1|? ? ? ? ? E1|? ? ? ? ? ? ? ? E1|? ? ? ? ? E1]; subst lx';
              simpl in En; try discriminate; simpl in *; subst; simpl; lia. }
          unfold lmeas in Hm'. rewrite En in Hm'. lia. }
        subst ts. simpl. auto.
Qed.

(** ** Every full tiling is found *)
Lemma tag_unique k k' m n n' : tag_at sx source k m n -> tag_at sx source k' m n' -> k = k' /\ n = n'.
Proof.
  intros H H'. assert (n = n').
  { destruct H as (A1 & A2 & A3 & A4 & A5 & (b & p & a & E & O & L & F)).
    destruct H' as (A1' & A2' & A3' & A4' & A5' & (b' & p' & a' & E' & O' & L' & F')).
    assert (Hin : In (k, p) sx) by (rewrite E; apply in_or_app; simpl; auto).
    assert (Hin' : In (k', p') sx) by (rewrite E'; apply in_or_app; simpl; auto).
    specialize (A5 _ _ Hin' O'). specialize (A5' _ _ Hin O). lia. }
  subst n'. split; auto. eapply best_unique; eauto.
Qed.

Lemma tag_occurs k m n : tag_at sx source k m n -> exists p, In (k, p) sx /\ occurs_at p source m.
Proof.
  intros (_ & _ & _ & _ & _ & (b & p & a & E & O & _ & _)). exists p. split; auto.
  rewrite E. apply in_or_app. simpl. auto.
Qed.

Lemma find_at_tag k at_ m n : tag_at sx source k m n -> at_ <= m ->
  (forall k p i, In (k, p) sx -> at_ <= i -> i < m -> ~ occurs_at p source i) ->
  @find_at error sr source at_ = Ok (Some (k, m, n)).
Proof.
  intros Ht Hle Hno. destruct (Hsr source at_) as (r & -> & Hr). destruct (tag_occurs _ _ _ Ht) as (p & Hin & Ho).
  destruct r as [[[k' i] j]|].
  - pose proof (best_facts _ _ _ _ Hr) as (F1 & F2 & F3 & F4 & F5 & F6 & F7 & F8).
    destruct (tag_occurs _ _ _ F7) as (p' & Hin' & Ho').
    assert (i = m).
    { destruct (Nat.lt_trichotomy i m) as [H|[H|H]]; auto; exfalso.
      - now apply (Hno k' p' i).
      - now apply (F8 k p m). }
    subst i. destruct (tag_unique _ _ _ _ _ Ht F7) as [-> ->]. reflexivity.
  - exfalso. now apply (Hr k p m).
Qed.

Lemma find_at_best k at_ m n : tag_at sx source k m n -> at_ <= m ->
  (forall k p i, In (k, p) sx -> at_ <= i -> i < m -> ~ occurs_at p source i) -> best sx source at_ k m n.
Proof.
  intros Ht Hle Hno. pose proof (find_at_tag k at_ m n Ht Hle Hno) as E. destruct (Hsr source at_) as (r & E' & Hr).
  rewrite E in E'. injection E' as <-. exact Hr.
Qed.

Lemma find_at_none at_ :
  (forall k p i, In (k, p) sx -> at_ <= i -> i < length source -> ~ occurs_at p source i) ->
  @find_at error sr source at_ = Ok None.
Proof.
  intros Hno. destruct (Hsr source at_) as (r & -> & Hr). destruct r as [[[k' i] j]|]; auto.
  pose proof (best_facts _ _ _ _ Hr) as (F1 & F2 & F3 & F4 & F5 & F6 & F7 & F8).
  destruct (tag_occurs _ _ _ F7) as (p' & Hin' & Ho'). exfalso. apply (Hno k' p' i); auto. lia.
Qed.

Lemma lex_while_complete pred w : valid_utf8 w -> forall off r, valid_utf8 r ->
  off + length (w ++ r) = length source ->
  Forall (fun c => pred c = true) (chars w) -> stops pred r ->
  lex_while source (char_indices off (w ++ r)) pred = off + length w.
Proof.
  intros Vw. induction Vw as [|c s Hc Hs IH] using valid_ind; intros off r Vr Hoff Fw Sr.
  - simpl in *. destruct r as [|b r']; [simpl in *; lia|].
    destruct (valid_cons_inv b r' Vr) as (c2 & r2 & Hc2 & Hr2 & E2). rewrite E2 in *.
    unfold stops in Sr. rewrite chars_encode in Sr by assumption.
    rewrite char_indices_encode by assumption. simpl. rewrite Sr. lia.
  - rewrite chars_encode in Fw by assumption. inversion Fw; subst. rewrite <- app_assoc.
    rewrite char_indices_encode by assumption. simpl. rewrite H1. rewrite IH; auto.
    + rewrite app_length. unfold len_utf8. lia.
    + rewrite <- app_assoc, app_length in Hoff. unfold len_utf8. lia.
Qed.

Lemma lex_string_complete body : valid_utf8 body -> forall off i curr r,
  valid_utf8 r -> str_body_ok curr (chars body) ->
  lex_string_loop source (char_indices off (body ++ [x22] ++ r)) i curr = Ok (TString, off + length body + 1).
Proof.
  intros Vb. induction Vb as [|c s Hc Hs IH] using valid_ind; intros off i curr r Vr Hb.
  - cbn [app]. change (x22 :: r) with (encode 34 ++ r). rewrite char_indices_encode by (left; lia).
    simpl in *. apply N.eqb_neq in Hb. rewrite Hb. simpl. f_equal. f_equal. lia.
  - rewrite chars_encode in Hb by assumption. destruct Hb as [(H1 & H2 & H3) Hb].
    rewrite <- app_assoc, char_indices_encode by assumption. cbn [lex_string_loop].
    apply N.eqb_neq in H1, H2. rewrite H1, H2. cbn [orb].
    assert (E : ((c =? 34) && negb (curr =? 92))%N = false).
    { destruct (N.eqb_spec c 34) as [->|]; auto. rewrite H3 by reflexivity. reflexivity. }
    rewrite E, IH; auto. f_equal. f_equal. rewrite app_length. unfold len_utf8. lia.
Qed.

Lemma digit_range c : ascii_digit c = true -> (48 <= c /\ c <= 57)%N.
Proof. unfold ascii_digit. rewrite andb_true_iff, !N.leb_le. auto. Qed.
Lemma ws_cases c : is_ws c = true -> c = 9%N \/ c = 32%N.
Proof. unfold is_ws. rewrite orb_true_iff, !N.eqb_eq. auto. Qed.

Lemma chars_cons_inv s c cs : valid_utf8 s -> chars s = c :: cs ->
  scalar c /\ exists s', valid_utf8 s' /\ s = encode c ++ s' /\ cs = chars s'.
Proof.
  intros Vs E. destruct s as [|b s0]; [discriminate|].
  destruct (valid_cons_inv b s0 Vs) as (c2 & s2 & Hc2 & Hs2 & E2). rewrite E2 in *.
  rewrite chars_encode in E by assumption. injection E as <- <-. eauto.
Qed.

Lemma lex_block_char_complete bs i t w r : i < length source -> boundary source i = true ->
  skipn i source = w ++ r -> w <> [] -> valid_utf8 w -> valid_utf8 r ->
  lexeme (is_path bs) t w -> maximal t r ->
  exists c s, scalar c /\ valid_utf8 s /\ skipn i source = encode c ++ s /\
    lex_block_char source bs (char_indices (i + len_utf8 c) s) i c = Ok (t, i + length w).
Proof.
  intros Hi Bi Esk Hne Vw Vr HL HM.
  assert (Hlen : i + length (w ++ r) = length source).
  { apply (f_equal (@length byte)) in Esk. rewrite skipn_length in Esk. lia. }
  assert (P1 : forall n, (n < 128)%N -> w = [byte_of n] ->
    lex_block_char source bs (char_indices (i + len_utf8 n) r) i n = Ok (t, i + length w) ->
    exists c s, scalar c /\ valid_utf8 s /\ skipn i source = encode c ++ s /\
    lex_block_char source bs (char_indices (i + len_utf8 c) s) i c = Ok (t, i + length w)).
  { intros n Hn Ew HH. exists n, r. split; [left; lia|]. split; auto. split; auto.
    rewrite Esk, Ew. f_equal. symmetry. now apply encode_ascii. }
  assert (PW : forall pred c cs, chars w = c :: cs -> Forall (fun c => pred c = true) cs -> stops pred r ->
    exists s, scalar c /\ valid_utf8 s /\ skipn i source = encode c ++ s /\
    lex_while source (char_indices (i + len_utf8 c) s) pred = i + length w).
  { intros pred c cs Ec Fw Sr. destruct (chars_cons_inv w c cs Vw Ec) as (Hc & w' & Vw' & -> & ->).
    exists (w' ++ r). split; auto. split; [now apply valid_app|]. split; [rewrite Esk; now rewrite app_assoc|].
    rewrite lex_while_complete; auto; rewrite ?app_length in *; unfold len_utf8; rewrite ?app_length; lia. }
  assert (Hneq : forall c, (c =? 46)%N = false -> (c =? 124)%N = false -> (c =? 44)%N = false -> (c =? 58)%N = false ->
     (c =? 43)%N = false -> (c =? 45)%N = false -> (c =? 63)%N = false -> (c =? 34)%N = false -> forall iter,
     lex_block_char source bs iter i c =
       if ascii_digit c then match bs with BPath => Ok (TIndex, lex_while source iter is_index) | BUnknown => Ok (TNumber, lex_while source iter is_number) end
       else if is_ws c then Ok (TWhitespace, lex_while source iter is_ws)
       else if is_ident_start c then lex_ident_or_keyword source iter i
       else err_unexpected_character source (mkspan i (i + len_utf8 c))).
  { intros c H1 H2 H3 H4 H5 H6 H7 H8 iter. unfold lex_block_char. now rewrite H1, H2, H3, H4, H5, H6, H7, H8. }
  assert (Hdig : forall c, ascii_digit c = true -> forall iter, lex_block_char source bs iter i c =
     match bs with BPath => Ok (TIndex, lex_while source iter is_index) | BUnknown => Ok (TNumber, lex_while source iter is_number) end).
  { intros c Hc iter. pose proof (digit_range c Hc). rewrite Hneq; try (apply N.eqb_neq; lia). now rewrite Hc. }
  assert (Hid : ident_shape w -> maximal TIdent r ->
     exists c s, scalar c /\ valid_utf8 s /\ skipn i source = encode c ++ s /\
       lex_block_char source bs (char_indices (i + len_utf8 c) s) i c =
       Ok (if existsb (str_eqb w) keyword_all then TKeyword else TIdent, i + length w)).
  { intros (c & cs & Ec & (I1 & I2 & I3 & I4) & Fw) Sr.
    destruct (PW is_ident c cs Ec Fw Sr) as (s & Hc & Hs & E1 & E2).
    exists c, s. split; auto. split; auto. split; auto.
    simpl In in I4. change (is_ident_start c = true) in I1. change (is_ws c = false) in I3.
    rewrite Hneq; try (apply N.eqb_neq; intros ->; apply I4; tauto).
    rewrite I2, I3, I1. unfold lex_ident_or_keyword. rewrite E2. rewrite slice_Ok; auto; [|lia|].
    - rewrite (sub_here i w r Esk). reflexivity.
    - apply boundary_of_valid; [rewrite app_length in Hlen; lia|]. now rewrite (skip_here i w r Esk). }
  destruct t; simpl in HL; try contradiction.
  - apply (P1 46%N); auto; [lia|]. now rewrite HL.
  - exists 63%N, ([x2e] ++ r). split; [left; lia|].
    assert (Hv : valid_utf8 ([x2e] ++ r)) by (apply valid_app; auto; now apply asciib_valid).
    split; auto. split; [now rewrite Esk, HL|]. change ([x2e] ++ r) with (encode 46 ++ r).
    rewrite char_indices_encode by (left; lia). rewrite HL. reflexivity.
  - apply (P1 124%N); auto; [lia|]. now rewrite HL.
  - apply (P1 44%N); auto; [lia|]. now rewrite HL.
  - apply (P1 58%N); auto; [lia|]. now rewrite HL.
  - apply (P1 43%N); auto; [lia|]. now rewrite HL.
  - apply (P1 45%N); auto; [lia|]. now rewrite HL.
  - destruct HL as [_ HF]. destruct (chars w) as [|c cs] eqn:Ec.
    { exfalso. apply Hne. rewrite <- (flat_map_chars w Vw), Ec. reflexivity. }
    inversion HF; subst. destruct (PW is_ws c cs eq_refl) as (s & Hc & Hs & E1 & E2); auto.
    exists c, s. split; auto. split; auto. split; auto.
    destruct (ws_cases c H1) as [->| ->]; rewrite Hneq by reflexivity; rewrite E2; reflexivity.
  - destruct HL as [HK HI]. destruct (Hid HI HM) as (c & s & Hc & Hs & E1 & E2). exists c, s.
    split; auto. split; auto. split; auto. rewrite E2.
    assert (Hk : existsb (str_eqb w) keyword_all = true).
    { apply existsb_exists. exists w. split; auto. apply str_eqb_refl. }
    now rewrite Hk.
  - destruct HL as [HK HI]. destruct (Hid HI HM) as (c & s & Hc & Hs & E1 & E2). exists c, s.
    split; auto. split; auto. split; auto. rewrite E2.
    destruct (existsb (str_eqb w) keyword_all) eqn:Hk; auto.
    exfalso. apply HK. apply existsb_exists in Hk as (x & Hx & Ex). apply str_eqb_eq in Ex. rewrite Ex. exact Hx.
  - destruct HL as (Hp & _ & HF). destruct (chars w) as [|c cs] eqn:Ec.
    { exfalso. apply Hne. rewrite <- (flat_map_chars w Vw), Ec. reflexivity. }
    inversion HF; subst. destruct (PW is_index c cs eq_refl) as (s & Hc & Hs & E1 & E2); auto.
    exists c, s. split; auto. split; auto. split; auto. rewrite Hdig by assumption.
    destruct bs; [discriminate|]. now rewrite E2.
  - destruct HL as (Hp & c & cs & Ec & Hd & HF).
    destruct (PW is_number c cs Ec HF HM) as (s & Hc & Hs & E1 & E2).
    exists c, s. split; auto. split; auto. split; auto. rewrite Hdig by assumption.
    destruct bs; [|discriminate]. now rewrite E2.
  - destruct HL as (body & Eb & Hb).
    destruct (chars_cons_inv w _ _ Vw Eb) as (_ & w' & Vw' & -> & E2).
    assert (Hsc : Forall scalar (body ++ [34%N])) by (rewrite E2; now apply chars_scalar).
    assert (Ew' : w' = flat_map encode body ++ [x22]).
    { rewrite <- (flat_map_chars w' Vw'), <- E2, flat_map_app. reflexivity. }
    apply Forall_app in Hsc as [Hsc _].
    assert (Vb : valid_utf8 (flat_map encode body)) by now exists body.
    exists 34%N, (w' ++ r). split; [left; lia|]. split; [now apply valid_app|].
    split; [rewrite Esk; now rewrite app_assoc|]. unfold lex_block_char. simpl N.eqb. cbv iota.
    unfold lex_string. rewrite Ew', <- app_assoc, lex_string_complete; auto; [|now rewrite chars_flat_map].
    f_equal. f_equal. rewrite !app_length. change (len_utf8 34) with 1. simpl. lia.
Qed.

(** Trimming is determined by its specification. *)
Lemma ends_unique a j n n' : a <= n -> n <= j -> a <= n' -> n' <= j -> j <= length source ->
  boundary source a = true -> boundary source j = true -> boundary source n = true -> boundary source n' = true ->
  white (sub source n j) -> ~ ends_white (sub source a n) ->
  white (sub source n' j) -> ~ ends_white (sub source a n') -> n = n'.
Proof.
  assert (G : forall n n', a <= n -> n < n' -> n' <= j -> j <= length source ->
    boundary source a = true -> boundary source j = true -> boundary source n = true -> boundary source n' = true ->
    white (sub source n j) -> ~ ends_white (sub source a n') -> False).
  { intros x y H1 H2 H3 H4 Ba Bj Bx By Hw He. apply He.
    rewrite (sub_split source x y j) in Hw by lia.
    apply white_suffix in Hw as [Hw _]; [|apply sub_valid; auto; lia..].
    apply white_ends in Hw as (c & t & Hc & Hcw & Et).
    - rewrite (sub_split source a x y) by lia. exists c, (sub source a x ++ t). rewrite Et, app_assoc. auto.
    - intros E. apply (f_equal (@length byte)) in E. rewrite sub_length in E by lia. simpl in E. lia. }
  intros. destruct (Nat.lt_trichotomy n n') as [L|[L|L]]; auto; exfalso; eauto.
Qed.

Lemma starts_unique a j m m' : a <= m -> m <= j -> a <= m' -> m' <= j -> j <= length source ->
  boundary source a = true -> boundary source j = true -> boundary source m = true -> boundary source m' = true ->
  white (sub source a m) -> ~ starts_white (sub source m j) ->
  white (sub source a m') -> ~ starts_white (sub source m' j) -> m = m'.
Proof.
  assert (G : forall m m', a <= m -> m < m' -> m' <= j -> j <= length source ->
    boundary source a = true -> boundary source j = true -> boundary source m = true -> boundary source m' = true ->
    white (sub source a m') -> ~ starts_white (sub source m j) -> False).
  { intros x y H1 H2 H3 H4 Ba Bj Bx By Hw He. apply He.
    rewrite (sub_split source a x y) in Hw by lia.
    apply white_suffix in Hw as [_ Hw]; [|apply sub_valid; auto; lia..].
    apply white_starts in Hw as (c & t & Hc & Hcw & Et).
    - rewrite (sub_split source x y j) by lia. exists c, (t ++ sub source y j). rewrite Et, app_assoc. auto.
    - intros E. apply (f_equal (@length byte)) in E. rewrite sub_length in E by lia. simpl in E. lia. }
  intros. destruct (Nat.lt_trichotomy m m') as [L|[L|L]]; auto; exfalso; eauto.
Qed.

Lemma trim_raw_complete (lt : bool) i j (tr : bool) m n : i < j -> j <= length source ->
  boundary source i = true -> boundary source j = true ->
  (tr = true -> ~ ends_white (firstn i source) \/ ~ white (sub source i j)) ->
  i <= m -> m <= n -> n <= j -> boundary source m = true -> boundary source n = true ->
  (if lt then white (sub source i m) /\ ~ starts_white (sub source m n) else m = i) ->
  (if tr then white (sub source n j) /\ ~ ends_white (sub source i n) else n = j) ->
  trim_raw_token source lt i j tr = Ok (mkspan m n, false).
Proof.
  intros H1 H2 H3 H4 H5 H6 H7 H8 H9 H10 H11 H12.
  destruct (trim_raw_spec lt i j tr H1 H2 H3 H4 H5) as (m' & n' & -> & T1 & T2 & T3 & T4 & T5 & T6 & T7).
  assert (n = n').
  { destruct tr; [|congruence]. apply (ends_unique i j); auto; try lia; tauto. }
  subst n'. assert (m = m').
  { destruct lt; [|congruence]. apply (starts_unique i n); auto; try lia; try tauto. }
  subst m'. reflexivity.
Qed.

(** At a delimiter, a full tiling continues with the corresponding tag. *)
Lemma tiling_at_tag k at_ n md ts : tag_at sx source k at_ n -> tiling sx source true at_ md ts ->
  exists ts', ts = (tag_token k, mkspan at_ n) :: ts' /\
    ((opening k = true /\ exists b, md = MText b) \/
     (opening k = false /\ ((exists b, md = MTag (tag_token k) b) \/ (md = MComment /\ tag_token k = TEndComment)))).
Proof.
  intros Ht Hti. pose proof (tag_facts _ _ _ Ht) as (F1 & F2 & _).
  destruct (tag_occurs _ _ _ Ht) as (p & Hin & Ho).
  inversion Hti as [? ? He|? ? ? ? ? ? R1 R2 R3 R4 R5 R6 R7 R8 R9|? ? k' b ? O1 O2 O3|? ? k' ? ? O1 O2 O3 O4|? ? ? ? ? ? K1 K2 K3 K4 K5]; subst.
  - specialize (He eq_refl). lia.
  - exfalso. apply (R9 k p at_); auto; lia.
  - destruct (tag_unique _ _ _ _ _ Ht O2) as [<- <-]. eauto 10.
  - destruct (tag_unique _ _ _ _ _ Ht O2) as [<- <-]. eauto 10.
  - exfalso. now apply (K5 k p).
Qed.

Lemma tiling_at_len at_ md ts full : at_ = length source -> tiling sx source full at_ md ts -> ts = [].
Proof.
  intros -> Hti.
  inversion Hti as [? ? He|? ? ? ? ? ? R1 R2 R3 R4 R5 R6 R7 R8 R9|? ? k' b ? O1 O2 O3|? ? k' ? ? O1 O2 O3 O4|? ? ? ? ? ? K1 K2 K3 K4 K5]; subst; auto.
  - lia.
  - pose proof (tag_facts _ _ _ O2). lia.
  - pose proof (tag_facts _ _ _ O2). lia.
  - lia.
Qed.

Lemma occurs_tag k p i : In (k, p) sx -> occurs_at p source i -> exists k' n, tag_at sx source k' i n.
Proof.
  intros Hin Ho. destruct (Hsr source i) as (r & _ & Hr). destruct r as [[[k' i'] j]|].
  - pose proof (best_facts _ _ _ _ Hr) as (F1 & F2 & F3 & F4 & F5 & F6 & F7 & F8).
    destruct (Nat.eq_dec i i') as [<-|Hne]; [eauto|]. exfalso. apply (F8 k p i); auto; lia.
  - exfalso. now apply (Hr k p i).
Qed.

Lemma slice_from_here pos : boundary source pos = true -> pos < length source ->
  exists x rest, @slice_from error source pos = Ok (x :: rest).
Proof.
  intros Bp Hlt. rewrite slice_from_Ok by assumption. destruct (skipn pos source) as [|x rest] eqn:E; eauto.
  apply skipn_end in E; auto. lia.
Qed.

Lemma lexes_complete pos md ts : tiling sx source true pos md ts -> forall lx, inv lx pos md -> lexes lx ts None.
Proof.
  induction 1 as [at_ md He|at_ md m n at' ts R1 R2 R3 R4 R5 R6 R7 R8 R9 R10 R11 R12 Ht IH
                 |m n k b ts Hk Htag Ht IH|m n k md ts Hk Htag Hmd Ht IH
                 |m n t e path ts K1 K2 K3 K4 K5 K6 K7 Ht IH]; intros lx Hinv.
  - (* end *)
    specialize (He eq_refl). subst at_. constructor.
    inversion Hinv as [? ? k b lt st Hk Htag Hst E1 E2 E3|? ? k Hk Htag Hc E1 E2 E3|? lt b Bp Hp E1 E2 E3|? lt bs e path Bp Hbs He E1 E2 E3|? lt bs Bp Hbs E1 E2 E3]; subst;
      try (pose proof (tag_facts _ _ _ Htag); lia);
      unfold lex; cbn [lx_next lx_cursor lx_state lx_left_trim]; rewrite slice_from_Ok, skipn_all by assumption; reflexivity.
  - (* raw *)
    assert (Htrim : forall lt, (forall k, tag_at sx source k at' (match ts with (_, sp) :: _ => sp_n sp | [] => 0 end) -> True) ->
      lt = match md with MText true => true | _ => false end -> boundary source at_ = true -> boundary source at' = true ->
      forall tr, (md = MComment \/ (tr = true -> ~ ends_white (firstn at_ source) \/ ~ white (sub source at_ at'))) -> (tr = true <-> next_trims sx source ts) -> (md = MComment -> tr = false) ->
      trim_raw_token source lt at_ at' tr = Ok (mkspan m n, false)).
    { intros lt _ -> Ba Ba' tr Hw Htr Hmd. apply trim_raw_complete; auto.
      - intros ->. destruct Hw as [Hw|Hw]; auto. specialize (Hmd Hw). discriminate.
      - destruct R11 as [(N1 & N2 & N3)|(N1 & N2)].
        + apply Htr in N1. subst tr. auto.
        + destruct tr; auto. exfalso. apply N1. now apply Htr. }
    assert (Bat : boundary source at_ = true) by (inversion Hinv; subst; auto;
      match goal with Hx : tag_at _ _ _ _ _ |- _ => apply tag_facts in Hx; tauto end).
    inversion Hinv as [? ? k b lt st Hk Htag Hst E1 E2 E3|? ? k Hk Htag Hc E1 E2 E3|? lt b Bp Hp E1 E2 E3|? lt bs e path Bp Hbs He E1 E2 E3|? lt bs Bp Hbs E1 E2 E3]; subst.
    + exfalso. destruct (tag_occurs _ _ _ Htag) as (p & Hin & Ho). apply (R9 k p at_); auto.
    + exfalso. destruct (tag_occurs _ _ _ Htag) as (p & Hin & Ho). apply (R9 k p at_); auto.
    + (* text *)
      destruct (Hp ltac:(lia)) as [-> Hw].
      destruct (slice_from_here at_ Bp ltac:(lia)) as (x & rest & Esl).
      destruct R10 as [->|(k0 & p0 & Hin0 & Ho0)].
      * pose proof (tiling_at_len _ _ _ _ eq_refl Ht) as ->.
        eapply lxs_cons; [|apply IH, (inv_text (length source) false); [apply boundary_len|lia]].
        unfold lex. cbn [lx_next lx_cursor lx_state lx_left_trim]. rewrite Esl. cbn [bind].
        unfold lex_template. rewrite find_at_none by (intros; eapply R9; eauto). cbn [bind lx_left_trim lx_state lx_next].
        rewrite (Htrim b); auto using boundary_len; [destruct b; reflexivity|right; discriminate|]. split; [discriminate|contradiction].
      * destruct (occurs_tag k0 p0 at' Hin0 Ho0) as (k & n1 & Htag).
        pose proof (tag_facts _ _ _ Htag) as (F1 & F2 & F3 & F4 & _).
        destruct (tiling_at_tag _ _ _ _ _ Htag Ht) as (ts' & -> & [(Ho & _)|(Ho & [(bb & Hm)|(Hm & _)])]); try discriminate.
        eapply lxs_cons; [|apply IH, (inv_open at' n1 k false false); eauto].
        unfold lex. cbn [lx_next lx_cursor lx_state lx_left_trim]. rewrite Esl. cbn [bind].
        unfold lex_template. rewrite (find_at_tag k at_ at' n1) by (auto; lia). cbn [bind lx_left_trim lx_state lx_next].
        rewrite from_kind_eq, is_begin_opening, Ho, token_pair_tag, Ho. cbn [negb bind].
        assert (Hne : (at_ =? at') = false) by (apply Nat.eqb_neq; lia). rewrite Hne.
        rewrite (Htrim b); auto; [destruct b; reflexivity| | |discriminate].
        { right. intros Hh. apply (Hw k at' n1); auto. apply find_at_best; auto. lia. }
        simpl. split.
        -- intros Hh. exists k. auto.
        -- intros (k' & T1 & T2 & T3 & T4). destruct (tag_unique _ _ _ _ _ Htag T1) as [-> _]. exact T4.
    + exfalso. apply (R8 e path). reflexivity.
    + (* comment *)
      destruct (slice_from_here at_ Bp ltac:(lia)) as (x & rest & Esl).
      assert (Hmn : m = at_ /\ n = at').
      { split; auto. destruct R11 as [(N1 & _)|(_ & N2)]; auto. exfalso.
        destruct ts as [|[t sp] ts']; [contradiction|]. destruct N1 as (k & T1 & T2 & T3 & T4).
        inversion Ht as [? ? He|? ? ? ? ? ? S1 S2 S3 S4 S5 S6 S7 S8 S9|? ? k' b ? O1 O2 O3|? ? k' ? ? O1 O2 O3 O4|? ? ? ? ? ? K1 K2 K3 K4 K5]; subst.
        - destruct k; discriminate.
        - destruct (tag_unique _ _ _ _ _ T1 O2) as [-> _]. congruence. }
      destruct Hmn as [-> ->].
      destruct R10 as [->|(k0 & p0 & Hin0 & Ho0)].
      * pose proof (tiling_at_len _ _ _ _ eq_refl Ht) as ->.
        eapply lxs_cons; [|apply IH, (inv_comment (length source) lt bs); [apply boundary_len|assumption]].
        unfold lex. cbn [lx_next lx_cursor lx_state lx_left_trim]. rewrite Esl. cbn [bind].
        unfold lex_comment. rewrite find_at_none by (intros; eapply R9; eauto). reflexivity.
      * destruct (occurs_tag k0 p0 at' Hin0 Ho0) as (k & n1 & Htag).
        pose proof (tag_facts _ _ _ Htag) as (F1 & F2 & F3 & F4 & _).
        destruct (tiling_at_tag _ _ _ _ _ Htag Ht) as (ts' & -> & [(Ho & bb & Hm)|(Ho & [(bb & Hm)|(Hm & Hc)])]); try discriminate.
        eapply lxs_cons; [|apply IH, (inv_close at' n1 k); eauto].
        unfold lex. cbn [lx_next lx_cursor lx_state lx_left_trim]. rewrite Esl. cbn [bind].
        unfold lex_comment. rewrite (find_at_tag k at_ at' n1) by (auto; lia). cbn [bind lx_left_trim lx_state lx_next].
        rewrite from_kind_eq, is_begin_opening, Ho, Hc. cbn [token_eqb token_eq_dec].
        assert (Hne : (at_ =? at') = false) by (apply Nat.eqb_neq; lia). rewrite Hne. reflexivity.
  - (* opening tag *)
    pose proof (tag_facts _ _ _ Htag) as (F1 & F2 & F3 & F4 & _).
    inversion Hinv as [? ? k' b' lt st Hk' Htag' Hst E1 E2 E3|? ? k' Hk' Htag' Hc E1 E2 E3|? lt b' Bp Hp E1 E2 E3|? lt bs e path Bp Hbs He E1 E2 E3|? lt bs Bp Hbs E1 E2 E3]; subst.
    + destruct (tag_unique _ _ _ _ _ Htag Htag') as [<- <-].
      eapply lxs_cons; [reflexivity|]. apply IH. now apply inv_after_open.
    + eapply lxs_cons; [|apply IH, (inv_after_open k m n lt); auto].
      unfold lex. cbn [lx_next lx_cursor lx_state lx_left_trim].
      destruct (slice_from_here m Bp ltac:(lia)) as (x & rest & ->). cbn [bind].
      unfold lex_template. rewrite (find_at_tag k m m n) by (auto; lia). cbn [bind lx_left_trim lx_state lx_next].
      rewrite from_kind_eq, is_begin_opening, Hk, token_pair_tag, Hk. cbn [negb bind].
      rewrite Nat.eqb_refl. reflexivity.
  - (* closing tag *)
    pose proof (tag_facts _ _ _ Htag) as (F1 & F2 & F3 & F4 & _).
    assert (Hnext : inv (mklexer n LTemplate (hyphenated k) None) n (MText (hyphenated k))) by now apply inv_after_close with m.
    inversion Hinv as [? ? k' b' lt st Hk' Htag' Hst E1 E2 E3|? ? k' Hk' Htag' Hc E1 E2 E3|? lt b' Bp Hp E1 E2 E3|? lt bs e path Bp Hbs He E1 E2 E3|? lt bs Bp Hbs E1 E2 E3]; subst.
    + destruct Hmd as [(b & Hm)|(Hm & _)]; discriminate.
    + destruct (tag_unique _ _ _ _ _ Htag Htag') as [<- <-].
      eapply lxs_cons; [reflexivity|]. apply IH. exact Hnext.
    + destruct Hmd as [(b & Hm)|(Hm & _)]; discriminate.
    + destruct Hmd as [(b & Hm)|(Hm & _)]; [injection Hm as -> ->|discriminate].
      eapply lxs_cons; [|apply IH, Hnext].
      unfold lex. cbn [lx_next lx_cursor lx_state lx_left_trim].
      destruct (slice_from_here m Bp ltac:(lia)) as (x & rest & ->). cbn [bind].
      assert (Hb : forall bst st, lex_block sr source (mklexer m st lt None) bst bs (tag_token k) m =
        Ok (Some (tag_token k, mkspan m n), mklexer n LTemplate (hyphenated k) None)).
      { intros bst st. unfold lex_block, starts_with. rewrite (find_at_tag k m m n) by (auto; lia). cbn [bind].
        rewrite Nat.eqb_refl. cbn [bind]. rewrite from_kind_eq, is_begin_opening, Hk.
        rewrite (proj2 (token_eqb_eq _ _) eq_refl). cbn [negb bind].
        destruct bst, k; try discriminate; reflexivity. }
      destruct b; apply Hb.
    + destruct Hmd as [(b & Hm)|(_ & Hm)]; [discriminate|].
      eapply lxs_cons; [|apply IH, Hnext].
      unfold lex. cbn [lx_next lx_cursor lx_state lx_left_trim].
      destruct (slice_from_here m Bp ltac:(lia)) as (x & rest & ->). cbn [bind].
      unfold lex_comment. rewrite (find_at_tag k m m n) by (auto; lia). cbn [bind].
      rewrite from_kind_eq, is_begin_opening, Hk, Hm. cbn [token_eqb token_eq_dec negb].
      rewrite Nat.eqb_refl. reflexivity.
  - (* other token *)
    inversion Hinv as [? ? k' b' lt st Hk' Htag' Hst E1 E2 E3|? ? k' Hk' Htag' Hc E1 E2 E3|? lt b' Bp Hp E1 E2 E3|? lt bs e' path' Bp Hbs He E1 E2 E3|? lt bs Bp Hbs E1 E2 E3]; subst.
    eapply lxs_cons; [|apply IH, (inv_tag n lt bs e (after_tok path t)); auto].
    assert (Esk : skipn m source = sub source m n ++ skipn n source).
    { unfold sub. replace n with ((n - m) + m) at 2 by lia. rewrite <- skipn_skipn, firstn_skipn. reflexivity. }
    assert (Vsub : valid_utf8 (sub source m n)) by (apply sub_valid; auto; lia).
    assert (Vsk : valid_utf8 (skipn n source)) by now apply boundary_split.
    unfold lex. cbn [lx_next lx_cursor lx_state lx_left_trim].
    destruct (slice_from_here m Bp ltac:(lia)) as (x & rest & ->). cbn [bind].
    assert (Hb : forall bst st, is_path bst = path -> st = (if path then LBlockPath bs e else LBlock bs e) ->
      lex_block sr source (mklexer m st lt None) bst bs e m =
      Ok (Some (t, mkspan m n), mklexer n (if after_tok path t then LBlockPath bs e else LBlock bs e) lt None)).
    { intros bst st Hpath Hst. unfold lex_block, starts_with. destruct (Hsr source m) as (r & -> & Hr). cbn [bind].
      destruct (lex_block_char_complete bst m t (sub source m n) (skipn n source)) as (c & s & Hc & Hs & E1 & E2); auto; try lia.
      - intros E. apply (f_equal (@length byte)) in E. rewrite sub_length in E by lia. simpl in E. lia.
      - now rewrite Hpath.
      - assert (Hnone : (match r with None => Ok None | Some (k, i, j) => if m =? i then Ok (Some (k, j)) else Ok None end) = (Ok None : res _)).
        { destruct r as [[[k i] j]|]; auto. destruct (Nat.eqb_spec m i) as [<-|]; auto. exfalso.
          pose proof (best_facts _ _ _ _ Hr) as (F1 & F2 & F3 & F4 & F5 & F6 & F7 & F8).
          destruct (tag_occurs _ _ _ F7) as (p & Hin & Ho). now apply (K5 k p). }
        rewrite Hnone. cbn [bind]. rewrite slice_from_Ok by assumption. cbn [bind]. rewrite E1, char_indices_encode by assumption.
        rewrite E2. cbn [bind lx_state lx_left_trim lx_next]. rewrite sub_length by lia.
        replace (m + (n - m)) with n by lia. rewrite Hst. destruct bst; simpl in Hpath; subst path; destruct t; reflexivity. }
    destruct path; apply Hb; reflexivity.
Qed.

End LexProof.
