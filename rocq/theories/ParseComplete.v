(** Every derivation of the grammar is found by the parser. *)
From Verif Require Import Base Utf8 Ext Errors Syntax AhoCorasick SearchSpec SyntaxSpec Value Ast Lexer LexSpec Wp TrimProof
  LexProof GrammarSpec Parser LitProof TokStream ParseProof ParseSound.

Scheme g_stmt_mut := Minimality for g_stmt Sort Prop
  with g_scope_mut := Minimality for g_scope Sort Prop
  with g_else_mut := Minimality for g_else Sort Prop.
Combined Scheme g_mut from g_stmt_mut, g_scope_mut, g_else_mut.

(** The next token is none of these. *)
Definition notin (tks : list token) (ts : list tok) : Prop :=
  match ts with [] => True | (t, _) :: _ => ~ In t tks end.
Lemma notin_sub a b ts : (forall t, In t b -> In t a) -> notin a ts -> notin b ts.
Proof. intros H. destruct ts as [|[t s] ts]; simpl; auto. Qed.
Definition expr_follow : list token := [TDot; TQuestionDot; TComma; TColon].

Section ParseComplete.
Context `{X : Ext}.
Variable sx : syntax.
Hypothesis Hsx : user_syntax sx.
Variable sr : searcher.
Variable source : str.
Hypothesis Hsrc : valid_utf8 source.
Hypothesis Hne : source <> [].

Notation txt := (GrammarSpec.txt source).
Notation ordered := (ParseProof.ordered source).
Notation ok := (ParseProof.ok sx sr source).
Notation g_access := (GrammarSpec.g_access source).
Notation g_members := (GrammarSpec.g_members source).
Notation g_base := (GrammarSpec.g_base source).
Notation g_args := (GrammarSpec.g_args source).
Notation g_expr := (GrammarSpec.g_expr source).
Notation g_cond := (GrammarSpec.g_cond source).
Notation g_vars := (GrammarSpec.g_vars).
Notation g_stmt := (GrammarSpec.g_stmt source).
Notation g_scope := (GrammarSpec.g_scope source).
Notation g_else := (GrammarSpec.g_else source).
Notation g_block := (ParseSound.g_block source).
Notation kw := (GrammarSpec.kw source).

Notation yields p x a rest := (exists p', x = Ok (a, p') /\ ok p' rest None) (only parsing).

Lemma expect_ok p tk sp ts : ok p ((tk, sp) :: ts) None -> exists p', expect sr source p tk = Ok (sp, p') /\ ok p' ts None.
Proof.
  intros H. destruct (ok_next sx Hsx sr source Hsrc _ _ _ _ H) as (p' & E & H'). exists p'. split; auto.
  unfold expect. rewrite E. cbn [bind]. now rewrite (proj2 (token_eqb_eq tk tk) eq_refl).
Qed.
Lemma parse_any_ok p t sp ts : ok p ((t, sp) :: ts) None -> exists p', parse_any sr source p = Ok (t, sp, p') /\ ok p' ts None.
Proof.
  intros H. destruct (ok_next sx Hsx sr source Hsrc _ _ _ _ H) as (p' & E & H'). exists p'. split; auto.
  unfold parse_any. rewrite E. reflexivity.
Qed.
Lemma peek_ok p ts : ok p ts None -> exists p', p_peek sr source p = Ok (hd_error ts, p') /\ ok p' ts None.
Proof.
  intros H. destruct ts as [|t ts].
  - apply (ok_peek_nil sx Hsx sr source Hsrc _ H).
  - apply (ok_peek sx Hsx sr source Hsrc _ _ _ _ H).
Qed.
Lemma is_next_yes p tk sp ts : ok p ((tk, sp) :: ts) None ->
  exists p', is_next sr source p tk = Ok (true, p') /\ ok p' ((tk, sp) :: ts) None.
Proof.
  intros H. destruct (peek_ok _ _ H) as (p' & E & H'). exists p'. split; auto.
  unfold is_next. rewrite E. cbn [bind hd_error]. now rewrite (proj2 (token_eqb_eq tk tk) eq_refl).
Qed.
Lemma is_next_no p tk ts : ok p ts None -> notin [tk] ts ->
  exists p', is_next sr source p tk = Ok (false, p') /\ ok p' ts None.
Proof.
  intros H Hn. destruct (peek_ok _ _ H) as (p' & E & H'). exists p'. split; auto.
  unfold is_next. rewrite E. cbn [bind]. destruct ts as [|[t s] ts]; auto. cbn [hd_error].
  destruct (token_eqb t tk) eqn:Et; auto. apply token_eqb_eq in Et. subst. exfalso. apply Hn. simpl. auto.
Qed.
Lemma keyword_yes p k s ts : s = kw_str k -> forall kt, kw s kt -> ok p (kt ++ ts) None ->
  exists p', is_next_keyword sr source p k = Ok (true, p') /\ ok p' (kt ++ ts) None.
Proof.
  intros -> kt (sp & -> & Et) H. destruct (peek_ok _ _ H) as (p' & E & H'). exists p'. split; auto.
  unfold is_next_keyword. rewrite E. cbn [bind app hd_error].
  rewrite index_span_ok by (eapply ok_span; exact H). cbn [bind]. fold (txt sp). rewrite Et, keyword_from_str_human. cbn [bind].
  now rewrite (proj2 (keyword_eqb_eq k k) eq_refl).
Qed.
Lemma keyword_no p k ts : ok p ts None -> (forall sp ts', ts = (TKeyword, sp) :: ts' -> txt sp <> s2b (kw_str k)) ->
  exists p', is_next_keyword sr source p k = Ok (false, p') /\ ok p' ts None.
Proof.
  intros H Hn. destruct (peek_ok _ _ H) as (p' & E & H'). exists p'. split; auto.
  unfold is_next_keyword. rewrite E. cbn [bind]. destruct ts as [|[t sp] ts]; auto. cbn [hd_error].
  destruct t; auto. destruct (ok_keyword _ _ _ _ _ _ _ H) as (-> & k' & E1 & E2). cbn [bind]. rewrite E1. cbn [bind].
  destruct (keyword_eqb k' k) eqn:Ek; auto. apply keyword_eqb_eq in Ek. subst. exfalso. eapply Hn; eauto.
Qed.
Lemma parse_keyword_ok p k s ts : s = kw_str k -> forall kt, kw s kt -> ok p (kt ++ ts) None ->
  exists sp p', parse_keyword sr source p = Ok (k, sp, p') /\ ok p' ts None.
Proof.
  intros -> kt (sp & -> & Et) H. destruct (expect_ok _ _ _ _ H) as (p' & E & H'). exists sp, p'. split; auto.
  unfold parse_keyword. rewrite E. cbn [bind].
  rewrite index_span_ok by (eapply ok_span; exact H). cbn [bind]. fold (txt sp). rewrite Et, keyword_from_str_human. reflexivity.
Qed.
Lemma expect_keyword_ok p k s ts : s = kw_str k -> forall kt, kw s kt -> ok p (kt ++ ts) None ->
  exists sp p', expect_keyword sr source p k = Ok (sp, p') /\ ok p' ts None.
Proof.
  intros Es kt Hk H. destruct (parse_keyword_ok _ _ _ _ Es _ Hk H) as (sp & p' & E & H'). exists sp, p'. split; auto.
  unfold expect_keyword. rewrite E. cbn [bind]. now rewrite (proj2 (keyword_eqb_eq k k) eq_refl).
Qed.

(** ** Expressions *)
Lemma parse_access_ok u a : g_access u a -> forall p rest, ok p (u ++ rest) None ->
  exists p', parse_access sr source p = Ok (a, p') /\ ok p' rest None.
Proof.
  destruct 1 as [sp v Hv|sp]; intros p rest H; destruct (parse_any_ok _ _ _ _ H) as (p' & E & H'); exists p'; split; auto;
    unfold parse_access; rewrite E; cbn [bind]; auto.
  rewrite index_span_ok by (eapply ok_span; exact H). cbn [bind]. fold (txt sp).
  now rewrite (proj2 (parse_usize_spec _ _) Hv).
Qed.

Lemma parse_var_loop_ok u ms : g_members u ms -> forall fuel p rest pre, ok p (u ++ rest) None ->
  notin [TDot; TQuestionDot] rest -> length u < fuel ->
  exists p', parse_var_loop sr source fuel p pre = Ok (pre ++ ms, p') /\ ok p' rest None.
Proof.
  assert (Hstep : forall t op s ts a ts' ms,
     (op = Direct /\ t = TDot) \/ (op = Optional /\ t = TQuestionDot) -> g_access ts a ->
     (forall fuel p rest pre, ok p (ts' ++ rest) None -> notin [TDot; TQuestionDot] rest -> length ts' < fuel ->
        exists p', parse_var_loop sr source fuel p pre = Ok (pre ++ ms, p') /\ ok p' rest None) ->
     forall fuel p rest pre, ok p (((t, s) :: ts ++ ts') ++ rest) None ->
       notin [TDot; TQuestionDot] rest -> length ((t, s) :: ts ++ ts') < fuel ->
       exists p', parse_var_loop sr source fuel p pre = Ok (pre ++ mkmember op a (span_of ((t, s) :: ts)) :: ms, p') /\ ok p' rest None).
  { intros t op s ts a ts' ms1 Hop Ha IH fuel p rest pre H Hn Hf. destruct fuel as [|fuel]; [simpl in Hf; lia|].
    cbn [app] in H. rewrite <- app_assoc in H.
    destruct (peek_ok _ _ H) as (p1 & E1 & H1). destruct (expect_ok _ _ _ _ H1) as (p2 & E2 & H2).
    destruct (parse_access_ok _ _ Ha _ _ H2) as (p3 & E3 & H3).
    destruct (access_ne source _ _ Ha) as [Hna Esp].
    assert (Hcomb : combine_span s (access_span a) = span_of ((t, s) :: ts)).
    { rewrite Esp. rewrite <- (span_of_one t s) at 1. apply (combine_spans source [(t, s)] [] ts); try discriminate; auto.
      apply ok_ordered in H. cbn [app]. apply (ordered_app_l source ((t, s) :: ts) (ts' ++ rest)). exact H. }
    destruct (IH fuel p3 rest (pre ++ [mkmember op a (span_of ((t, s) :: ts))])) as (p4 & E4 & H4); auto.
    { simpl in Hf. rewrite app_length in Hf. lia. }
    exists p4. split; auto. cbn [parse_var_loop]. rewrite E1. cbn [bind hd_error].
    rewrite <- app_assoc in E4. cbn [app] in E4. destruct Hop as [[-> ->]|[-> ->]]; rewrite E2; cbn [bind]; rewrite E3; cbn [bind]; rewrite Hcomb; exact E4. }
  induction 1 as [|s0 ts0 a0 ts' ms Ha Hm IH|s0 ts0 a0 ts' ms Ha Hm IH].
  - intros fuel p rest pre H Hn Hf. destruct fuel as [|fuel]; [lia|]. cbn [app] in H.
    destruct (peek_ok _ _ H) as (p1 & E1 & H1). exists p1. split; auto. cbn [parse_var_loop]. rewrite E1. cbn [bind].
    rewrite app_nil_r. destruct rest as [|[t s] rest]; auto. cbn [hd_error].
    destruct t; auto; exfalso; apply Hn; simpl; auto.
  - apply (Hstep TDot); auto.
  - apply (Hstep TQuestionDot); auto.
Qed.

Lemma parse_base_ok u b : g_base u b -> forall p rest, ok p (u ++ rest) None -> notin [TDot; TQuestionDot] rest ->
  exists p', parse_base_expr sr source p = Ok (b, p') /\ ok p' rest None.
Proof.
  assert (Hsigned : forall (neg : bool) s1 sp v t p rest, number_lit (txt sp) neg v -> t = (if neg then TMinus else TPlus) ->
    ok p ([(t, s1); (TNumber, sp)] ++ rest) None ->
    exists p', parse_base_expr sr source p = Ok (BLit v (span_of [(t, s1); (TNumber, sp)]), p') /\ ok p' rest None).
  { intros neg s1 sp v t p rest Hv Et H. destruct (parse_any_ok _ _ _ _ H) as (p1 & E1 & H1).
    destruct (expect_ok _ _ _ _ H1) as (p2 & E2 & H2). exists p2. split; auto.
    unfold parse_base_expr. rewrite E1. cbn [bind].
    destruct (signed_inner source Hsrc t s1 sp rest) as (Ec & Hc & Hin); [destruct neg; auto|eapply ok_ordered; eauto|].
    assert (Hnsp : span_ok source sp) by (eapply ok_span; eauto).
    pose proof (number_complete source (txt sp) (combine_span s1 sp) neg v Hne Hc Hin Hv) as EN.
    destruct neg; subst t; cbn [app]; rewrite E2; cbn [bind]; rewrite index_span_ok by assumption; cbn [bind]; cbv zeta; fold (txt sp);
      cbn [sgn] in EN; rewrite EN; cbn [bind]; now rewrite Ec. }
  destruct 1 as [sp ts ms Hm|sp Et|sp Et|sp v Hv|s1 sp v Hv|s1 sp v Hv|sp s Hs]; intros p rest H Hn.
  - destruct (parse_any_ok _ _ _ _ H) as (p1 & E1 & H1).
    destruct (parse_var_loop_ok _ _ Hm (pfuel source) p1 rest [mkmember Direct (AKey (mkident sp)) sp] H1 Hn) as (p2 & E2 & H2).
    { apply ok_fuel in H1. rewrite app_length in H1. lia. }
    exists p2. split; auto. unfold parse_base_expr. rewrite E1. cbn [bind]. unfold parse_var. rewrite E2. reflexivity.
  - destruct (parse_any_ok _ _ _ _ H) as (p1 & E1 & H1). exists p1. split; auto. unfold parse_base_expr. rewrite E1. cbn [bind].
    unfold parse_literal_bool. rewrite index_span_ok by (eapply ok_span; exact H). cbn [bind]. fold (txt sp). now rewrite Et.
  - destruct (parse_any_ok _ _ _ _ H) as (p1 & E1 & H1). exists p1. split; auto. unfold parse_base_expr. rewrite E1. cbn [bind].
    unfold parse_literal_bool. rewrite index_span_ok by (eapply ok_span; exact H). cbn [bind]. fold (txt sp). now rewrite Et.
  - destruct (parse_any_ok _ _ _ _ H) as (p1 & E1 & H1). exists p1. split; auto. unfold parse_base_expr. rewrite E1. cbn [bind].
    pose proof (ok_tok _ _ _ _ _ _ _ H) as ((A1 & A2 & A3) & A4 & A5 & _). cbn [fst snd] in *.
    assert (Hsp : span_ok source sp) by (repeat split; auto).
    assert (Hin : inner_ok source sp (length (txt sp))).
    { apply ascii_inner; auto.
      - destruct (A5 eq_refl) as (b & HL). apply number_chars with b; auto. apply sub_valid; auto.
      - unfold GrammarSpec.txt. rewrite sub_length by lia. lia. }
    rewrite index_span_ok by assumption. cbn [bind]. fold (txt sp).
    pose proof (number_complete source (txt sp) sp false v Hne Hsp Hin Hv) as EN. cbn [sgn] in EN. rewrite EN. reflexivity.
  - apply (Hsigned false s1 sp v TPlus p rest Hv eq_refl H).
  - apply (Hsigned true s1 sp v TMinus p rest Hv eq_refl H).
  - destruct (parse_any_ok _ _ _ _ H) as (p1 & E1 & H1). exists p1. split; auto. unfold parse_base_expr. rewrite E1. cbn [bind].
    pose proof (ok_tok _ _ _ _ _ _ _ H) as (A1 & A4 & A5 & _). cbn [fst snd] in *. destruct (A5 eq_refl) as (b & HL).
    rewrite (parse_string_complete source sp b s Hne Hsrc A1 HL Hs). reflexivity.
Qed.

Lemma parse_args_loop_ok u bs : g_args u bs -> forall fuel p rest pre, ok p (u ++ rest) None ->
  notin [TDot; TQuestionDot; TComma] rest -> length u < fuel ->
  exists p', parse_args_loop sr source fuel p pre = Ok (pre ++ bs, p') /\ ok p' rest None.
Proof.
  induction 1 as [ts b Hb|ts b c ts' bs Hb Ha IH]; intros fuel p rest pre H Hn Hf; (destruct fuel as [|fuel]; [lia|]).
  - destruct (parse_base_ok _ _ Hb _ _ H) as (p1 & E1 & H1); [revert Hn; apply notin_sub; simpl; tauto|].
    destruct (is_next_no _ TComma _ H1) as (p2 & E2 & H2); [revert Hn; apply notin_sub; simpl; tauto|].
    exists p2. split; auto. cbn [parse_args_loop]. rewrite E1. cbn [bind]. rewrite E2. reflexivity.
  - rewrite <- app_assoc in H. destruct (parse_base_ok _ _ Hb _ _ H) as (p1 & E1 & H1); [simpl; intuition discriminate|].
    cbn [app] in H1. destruct (is_next_yes _ _ _ _ H1) as (p2 & E2 & H2). destruct (expect_ok _ _ _ _ H2) as (p3 & E3 & H3).
    destruct (IH fuel p3 rest (pre ++ [b]) H3 Hn) as (p4 & E4 & H4).
    { rewrite app_length in Hf. simpl in Hf. lia. }
    exists p4. split; auto. cbn [parse_args_loop]. rewrite E1. cbn [bind]. rewrite E2. cbn [bind]. rewrite E3. cbn [bind].
    rewrite E4, <- app_assoc. reflexivity.
Qed.

Lemma parse_args_ok u bs : g_args u bs -> forall p rest c, ok p (u ++ rest) None -> ordered ((TColon, c) :: u) ->
  notin [TDot; TQuestionDot; TComma] rest ->
  exists p', parse_args sr source p c = Ok (mkargs bs (span_of ((TColon, c) :: u)), p') /\ ok p' rest None.
Proof.
  intros G p rest c H Ho Hn.
  destruct (parse_args_loop_ok _ _ G (pfuel source) p rest [] H Hn) as (p1 & E1 & H1).
  { apply ok_fuel in H. rewrite app_length in H. lia. }
  exists p1. split; auto. unfold parse_args. rewrite E1. cbn [bind app].
  destruct (g_args_last source _ _ G (ordered_cons source _ _ Ho)) as (Hnu & pre & l & b & El & Hl & Hr & Hs).
  rewrite Hr. cbn [unwrap bind]. rewrite Hs. cbn [bind]. do 2 f_equal. f_equal.
  rewrite <- (span_of_one TColon c) at 1. rewrite El. apply (combine_spans source [(TColon, c)] pre l); auto; try discriminate.
  cbn [app]. now rewrite <- El.
Qed.

Lemma parse_expr_prefix u e : g_expr u e -> forall p rest, ok p (u ++ rest) None -> notin expr_follow rest ->
  exists j p', j <= length u /\ parse_expr sr source p = parse_expr_loop sr source (pfuel source - j) p' e /\ ok p' rest None.
Proof.
  induction 1 as [ts b Hb|ts e pp n He IH|ts e pp n c ts' bs He IH Ha]; intros p rest H Hn.
  - destruct (parse_base_ok _ _ Hb _ _ H) as (p1 & E1 & H1); [revert Hn; apply notin_sub; simpl; tauto|].
    exists 0, p1. split; [lia|]. split; auto. unfold parse_expr. rewrite E1. cbn [bind]. now rewrite Nat.sub_0_r.
  - assert (Hlen := H). apply ok_fuel in Hlen. rewrite !app_length in Hlen. cbn [length] in Hlen.
    assert (Ho := ok_ordered _ _ _ _ _ _ H).
    rewrite <- app_assoc in H. cbn [app] in H. destruct (IH _ _ H) as (j & p1 & Hj & E & H1); [simpl; intuition discriminate|].
    exists (S j). destruct (is_next_yes _ _ _ _ H1) as (p2 & E2 & H2). destruct (expect_ok _ _ _ _ H2) as (p3 & E3 & H3).
    destruct (expect_ok _ _ _ _ H3) as (p4 & E4 & H4).
    destruct (is_next_no _ TColon _ H4) as (p5 & E5 & H5); [revert Hn; apply notin_sub; simpl; tauto|].
    exists p5. split; [rewrite app_length; simpl; lia|]. split; auto. rewrite E.
    replace (pfuel source - j) with (S (pfuel source - S j)) by lia. cbn [parse_expr_loop].
    rewrite E2. cbn [bind]. rewrite E3. cbn [bind]. unfold parse_ident. rewrite E4. cbn [bind]. rewrite E5. cbn [bind].
    apply ordered_app_l in Ho. destruct (expr_span_of source _ _ He (ordered_app_l source _ _ Ho)) as [Hnu ->]. cbn [bind id_span].
    repeat f_equal. rewrite <- (span_of_one TIdent n) at 1.
    apply (combine_spans source ts [(TPipe, pp)] [(TIdent, n)]); auto; discriminate.
  - assert (Hlen := H). apply ok_fuel in Hlen. rewrite !app_length in Hlen. cbn [length] in Hlen.
    assert (Ho := ok_ordered _ _ _ _ _ _ H).
    rewrite <- app_assoc in H. cbn [app] in H. destruct (IH _ _ H) as (j & p1 & Hj & E & H1); [simpl; intuition discriminate|].
    exists (S j). destruct (is_next_yes _ _ _ _ H1) as (p2 & E2 & H2). destruct (expect_ok _ _ _ _ H2) as (p3 & E3 & H3).
    destruct (expect_ok _ _ _ _ H3) as (p4 & E4 & H4).
    destruct (is_next_yes _ _ _ _ H4) as (p5 & E5 & H5). destruct (expect_ok _ _ _ _ H5) as (p6 & E6 & H6).
    apply ordered_app_l in Ho.
    destruct (parse_args_ok _ _ Ha p6 rest c H6) as (p7 & E7 & H7).
    { apply ordered_app_r in Ho. now do 2 apply ordered_cons in Ho. }
    { revert Hn; apply notin_sub; simpl; tauto. }
    exists p7. split; [rewrite app_length; simpl; lia|]. split; auto. rewrite E.
    replace (pfuel source - j) with (S (pfuel source - S j)) by lia. cbn [parse_expr_loop].
    rewrite E2. cbn [bind]. rewrite E3. cbn [bind]. unfold parse_ident. rewrite E4. cbn [bind]. rewrite E5. cbn [bind].
    rewrite E6. cbn [bind]. rewrite E7. cbn [bind].
    destruct (expr_span_of source _ _ He (ordered_app_l source _ _ Ho)) as [Hnu ->]. cbn [bind a_span].
    repeat f_equal.
    apply (combine_spans source ts [(TPipe, pp); (TIdent, n)] ((TColon, c) :: ts')); auto; discriminate.
Qed.

Lemma parse_expr_ok u e : g_expr u e -> forall p rest, ok p (u ++ rest) None -> notin (TPipe :: expr_follow) rest ->
  exists p', parse_expr sr source p = Ok (e, p') /\ ok p' rest None.
Proof.
  intros G p rest H Hn. destruct (parse_expr_prefix _ _ G _ _ H) as (j & p1 & Hj & E & H1).
  { revert Hn; apply notin_sub; simpl; tauto. }
  destruct (is_next_no _ TPipe _ H1) as (p2 & E2 & H2); [revert Hn; apply notin_sub; simpl; tauto|].
  exists p2. split; auto. rewrite E. apply ok_fuel in H. rewrite app_length in H.
  replace (pfuel source - j) with (S (pfuel source - S j)) by lia. cbn [parse_expr_loop]. rewrite E2. reflexivity.
Qed.

(** ** Tags *)
Lemma g_base_head u b : g_base u b -> forall rest sp ts, u ++ rest = (TKeyword, sp) :: ts -> txt sp = s2b "true" \/ txt sp = s2b "false".
Proof. destruct 1; intros rest sp' ts' E0; cbn [app] in E0; try discriminate; injection E0 as <- _; auto. Qed.
Lemma g_expr_head u e : g_expr u e -> forall rest sp ts, u ++ rest = (TKeyword, sp) :: ts -> txt sp = s2b "true" \/ txt sp = s2b "false".
Proof.
  induction 1 as [ts b Hb| |]; intros rest sp' us E0.
  - eapply g_base_head; eauto.
  - rewrite <- app_assoc in E0. eauto.
  - rewrite <- app_assoc in E0. eauto.
Qed.

Lemma parse_if_cond_ok u n e : g_cond u n e -> forall p rest, ok p (u ++ rest) None -> notin (TPipe :: expr_follow) rest ->
  exists p', parse_if_cond sr source p = Ok (n, e, p') /\ ok p' rest None.
Proof.
  destruct 1 as [ts e He|k ts e Hk He]; intros p rest H Hn; unfold parse_if_cond.
  - destruct (keyword_no _ KwNot _ H) as (p1 & E1 & H1).
    { intros sp ts' E. destruct (g_expr_head _ _ He _ _ _ E) as [-> | ->]; discriminate. }
    destruct (parse_expr_ok _ _ He _ _ H1 Hn) as (p2 & E2 & H2). exists p2. split; auto.
    rewrite E1. cbn [bind]. rewrite E2. reflexivity.
  - rewrite <- app_assoc in H. destruct (keyword_yes _ KwNot _ _ eq_refl _ Hk H) as (p1 & E1 & H1).
    destruct (expect_keyword_ok _ KwNot _ _ eq_refl _ Hk H1) as (s1 & p2 & E2 & H2).
    destruct (parse_expr_ok _ _ He _ _ H2 Hn) as (p3 & E3 & H3). exists p3. split; auto.
    rewrite E1. cbn [bind]. rewrite E2. cbn [bind]. rewrite E3. reflexivity.
Qed.

Lemma parse_loop_vars_ok u vs : g_vars u vs -> forall p rest, ok p (u ++ rest) None -> notin [TComma] rest ->
  exists p', parse_loop_vars sr source p = Ok (vs, p') /\ ok p' rest None.
Proof.
  destruct 1 as [sp|k c v]; intros p rest H Hn; unfold parse_loop_vars, parse_ident.
  - destruct (expect_ok _ _ _ _ H) as (p1 & E1 & H1). destruct (is_next_no _ _ _ H1 Hn) as (p2 & E2 & H2).
    exists p2. split; auto. rewrite E1. cbn [bind]. rewrite E2. reflexivity.
  - assert (Ho : ordered ((TIdent, k) :: [(TComma, c)] ++ [(TIdent, v)])).
    { eapply ordered_app_l with (b := rest). eapply ok_ordered; eauto. }
    destruct (expect_ok _ _ _ _ H) as (p1 & E1 & H1). destruct (is_next_yes _ _ _ _ H1) as (p2 & E2 & H2).
    destruct (expect_ok _ _ _ _ H2) as (p3 & E3 & H3). destruct (expect_ok _ _ _ _ H3) as (p4 & E4 & H4).
    exists p4. split; auto. rewrite E1. cbn [bind]. rewrite E2. cbn [bind]. rewrite E3. cbn [bind]. rewrite E4. cbn [bind id_span].
    now rewrite (combine_toks _ _ _ _ _ _ Ho).
Qed.

Lemma kw_follow s k ts tks : kw s k -> ~ In TKeyword tks -> notin tks (k ++ ts).
Proof. intros (sp & -> & _) H. exact H. Qed.

Lemma parse_block_ok u b : g_block u b -> forall p rest es, ok p (u ++ (TEndBlock, es) :: rest) None ->
  exists p', parse_block sr source p = Ok (b, p') /\ ok p' ((TEndBlock, es) :: rest) None.
Proof.
  assert (Hend : forall es rest, notin (TPipe :: expr_follow) ((TEndBlock, es) :: rest)) by (intros; simpl; intuition discriminate).
  assert (HK : ~ In TKeyword (TPipe :: expr_follow)) by (simpl; intuition discriminate).
  destruct 1 as [k ts n c Hk Hc|k i ts n c Hk Hi Hc|k Hk|k Hk|k vs vars i ts e Hk Hv Hi He|k Hk|k ts e a n Hk He Ha|k Hk
                |k sp s Hk Hs|k sp s w ts e Hk Hs Hw He]; intros p rest es H; unfold parse_block; rewrite <- ?app_assoc in H.
  - destruct (parse_keyword_ok _ KwIf _ _ eq_refl _ Hk H) as (sp & p1 & E1 & H1).
    destruct (parse_if_cond_ok _ _ _ Hc _ _ H1 (Hend _ _)) as (p2 & E2 & H2). exists p2. split; auto.
    rewrite E1. cbn [bind]. rewrite E2. reflexivity.
  - destruct (parse_keyword_ok _ KwElse _ _ eq_refl _ Hk H) as (sp & p1 & E1 & H1).
    destruct (keyword_yes _ KwIf _ _ eq_refl _ Hi H1) as (p2 & E2 & H2).
    destruct (expect_keyword_ok _ KwIf _ _ eq_refl _ Hi H2) as (s3 & p3 & E3 & H3).
    destruct (parse_if_cond_ok _ _ _ Hc _ _ H3 (Hend _ _)) as (p4 & E4 & H4). exists p4. split; auto.
    rewrite E1. cbn [bind]. rewrite E2. cbn [bind]. rewrite E3. cbn [bind]. rewrite E4. reflexivity.
  - destruct (parse_keyword_ok _ KwElse _ _ eq_refl _ Hk H) as (sp & p1 & E1 & H1).
    destruct (keyword_no _ KwIf _ H1) as (p2 & E2 & H2); [discriminate|]. exists p2. split; auto.
    rewrite E1. cbn [bind]. rewrite E2. reflexivity.
  - destruct (parse_keyword_ok _ KwEndIf _ _ eq_refl _ Hk H) as (sp & p1 & E1 & H1). exists p1. split; auto.
    rewrite E1. reflexivity.
  - destruct (parse_keyword_ok _ KwFor _ _ eq_refl _ Hk H) as (sp & p1 & E1 & H1).
    destruct (parse_loop_vars_ok _ _ Hv _ _ H1) as (p2 & E2 & H2); [eapply kw_follow; eauto; simpl; intuition discriminate|].
    destruct (expect_keyword_ok _ KwIn _ _ eq_refl _ Hi H2) as (s3 & p3 & E3 & H3).
    destruct (parse_expr_ok _ _ He _ _ H3 (Hend _ _)) as (p4 & E4 & H4). exists p4. split; auto.
    rewrite E1. cbn [bind]. rewrite E2. cbn [bind]. rewrite E3. cbn [bind]. rewrite E4. reflexivity.
  - destruct (parse_keyword_ok _ KwEndFor _ _ eq_refl _ Hk H) as (sp & p1 & E1 & H1). exists p1. split; auto.
    rewrite E1. reflexivity.
  - destruct (parse_keyword_ok _ KwWith _ _ eq_refl _ Hk H) as (sp & p1 & E1 & H1).
    destruct (parse_expr_ok _ _ He _ _ H1) as (p2 & E2 & H2); [eapply kw_follow; eauto|].
    destruct (expect_keyword_ok _ KwAs _ _ eq_refl _ Ha H2) as (s3 & p3 & E3 & H3).
    destruct (expect_ok _ _ _ _ H3) as (p4 & E4 & H4). exists p4. split; auto.
    rewrite E1. cbn [bind]. rewrite E2. cbn [bind]. rewrite E3. cbn [bind]. unfold parse_ident. rewrite E4. reflexivity.
  - destruct (parse_keyword_ok _ KwEndWith _ _ eq_refl _ Hk H) as (sp & p1 & E1 & H1). exists p1. split; auto.
    rewrite E1. reflexivity.
  - destruct (parse_keyword_ok _ KwInclude _ _ eq_refl _ Hk H) as (sp0 & p1 & E1 & H1). cbn [app] in H1.
    destruct (expect_ok _ _ _ _ H1) as (p2 & E2 & H2).
    destruct (keyword_no _ KwWith _ H2) as (p3 & E3 & H3); [discriminate|]. exists p3. split; auto.
    pose proof (ok_tok _ _ _ _ _ _ _ H1) as (A1 & A4 & A5 & _). cbn [fst snd] in *. destruct (A5 eq_refl) as (b & HL).
    rewrite E1. cbn [bind]. rewrite E2. cbn [bind]. rewrite (parse_string_complete source sp b s Hne Hsrc A1 HL Hs). cbn [bind].
    rewrite E3. reflexivity.
  - destruct (parse_keyword_ok _ KwInclude _ _ eq_refl _ Hk H) as (sp0 & p1 & E1 & H1). cbn [app] in H1. rewrite <- app_assoc in H1.
    destruct (expect_ok _ _ _ _ H1) as (p2 & E2 & H2).
    destruct (keyword_yes _ KwWith _ _ eq_refl _ Hw H2) as (p3 & E3 & H3).
    destruct (expect_keyword_ok _ KwWith _ _ eq_refl _ Hw H3) as (s4 & p4 & E4 & H4).
    destruct (parse_expr_ok _ _ He _ _ H4 (Hend _ _)) as (p5 & E5 & H5). exists p5. split; auto.
    pose proof (ok_tok _ _ _ _ _ _ _ H1) as (A1 & A4 & A5 & _). cbn [fst snd] in *. destruct (A5 eq_refl) as (b & HL).
    rewrite E1. cbn [bind]. rewrite E2. cbn [bind]. rewrite (parse_string_complete source sp b s Hne Hsrc A1 HL Hs). cbn [bind].
    rewrite E3. cbn [bind]. rewrite E4. cbn [bind]. rewrite E5. reflexivity.
Qed.

(** ** Statements *)
Notation loop := (parse_template_loop sr source).

Lemma tag_step inner t b : tag_block inner t -> g_block inner b -> forall fuel p rest bl sc, ok p (t ++ rest) None ->
  length (t ++ rest) < fuel ->
  exists sp fuel' p', length rest < fuel' /\ ok p' rest None /\
  loop fuel p bl sc =
    let* (st, bl, sc) := handle_block source b sp bl sc in
    match st with
    | Some st => let* sc := push_stmt st sc in loop fuel' p' bl sc
    | None => loop fuel' p' bl sc
    end.
Proof.
  intros (bs & es & ->) G fuel p rest bl sc H Hf. cbn [app] in H. rewrite <- app_assoc in H. cbn [app] in H.
  destruct fuel as [|fuel]; [simpl in Hf; lia|].
  destruct (ok_next sx Hsx sr source Hsrc _ _ _ _ H) as (p1 & E1 & H1).
  destruct (parse_block_ok _ _ G _ _ _ H1) as (p2 & E2 & H2).
  destruct (expect_ok _ _ _ _ H2) as (p3 & E3 & H3).
  exists (combine_span bs es), fuel, p3. split; [simpl in Hf; rewrite !app_length in Hf; simpl in Hf; lia|]. split; auto.
  cbn [parse_template_loop]. rewrite E1. cbn [bind parse_stmt]. rewrite E2. cbn [bind]. rewrite E3. cbn [bind].
  rewrite !bind_assoc. destruct (handle_block _ _ _ _ _) as [[[st bl'] sc']|e| |]; reflexivity.
Qed.

Definition stmt_loop ts (st : stmt) : Prop := forall fuel p rest bl s sc, ok p (ts ++ rest) None -> length (ts ++ rest) < fuel ->
  exists fuel' p', length rest < fuel' /\ ok p' rest None /\ loop fuel p bl (s :: sc) = loop fuel' p' bl ((s ++ [st]) :: sc).
Definition scope_loop ts (l : list stmt) : Prop := forall fuel p rest bl s sc, ok p (ts ++ rest) None -> length (ts ++ rest) < fuel ->
  exists fuel' p', length rest < fuel' /\ ok p' rest None /\ loop fuel p bl (s :: sc) = loop fuel' p' bl ((s ++ l) :: sc).
Definition else_loop ts (els : option (list stmt)) : Prop := forall fuel p rest ei n cnd sp bl thn sc,
  ok p (ts ++ rest) None -> length (ts ++ rest) < fuel ->
  exists fuel' p' spn, length rest < fuel' /\ ok p' rest None /\
  loop fuel p (StIf ei n cnd sp false :: bl) (thn :: sc) =
    let* (st, bl, sc) := end_if_loop source (StIf ei n cnd sp (is_some els) :: bl) (opt_list els ++ thn :: sc) spn in
    let* sc := push_stmt st sc in loop fuel' p' bl sc.

Lemma stmts_ok :
  (forall ts st, g_stmt ts st -> stmt_loop ts st) /\
  (forall ts l, g_scope ts l -> scope_loop ts l) /\
  (forall ts els, g_else ts els -> else_loop ts els).
Proof.
  apply g_mut.
  - (* raw *) intros sp fuel p rest bl s sc H Hf. destruct fuel as [|fuel]; [simpl in Hf; lia|].
    destruct (ok_next sx Hsx sr source Hsrc _ _ _ _ H) as (p1 & E1 & H1). exists fuel, p1. simpl in Hf. split; [lia|]. split; auto.
    cbn [parse_template_loop]. rewrite E1. reflexivity.
  - (* inline *) intros b ts e en He fuel p rest bl s sc H Hf. destruct fuel as [|fuel]; [simpl in Hf; lia|].
    assert (Ho : ordered ((TBeginExpr, b) :: ts ++ [(TEndExpr, en)])).
    { eapply ordered_app_l with (b := rest). eapply ok_ordered; eauto. }
    cbn [app] in H. rewrite <- app_assoc in H. cbn [app] in H.
    destruct (ok_next sx Hsx sr source Hsrc _ _ _ _ H) as (p1 & E1 & H1).
    destruct (parse_expr_ok _ _ He _ _ H1) as (p2 & E2 & H2); [simpl; intuition discriminate|].
    destruct (expect_ok _ _ _ _ H2) as (p3 & E3 & H3). exists fuel, p3.
    split; [simpl in Hf; rewrite !app_length in Hf; simpl in Hf; lia|]. split; auto.
    cbn [parse_template_loop]. rewrite E1. cbn [bind parse_stmt]. rewrite E2. cbn [bind]. rewrite E3. cbn [bind push_stmt].
    now rewrite (combine_toks _ _ _ _ _ _ Ho).
  - (* include *) intros t k sp s0 Hk Hs Ht fuel p rest bl s sc H Hf.
    destruct (tag_step _ _ _ Ht (gk_include source k sp s0 Hk Hs) fuel p rest bl (s :: sc) H Hf) as (sp' & f' & p' & K1 & K2 & E).
    exists f', p'. split; auto.
  - (* include with *) intros t k sp s0 w ts e Hk Hs Hw He Ht fuel p rest bl s sc H Hf.
    destruct (tag_step _ _ _ Ht (gk_include_with source k sp s0 w ts e Hk Hs Hw He) fuel p rest bl (s :: sc) H Hf) as (sp' & f' & p' & K1 & K2 & E).
    exists f', p'. split; auto.
  - (* if *) intros t k ts n c body thn rest0 els Hk Hc Ht _ IHb _ IHe fuel p rest bl s sc H Hf. rewrite <- !app_assoc in H, Hf.
    destruct (tag_step _ _ _ Ht (gk_if source k ts n c Hk Hc) fuel p _ bl (s :: sc) H Hf) as (sp' & f1 & p1 & K1 & K2 & E1).
    destruct (IHb f1 p1 _ (StIf false n c sp' false :: bl) [] (s :: sc) K2 K1) as (f2 & p2 & L1 & L2 & E2).
    destruct (IHe f2 p2 _ false n c sp' bl thn (s :: sc) L2 L1) as (f3 & p3 & spn & M1 & M2 & E3).
    exists f3, p3. split; auto. split; auto. rewrite E1. cbn [handle_block bind]. etransitivity; [exact E2|]. etransitivity; [exact E3|].
    destruct els; reflexivity.
  - (* for *) intros t k vs vars i ts e body l t' k' Hk Hv Hi He Ht _ IHb Hk' Ht' fuel p rest bl s sc H Hf. rewrite <- !app_assoc in H, Hf.
    destruct (tag_step _ _ _ Ht (gk_for source k vs vars i ts e Hk Hv Hi He) fuel p _ bl (s :: sc) H Hf) as (sp' & f1 & p1 & K1 & K2 & E1).
    destruct (IHb f1 p1 _ (StFor vars e sp' :: bl) [] (s :: sc) K2 K1) as (f2 & p2 & L1 & L2 & E2).
    destruct (tag_step _ _ _ Ht' (gk_endfor source k' Hk') f2 p2 _ (StFor vars e sp' :: bl) (l :: s :: sc) L2 L1) as (spn & f3 & p3 & M1 & M2 & E3).
    exists f3, p3. split; auto. split; auto. rewrite E1. cbn [handle_block bind]. etransitivity; [exact E2|]. etransitivity; [exact E3|]. reflexivity.
  - (* with *) intros t k ts e a n body l t' k' Hk He Ha Ht _ IHb Hk' Ht' fuel p rest bl s sc H Hf. rewrite <- !app_assoc in H, Hf.
    destruct (tag_step _ _ _ Ht (gk_with source k ts e a n Hk He Ha) fuel p _ bl (s :: sc) H Hf) as (sp' & f1 & p1 & K1 & K2 & E1).
    destruct (IHb f1 p1 _ (StWith e (mkident n) sp' :: bl) [] (s :: sc) K2 K1) as (f2 & p2 & L1 & L2 & E2).
    destruct (tag_step _ _ _ Ht' (gk_endwith source k' Hk') f2 p2 _ (StWith e (mkident n) sp' :: bl) (l :: s :: sc) L2 L1) as (spn & f3 & p3 & M1 & M2 & E3).
    exists f3, p3. split; auto. split; auto. rewrite E1. cbn [handle_block bind]. etransitivity; [exact E2|]. etransitivity; [exact E3|]. reflexivity.
  - (* nil *) intros fuel p rest bl s sc H Hf. exists fuel, p. rewrite app_nil_r. auto.
  - (* comment *) intros b r e ts l _ IH fuel p rest bl s sc H Hf. destruct fuel as [|fuel]; [simpl in Hf; lia|]. cbn [app] in H.
    destruct (ok_next sx Hsx sr source Hsrc _ _ _ _ H) as (p1 & E1 & H1).
    destruct (expect_ok _ _ _ _ H1) as (p2 & E2 & H2). destruct (expect_ok _ _ _ _ H2) as (p3 & E3 & H3).
    destruct (IH fuel p3 rest bl s sc H3) as (f4 & p4 & L1 & L2 & E4); [simpl in Hf; lia|].
    exists f4, p4. split; auto. split; auto.
    cbn [parse_template_loop]. rewrite E1. cbn [bind parse_stmt]. rewrite E2. cbn [bind]. rewrite E3. cbn [bind]. exact E4.
  - (* stmt *) intros ts st ts' l _ IH1 _ IH2 fuel p rest bl s sc H Hf. rewrite <- app_assoc in H, Hf.
    destruct (IH1 fuel p _ bl s sc H Hf) as (f1 & p1 & K1 & K2 & E1).
    destruct (IH2 f1 p1 _ bl (s ++ [st]) sc K2 K1) as (f2 & p2 & L1 & L2 & E2).
    exists f2, p2. split; auto. split; auto. etransitivity; [exact E1|]. etransitivity; [exact E2|]. rewrite <- app_assoc. reflexivity.
  - (* endif *) intros t k Hk Ht fuel p rest ei n cnd sp bl thn sc H Hf.
    destruct (tag_step _ _ _ Ht (gk_endif source k Hk) fuel p _ (StIf ei n cnd sp false :: bl) (thn :: sc) H Hf) as (spn & f1 & p1 & K1 & K2 & E1).
    exists f1, p1, spn. split; auto. split; auto. rewrite E1. cbn [handle_block is_some opt_list app].
    destruct (end_if_loop _ _ _ _) as [[[st bl'] sc']|err| |]; reflexivity.
  - (* else *) intros t k body l t' k' Hk Ht _ IHb Hk' Ht' fuel p rest ei n cnd sp bl thn sc H Hf. rewrite <- !app_assoc in H, Hf.
    destruct (tag_step _ _ _ Ht (gk_else source k Hk) fuel p _ (StIf ei n cnd sp false :: bl) (thn :: sc) H Hf) as (sp1 & f1 & p1 & K1 & K2 & E1).
    destruct (IHb f1 p1 _ (StIf ei n cnd sp true :: bl) [] (thn :: sc) K2 K1) as (f2 & p2 & L1 & L2 & E2).
    destruct (tag_step _ _ _ Ht' (gk_endif source k' Hk') f2 p2 _ (StIf ei n cnd sp true :: bl) (l :: thn :: sc) L2 L1) as (spn & f3 & p3 & M1 & M2 & E3).
    exists f3, p3, spn. split; auto. split; auto. rewrite E1. cbn [handle_block set_has_else bind]. etransitivity; [exact E2|]. etransitivity; [exact E3|].
    cbn [handle_block is_some opt_list app].
    destruct (end_if_loop _ _ _ _) as [[[st bl'] sc']|err| |]; reflexivity.
  - (* else if *) intros t k i ts n2 c2 body thn2 rest0 els Hk Hi Hc Ht _ IHb _ IHe fuel p rest ei n cnd sp bl thn sc H Hf. rewrite <- !app_assoc in H, Hf.
    destruct (tag_step _ _ _ Ht (gk_elseif source k i ts n2 c2 Hk Hi Hc) fuel p _ (StIf ei n cnd sp false :: bl) (thn :: sc) H Hf) as (sp1 & f1 & p1 & K1 & K2 & E1).
    destruct (IHb f1 p1 _ (StIf true n2 c2 sp1 false :: StIf ei n cnd sp true :: bl) [] ([] :: thn :: sc) K2 K1) as (f2 & p2 & L1 & L2 & E2).
    destruct (IHe f2 p2 _ true n2 c2 sp1 (StIf ei n cnd sp true :: bl) thn2 ([] :: thn :: sc) L2 L1) as (f3 & p3 & spn & M1 & M2 & E3).
    exists f3, p3, spn. split; auto. split; auto. rewrite E1. cbn [handle_block set_has_else bind]. etransitivity; [exact E2|]. etransitivity; [exact E3|].
    destruct els; reflexivity.
Qed.
End ParseComplete.
