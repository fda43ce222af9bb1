(** Compile errors in two builds (C51). *)
From Verif Require Import Base Utf8 Ext Errors Syntax AhoCorasick SyntaxSpec Value Ast Lexer LexSpec Wp
  GrammarSpec Parser Compiler Fmt Stack Filters Render Engine FeatureSpec Feature.

Lemma snd_indices s : forall i j, map snd (char_indices i s) = map snd (char_indices j s).
Proof.
  assert (H : forall n s, length s <= n -> forall i j, map snd (char_indices i s) = map snd (char_indices j s)).
  { clear s. induction n as [|n IH]; intros s Hn i j; [destruct s; [reflexivity|cbn in Hn; lia]|].
    destruct s as [|b0 s1]; [reflexivity|]. cbn [char_indices length] in *.
    destruct (_ <? _)%N; [cbn; f_equal; apply IH; lia|].
    destruct s1 as [|b1 s2]; [reflexivity|]. cbn [length] in *. destruct (_ <? _)%N; [cbn; f_equal; apply IH; lia|].
    destruct s2 as [|b2 s3]; [reflexivity|]. cbn [length] in *. destruct (_ <? _)%N; [cbn; f_equal; apply IH; lia|].
    destruct s3 as [|b3 s4]; [reflexivity|]. cbn [length] in *. cbn; f_equal; apply IH; lia. }
  eauto.
Qed.

Section Sim.
Variables X1 X2 : Ext.
Hypothesis Hp : @f64_parse X1 = @f64_parse X2.
Variable sr : searcher.
Variable source : str.
Hypothesis Hv : valid_utf8 source.
Definition agree (c : N) : Prop := (ascii_digit c = false -> @is_ident_start X1 c = @is_ident_start X2 c) /\ @is_ident X1 c = @is_ident X2 c.
Hypothesis Hag : forall c, In c (chars source) -> agree c.

Lemma syntax_sim {A} m s sp : sbp (@err_syntax X1 A m s sp) (@err_syntax X2 A m s sp).
Proof.
  unfold err_syntax. pose proof (pretty_sim X1 X2 s sp) as H.
  destruct (@build_pretty X1 s sp), (@build_pretty X2 s sp); try (exfalso; exact H); try exact I. split; [|split; [|split]]; auto. split; discriminate.
Qed.
Create HintDb sim.
Ltac sim := repeat (match goal with
  | |- sbp (bind ?x _) (bind ?x _) => apply sbp_bind; [apply sbp_refl|intros ?]
  | |- sbp ?x ?x => apply sbp_refl
  | |- sbp (err_syntax _ _ _) (err_syntax _ _ _) => apply syntax_sim
  | |- sbp (bind _ _) (bind _ _) => apply sbp_bind; [now auto with sim|intros ?]
  | |- sbp (match ?x with _ => _ end) (match ?x with _ => _ end) => destruct x
  | |- sbp ((if ?x then _ else _)) _ => destruct x
  end); auto with sim.
Hint Resolve @syntax_sim : sim.

Lemma while_same it : (forall c, In c (map snd it) -> agree c) -> @lex_while source it (@is_ident X1) = @lex_while source it (@is_ident X2).
Proof.
  induction it as [|[j c] it IH]; intros H; [reflexivity|]. cbn [lex_while].
  rewrite (proj2 (H c (or_introl eq_refl))), IH; [reflexivity|]. intros x Hx. apply H. now right.
Qed.
Lemma question_sim it i : sbp (@lex_question_dot X1 source it i) (@lex_question_dot X2 source it i).
Proof. unfold lex_question_dot, err_unexpected_character. sim. Qed.
Lemma string_sim it i : sbp (@lex_string X1 source it i) (@lex_string X2 source it i).
Proof.
  unfold lex_string. generalize 34%N. induction it as [|[j c] it IH]; intros cur; cbn [lex_string_loop]; unfold err_undelimited_string; sim.
Qed.
Lemma block_char_sim bs it i c : (forall c', In c' (c :: map snd it) -> agree c') ->
  sbp (@lex_block_char X1 source bs it i c) (@lex_block_char X2 source bs it i c).
Proof.
  intros H. unfold lex_block_char.
  do 6 (destruct (_ =? _)%N; [apply sbp_refl|]).
  destruct (_ =? _)%N; [apply question_sim|]. destruct (_ =? _)%N; [apply string_sim|].
  destruct (ascii_digit c) eqn:Ed; [apply sbp_refl|]. destruct (is_ws c); [apply sbp_refl|].
  rewrite (proj1 (H c (or_introl eq_refl)) Ed). destruct (@is_ident_start X2 c).
  - unfold lex_ident_or_keyword. rewrite while_same; [apply sbp_refl|]. intros x Hx. apply H. now right.
  - apply syntax_sim.
Qed.
Lemma slice_agree i rest : @slice_from error source i = Ok rest -> forall c, In c (map snd (char_indices i rest)) -> agree c.
Proof.
  unfold slice_from. destruct (_ && _) eqn:E; [|discriminate]. intros [= <-] c Hc. apply Hag.
  apply andb_prop in E as [_ E]. destruct (boundary_split _ _ Hv E) as (V1 & V2).
  rewrite <- (firstn_skipn i source), chars_app by assumption. apply in_or_app. right. unfold chars. now rewrite (snd_indices _ 0 i).
Qed.
Lemma block_sim lx bs b e i : sbp (@lex_block X1 sr source lx bs b e i) (@lex_block X2 sr source lx bs b e i).
Proof.
  unfold lex_block. apply sbp_bind; [apply sbp_refl|]. intros m. apply sbp_bind; [|intros [[[tk j] st] lt]; apply sbp_refl].
  destruct m as [[k j]|].
  - unfold err_unclosed, lex_err_unexpected_token. sim.
  - pose proof (slice_agree i) as H. destruct (slice_from source i) as [rest| | |]; try exact I; [|split; [|split; [|split]]; auto; split; auto].
    cbn [bind]. specialize (H rest eq_refl). destruct (char_indices i rest) as [|[i' c] it]; [exact I|].
    apply sbp_bind; [now apply block_char_sim|]. intros [tk j]. apply sbp_refl.
Qed.
Lemma lex_sim lx : sbp (@lex X1 sr source lx) (@lex X2 sr source lx).
Proof.
  unfold lex. destruct (lx_next lx); [apply sbp_refl|]. apply sbp_bind; [apply sbp_refl|]. intros [|b r]; [apply sbp_refl|].
  destruct (lx_state lx).
  - unfold lex_template, lex_err_unexpected_token. sim.
  - apply block_sim.
  - apply block_sim.
  - unfold lex_comment, err_unclosed, lex_err_unexpected_token. sim.
Qed.
Lemma next_sim lx : sbp (@lexer_next X1 sr source lx) (@lexer_next X2 sr source lx).
Proof.
  unfold lexer_next. generalize (S (length source)). intros n. revert lx. induction n as [|n IH]; intros lx; cbn [lexer_next_loop]; [exact I|].
  apply sbp_bind; [apply lex_sim|]. intros [[[[] sp]|] lx']; try apply sbp_refl. apply IH.
Qed.
Hint Resolve next_sim : sim.
Lemma p_next_sim p : sbp (@p_next X1 sr source p) (@p_next X2 sr source p).
Proof. unfold p_next. sim. Qed.
Lemma p_peek_sim p : sbp (@p_peek X1 sr source p) (@p_peek X2 sr source p).
Proof. unfold p_peek. sim. Qed.
Hint Resolve p_next_sim p_peek_sim : sim.
Lemma is_next_sim p t : sbp (@is_next X1 sr source p t) (@is_next X2 sr source p t).
Proof. unfold is_next. sim. Qed.
Lemma is_next_keyword_sim p t : sbp (@is_next_keyword X1 sr source p t) (@is_next_keyword X2 sr source p t).
Proof. unfold is_next_keyword. sim. Qed.
Lemma expect_sim p t : sbp (@expect X1 sr source p t) (@expect X2 sr source p t).
Proof. unfold expect, err_unexpected_token, err_unexpected_eof. sim. Qed.
Lemma parse_any_sim p : sbp (@parse_any X1 sr source p) (@parse_any X2 sr source p).
Proof. unfold parse_any, err_unexpected_token, err_unexpected_eof. sim. Qed.
Hint Resolve is_next_sim is_next_keyword_sim expect_sim parse_any_sim : sim.
Lemma parse_ident_sim p : sbp (@parse_ident X1 sr source p) (@parse_ident X2 sr source p).
Proof. unfold parse_ident. sim. Qed.
Lemma parse_keyword_sim p : sbp (@parse_keyword X1 sr source p) (@parse_keyword X2 sr source p).
Proof. unfold parse_keyword. sim. Qed.
Hint Resolve parse_ident_sim parse_keyword_sim : sim.
Lemma expect_keyword_sim p t : sbp (@expect_keyword X1 sr source p t) (@expect_keyword X2 sr source p t).
Proof. unfold expect_keyword. sim. Qed.
Hint Resolve expect_keyword_sim : sim.
Lemma unescape_sim n : forall it acc, length it <= n -> sbp (@unescape X1 source it acc) (@unescape X2 source it acc).
Proof.
  induction n as [|n IH]; intros [|[i c] it] acc Hn; try apply sbp_refl; cbn [length unescape] in *; [lia|].
  destruct (_ =? _)%N; [apply IH; lia|]. destruct (_ =? _)%N; [|apply IH; lia].
  destruct it as [|[j esc] it]; [exact I|]. cbn [length] in *. do 5 (destruct (_ =? _)%N; [apply IH; lia|]). sim.
Qed.
Lemma parse_string_sim sp : sbp (@parse_string X1 source sp) (@parse_string X2 source sp).
Proof. unfold parse_string. sim. eapply unescape_sim. apply le_n. Qed.
Lemma int_fold_sim radix i sp sg ds : forall j acc, sbp (@int_fold X1 source radix i sp sg ds j acc) (@int_fold X2 source radix i sp sg ds j acc).
Proof. induction ds as [|d ds IH]; intros j acc; cbn [int_fold]; sim. Qed.
Lemma integer_sim raw sp sg : sbp (@parse_literal_integer X1 source raw sp sg) (@parse_literal_integer X2 source raw sp sg).
Proof. unfold parse_literal_integer. destruct (int_radix raw). apply sbp_bind; [apply int_fold_sim|]. intros; sim. Qed.
Lemma float_sim raw sp sg : sbp (@parse_literal_float X1 source raw sp sg) (@parse_literal_float X2 source raw sp sg).
Proof. unfold parse_literal_float. rewrite Hp. sim. Qed.
Lemma number_sim raw sp sg : sbp (@parse_literal_number X1 source raw sp sg) (@parse_literal_number X2 source raw sp sg).
Proof.
  unfold parse_literal_number. pose proof (integer_sim raw sp sg) as H. pose proof (float_sim raw sp sg) as H'.
  destruct (@parse_literal_integer X1 source raw sp sg), (@parse_literal_integer X2 source raw sp sg); try (exfalso; exact H); try exact H.
  destruct (@parse_literal_float X1 source raw sp sg), (@parse_literal_float X2 source raw sp sg); try (exfalso; exact H'); try exact H'.
  destruct (_ || _ || _); [exact H'|exact H].
Qed.
Lemma bool_sim sp : sbp (@parse_literal_bool X1 source sp) (@parse_literal_bool X2 source sp).
Proof. unfold parse_literal_bool, err_unexpected_keyword. sim. Qed.
Hint Resolve number_sim bool_sim parse_string_sim : sim.
Lemma access_sim p : sbp (@parse_access X1 sr source p) (@parse_access X2 sr source p).
Proof. unfold parse_access, err_unexpected_token. sim. Qed.
Hint Resolve access_sim : sim.
Lemma var_sim p m : sbp (@parse_var X1 sr source p m) (@parse_var X2 sr source p m).
Proof.
  unfold parse_var. generalize (pfuel source) [m]. intros n. revert p. induction n as [|n IH]; intros p l; cbn [parse_var_loop]; [exact I|].
  apply sbp_bind; [auto with sim|]. intros [[[[] sp]|] p']; try apply sbp_refl;
  (apply sbp_bind; [auto with sim|]; intros [? ?]; apply sbp_bind; [auto with sim|]; intros [? ?]; apply IH).
Qed.
Hint Resolve var_sim : sim.
Lemma base_sim p : sbp (@parse_base_expr X1 sr source p) (@parse_base_expr X2 sr source p).
Proof. unfold parse_base_expr, err_unexpected_token. sim. Qed.
Hint Resolve base_sim : sim.
Lemma args_sim p sp : sbp (@parse_args X1 sr source p sp) (@parse_args X2 sr source p sp).
Proof.
  unfold parse_args. apply sbp_bind; [|intros [? ?]; apply sbp_refl].
  generalize (pfuel source) (@nil base_expr). intros n. revert p. induction n as [|n IH]; intros p l; cbn [parse_args_loop]; [exact I|].
  apply sbp_bind; [auto with sim|]. intros [? ?]. apply sbp_bind; [auto with sim|]. intros [[] ?]; [|apply sbp_refl].
  apply sbp_bind; [auto with sim|]. intros [? ?]. apply IH.
Qed.
Hint Resolve args_sim : sim.
Lemma expr_sim p : sbp (@parse_expr X1 sr source p) (@parse_expr X2 sr source p).
Proof.
  unfold parse_expr. apply sbp_bind; [auto with sim|]. intros [b p']. generalize (pfuel source) (EBase b). intros n. revert p'.
  induction n as [|n IH]; intros p' e; cbn [parse_expr_loop]; [exact I|].
  apply sbp_bind; [auto with sim|]. intros [[] ?]; [|apply sbp_refl].
  apply sbp_bind; [auto with sim|]. intros [? ?]. apply sbp_bind; [auto with sim|]. intros [? ?].
  apply sbp_bind; [auto with sim|]. intros [[] ?]; sim.
Qed.
Hint Resolve expr_sim : sim.
Lemma loop_vars_sim p : sbp (@parse_loop_vars X1 sr source p) (@parse_loop_vars X2 sr source p).
Proof. unfold parse_loop_vars. sim. Qed.
Lemma if_cond_sim p : sbp (@parse_if_cond X1 sr source p) (@parse_if_cond X2 sr source p).
Proof. unfold parse_if_cond. sim. Qed.
Hint Resolve loop_vars_sim if_cond_sim : sim.
Lemma parse_block_sim p : sbp (@parse_block X1 sr source p) (@parse_block X2 sr source p).
Proof. unfold parse_block, err_unexpected_keyword. sim. Qed.
Hint Resolve parse_block_sim : sim.
Lemma end_if_sim bl : forall sc sp, sbp (@end_if_loop X1 source bl sc sp) (@end_if_loop X2 source bl sc sp).
Proof. induction bl as [|b bl IH]; intros sc sp; cbn [end_if_loop]; sim. Qed.
Hint Resolve end_if_sim : sim.
Lemma else_sim bl m sp : sbp (@set_has_else X1 source bl m sp) (@set_has_else X2 source bl m sp).
Proof. unfold set_has_else. sim. Qed.
Hint Resolve else_sim : sim.
Lemma handle_sim b sp bl sc : sbp (@handle_block X1 source b sp bl sc) (@handle_block X2 source b sp bl sc).
Proof. unfold handle_block. sim. Qed.
Hint Resolve handle_sim : sim.
Lemma stmt_sim tk b p bl sc : sbp (@parse_stmt X1 sr source tk b p bl sc) (@parse_stmt X2 sr source tk b p bl sc).
Proof. unfold parse_stmt. sim. Qed.
Lemma template_sim : sbp (@parse_template X1 sr source) (@parse_template X2 sr source).
Proof.
  unfold parse_template. apply sbp_bind.
  - generalize (pfuel source) parser_new (@nil bstate) [@nil stmt]. induction n as [|n IH]; intros p bl sc; cbn [parse_template_loop]; [exact I|].
    apply sbp_bind; [auto with sim|]. intros [[[tk sp]|] p']; [|apply sbp_refl].
    apply sbp_bind; [apply stmt_sim|]. intros [[[[st|] bl'] sc'] p'']; [|apply IH]. apply sbp_bind; [apply sbp_refl|]. intros; apply IH.
  - intros [bl sc]. sim.
Qed.
Lemma compile_sim : sbp (@compile_template X1 sr source) (@compile_template X2 sr source).
Proof. unfold compile_template. apply sbp_bind; [apply template_sim|]. intros; apply sbp_refl. Qed.
End Sim.
