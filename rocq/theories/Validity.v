(** The texts in a compile error are Unicode: no character is cut. *)
From Verif Require Import Base Utf8 Ext Errors Syntax AhoCorasick Value Ast Lexer Wp Parser Compiler CompileProof DecimalSpec DecimalProof LocSpec LocProof DebugSpec.

Lemma no_err_unwrap {A} (o : option A) e : @unwrap error A o <> Err e.
Proof. destruct o; discriminate. Qed.

Section Validity.
Context `{X : Ext}.
Variable sr : searcher.
Variable source : str.

Hypothesis source_valid : valid_utf8 source.
Definition sy {A} (x : res A) : Prop := match x with Err e => texts_valid e | _ => True end.

Lemma sy_bind {A B} (x : res A) (f : A -> res B) : sy x -> (forall a, sy (f a)) -> sy (let* a := x in f a).
Proof. destruct x; cbn; auto. Qed.
Lemma sy_ok {A} (a : A) : sy (Ok a).
Proof. exact I. Qed.
Lemma sy_panic {A} : sy (@Panic error A).
Proof. exact I. Qed.
Lemma sy_fuel {A} : sy (@OutOfFuel error A).
Proof. exact I. Qed.
Lemma pretty_no_err sp e : build_pretty source sp <> Err e.
Proof.
  unfold build_pretty, index_span, slice. destruct (to_ln_col _ _). destruct (_ && _); cbn [bind]; [|discriminate].
  destruct (nth_error _ _); cbn [bind]; [discriminate|]. destruct (hd_error _); cbn; discriminate.
Qed.
Lemma digits_valid s : Forall decimal_digit s -> valid_utf8 s.
Proof. intros H. apply ascii_valid. eapply Forall_impl; [|exact H]. intros b Hb. unfold decimal_digit in Hb. lia. Qed.
Lemma show_Z_valid z : valid_utf8 (show_Z z).
Proof.
  assert (P : forall n, valid_utf8 (show_N n)) by (intros n; apply digits_valid; exact (proj1 (proj2 (show_natural n)))).
  destruct z; cbn [show_Z]; try apply P. apply (valid_app [x2d]); [apply asciib_valid; reflexivity|apply P].
Qed.
Lemma human_valid t : valid_utf8 (token_human t).
Proof. apply asciib_valid. destruct t; reflexivity. Qed.
Lemma keyword_valid t : valid_utf8 (keyword_human t).
Proof. apply asciib_valid. destruct t; reflexivity. Qed.
Ltac vl := repeat (apply valid_app || apply human_valid || apply keyword_valid || apply show_Z_valid || assumption || (apply asciib_valid; reflexivity)).
Lemma split_valid b a : valid_utf8 (b ++ x0a :: a) -> valid_utf8 b /\ valid_utf8 (x0a :: a).
Proof.
  intros H. destruct (boundary_split (b ++ x0a :: a) (length b) H) as [H1 H2].
  - unfold boundary. rewrite nth_error_app2, Nat.sub_diag by lia. reflexivity.
  - rewrite firstn_app, Nat.sub_diag, firstn_all, firstn_O, app_nil_r in H1. rewrite skipn_app, Nat.sub_diag, skipn_all in H2. now split.
Qed.
Lemma line_valid text : is_line source text -> valid_utf8 text.
Proof.
  intros (b & a & [E Hb Ht Ha]). assert (V : valid_utf8 (text ++ a)).
  { rewrite E in source_valid. destruct Hb as [->|(b' & ->)]; [exact source_valid|]. rewrite <- app_assoc in source_valid.
    apply split_valid in source_valid as [_ V]. apply (valid_app_inv_l [x0a]) in V; [exact V|apply asciib_valid; reflexivity]. }
  destruct Ha as [->|(a' & ->)]; [now rewrite app_nil_r in V|]. now apply split_valid in V.
Qed.
Lemma sy_err {A} reason sp : valid_utf8 reason -> sy (@err_syntax X A reason source sp).
Proof.
  intros Hr. unfold err_syntax. pose proof (pretty_no_err sp) as N. destruct (build_pretty source sp) as [p|e| |] eqn:E; cbn; auto; [|now destruct (N e)].
  split; [|split]; intros y Hy; inversion Hy; subst; auto. apply line_valid, (pretty_line _ _ _ E).
Qed.
Lemma sy_unwrap {A} (o : option A) : sy (@unwrap error A o).
Proof. now destruct o. Qed.
Lemma sy_slice s i j : sy (@slice error s i j).
Proof. unfold slice. now destruct (_ && _). Qed.
Lemma sy_slice_from s i : sy (@slice_from error s i).
Proof. unfold slice_from. destruct (boundary _ _), (i <=? length s); exact I. Qed.
Lemma sy_index s sp : sy (@index_span error s sp).
Proof. apply sy_slice. Qed.
Lemma sy_usub a b : sy (@usub error a b).
Proof. unfold usub. now destruct (_ <? _). Qed.
Lemma sy_state a i : sy (@state error a i).
Proof. apply sy_unwrap. Qed.

Hint Resolve sy_ok sy_panic sy_fuel sy_unwrap sy_slice sy_slice_from sy_index sy_usub sy_state : sy.
Ltac sy1 := first
  [ solve [auto with sy]
  | solve [apply sy_err; vl]
  | apply sy_bind; [|let x := fresh "x" in intros x; repeat match goal with p : (_ * _)%type |- _ => destruct p end]
  | match goal with |- sy (match ?x with _ => _ end) => destruct x end
  | match goal with |- sy (let _ := _ in _) => cbv zeta end
  | match goal with |- sy (if ?x then _ else _) => destruct x end ].
Ltac sys := repeat sy1.

(** ** Search *)
Lemma sy_get_match a i e : sy (@get_match error a i e).
Proof. unfold get_match. sys. Qed.
Lemma sy_chain fuel : forall a i b, sy (@fail_chain error fuel a i b).
Proof. induction fuel as [|fuel IH]; intros a i b; cbn [fail_chain]; sys. Qed.
Hint Resolve sy_get_match sy_chain : sy.
Lemma sy_find_loop rest : forall a st i last, sy (@find_loop error a st i rest last).
Proof. induction rest as [|b rest IH]; intros a st i last; cbn [find_loop]; unfold next_state; sys. Qed.
Hint Resolve sy_find_loop : sy.
Lemma sy_kind n : sy (@kind_from_usize error n).
Proof. unfold kind_from_usize. sys. Qed.
Hint Resolve sy_kind : sy.
Lemma sy_find_at s h i : sy (@find_at error s h i).
Proof. unfold find_at, ac_find_at. sys. Qed.
Hint Resolve sy_find_at : sy.
Lemma sy_starts_with s h i : sy (@starts_with error s h i).
Proof. unfold starts_with. sys. Qed.
Hint Resolve sy_starts_with : sy.

(** ** Lexing *)
Lemma sy_pair t : sy (token_pair t).
Proof. destruct t; exact I. Qed.
Hint Resolve sy_pair : sy.
Lemma sy_unclosed {A} b e : sy (@err_unclosed X source A b e).
Proof. unfold err_unclosed. sys. Qed.
Lemma sy_lex_unexpected {A} t sp : sy (@lex_err_unexpected_token X source A t sp).
Proof. apply sy_err; vl. Qed.
Lemma sy_char {A} sp : sy (@err_unexpected_character X source A sp).
Proof. apply sy_err; vl. Qed.
Lemma sy_undelimited {A} sp : sy (@err_undelimited_string X source A sp).
Proof. apply sy_err; vl. Qed.
Hint Resolve sy_unclosed sy_lex_unexpected sy_char sy_undelimited : sy.
Lemma sy_trim l i j r : sy (trim_raw_token source l i j r).
Proof. unfold trim_raw_token. sys. Qed.
Hint Resolve sy_trim : sy.
Lemma sy_lex_template lx i : sy (lex_template sr source lx i).
Proof. unfold lex_template. sys. Qed.
Lemma sy_string_loop iter : forall i c, sy (lex_string_loop source iter i c).
Proof. induction iter as [|[j c'] iter IH]; intros i c; cbn [lex_string_loop]; sys. Qed.
Hint Resolve sy_string_loop : sy.
Lemma sy_block_char bs iter i c : sy (lex_block_char source bs iter i c).
Proof. unfold lex_block_char, lex_question_dot, lex_string, lex_ident_or_keyword. sys. Qed.
Hint Resolve sy_block_char : sy.
Lemma sy_lex_block lx bs b e i : sy (lex_block sr source lx bs b e i).
Proof. unfold lex_block. sys. Qed.
Lemma sy_lex_comment lx b e i : sy (lex_comment sr source lx b e i).
Proof. unfold lex_comment. sys. Qed.
Hint Resolve sy_lex_template sy_lex_block sy_lex_comment : sy.
Lemma sy_lex lx : sy (lex sr source lx).
Proof. unfold lex. sys. Qed.
Hint Resolve sy_lex : sy.
Lemma sy_next_loop fuel : forall lx, sy (lexer_next_loop sr source fuel lx).
Proof. induction fuel as [|fuel IH]; intros lx; cbn [lexer_next_loop]; sys. Qed.
Lemma sy_lexer_next lx : sy (lexer_next sr source lx).
Proof. apply sy_next_loop. Qed.
Hint Resolve sy_lexer_next : sy.

(** ** Parsing *)
Lemma sy_eof {A} e : valid_utf8 e -> sy (@err_unexpected_eof X source A e).
Proof. intros H. apply sy_err; vl. Qed.
Lemma sy_token {A} e t sp : valid_utf8 e -> sy (@err_unexpected_token X source A e t sp).
Proof. intros H. apply sy_err; vl. Qed.
Lemma sy_keyword {A} e sp : valid_utf8 e -> sy (@err_unexpected_keyword X source A e sp).
Proof. intros H. apply sy_err; vl. Qed.
Ltac sy1 ::= first
  [ solve [auto with sy]
  | solve [apply sy_err; vl] | solve [apply sy_eof; vl] | solve [apply sy_token; vl] | solve [apply sy_keyword; vl]
  | apply sy_bind; [|let x := fresh "x" in intros x; repeat match goal with p : (_ * _)%type |- _ => destruct p end]
  | match goal with |- sy (match ?x with _ => _ end) => destruct x end
  | match goal with |- sy (let _ := _ in _) => cbv zeta end
  | match goal with |- sy (if ?x then _ else _) => destruct x end ].
Lemma sy_next p : sy (p_next sr source p).
Proof. unfold p_next. sys. Qed.
Lemma sy_peek p : sy (p_peek sr source p).
Proof. unfold p_peek. sys. Qed.
Hint Resolve sy_next sy_peek : sy.
Lemma sy_kw s : sy (keyword_from_str s).
Proof. apply sy_unwrap. Qed.
Hint Resolve sy_kw : sy.
Lemma sy_is_next p t : sy (is_next sr source p t).
Proof. unfold is_next. sys. Qed.
Lemma sy_is_next_keyword p t : sy (is_next_keyword sr source p t).
Proof. unfold is_next_keyword. sys. Qed.
Lemma sy_expect p t : sy (expect sr source p t).
Proof. unfold expect. sys. Qed.
Hint Resolve sy_is_next sy_is_next_keyword sy_expect : sy.
Lemma sy_parse_any p : sy (parse_any sr source p).
Proof. unfold parse_any. sys. Qed.
Lemma sy_parse_ident p : sy (parse_ident sr source p).
Proof. unfold parse_ident. sys. Qed.
Lemma sy_parse_keyword p : sy (parse_keyword sr source p).
Proof. unfold parse_keyword. sys. Qed.
Hint Resolve sy_parse_any sy_parse_ident sy_parse_keyword : sy.
Lemma sy_expect_keyword p k : sy (expect_keyword sr source p k).
Proof. unfold expect_keyword. sys. Qed.
Hint Resolve sy_expect_keyword : sy.
Lemma sy_unescape : forall n iter acc, length iter <= n -> sy (unescape source iter acc).
Proof.
  induction n as [|n IH]; intros [|[i c] iter] acc H; cbn [length] in H; try lia; cbn [unescape]; try exact I.
  destruct (_ =? _)%N; [apply IH; lia|]. destruct (_ =? _)%N; [|apply IH; lia].
  destruct iter as [|[j esc] iter]; [exact I|]. cbn [length] in H.
  repeat (destruct (_ =? _)%N; [apply IH; lia|]). destruct iter as [|[k x] iter]; [exact I|apply sy_err; vl].
Qed.
Lemma sy_parse_string sp : sy (parse_string source sp).
Proof. unfold parse_string. apply sy_bind; [apply sy_index|]. intros raw. destruct (containsb _ _); [eapply sy_unescape; apply le_n|]. sys. Qed.
Hint Resolve sy_parse_string : sy.
Lemma sy_float raw sp sg : sy (parse_literal_float source raw sp sg).
Proof. unfold parse_literal_float. sys. Qed.
Lemma sy_int_fold radix i sp sg ds : forall j acc, sy (int_fold source radix i sp sg ds j acc).
Proof. induction ds as [|d ds IH]; intros j acc; cbn [int_fold]; sys. Qed.
Hint Resolve sy_float sy_int_fold : sy.
Lemma sy_integer raw sp sg : sy (parse_literal_integer source raw sp sg).
Proof. unfold parse_literal_integer. sys. Qed.
Lemma sy_number raw sp sg : sy (parse_literal_number source raw sp sg).
Proof.
  unfold parse_literal_number. pose proof (sy_integer raw sp sg) as H1. pose proof (sy_float raw sp sg) as H2.
  destruct (parse_literal_integer source raw sp sg); auto. destruct (parse_literal_float source raw sp sg); auto. destruct (_ || _); auto.
Qed.
Lemma sy_bool sp : sy (parse_literal_bool source sp).
Proof.
  unfold parse_literal_bool. destruct (index_span source sp) as [t|e| |] eqn:E; cbn [bind]; try exact I.
  - apply slice_inv in E as (E & H1 & H2 & ->). repeat (destruct (str_eqb _ _); [exact I|]). apply sy_keyword. now apply sub_valid.
  - pose proof (sy_index source sp : sy (index_span source sp)) as K. now rewrite E in K.
Qed.
Lemma sy_access p : sy (parse_access sr source p).
Proof. unfold parse_access. sys. Qed.
Hint Resolve sy_number sy_bool sy_access : sy.
Lemma sy_var_loop fuel : forall p path, sy (parse_var_loop sr source fuel p path).
Proof. induction fuel as [|fuel IH]; intros p path; cbn [parse_var_loop]; sys. Qed.
Hint Resolve sy_var_loop : sy.
Lemma sy_base p : sy (parse_base_expr sr source p).
Proof. unfold parse_base_expr, parse_var. sys. Qed.
Hint Resolve sy_base : sy.
Lemma sy_args_loop fuel : forall p l, sy (parse_args_loop sr source fuel p l).
Proof. induction fuel as [|fuel IH]; intros p l; cbn [parse_args_loop]; sys. Qed.
Hint Resolve sy_args_loop : sy.
Lemma sy_var_span v : sy (@var_span error v).
Proof. unfold var_span, var_first, var_last. sys. Qed.
Hint Resolve sy_var_span : sy.
Lemma sy_base_span b : sy (@base_span error b).
Proof. unfold base_span. sys. Qed.
Hint Resolve sy_base_span : sy.
Lemma sy_expr_span b : sy (@expr_span error b).
Proof. unfold expr_span. sys. Qed.
Hint Resolve sy_expr_span : sy.
Lemma sy_args p sp : sy (parse_args sr source p sp).
Proof. unfold parse_args. sys. Qed.
Hint Resolve sy_args : sy.
Lemma sy_expr_loop fuel : forall p e, sy (parse_expr_loop sr source fuel p e).
Proof. induction fuel as [|fuel IH]; intros p e; cbn [parse_expr_loop]; sys. Qed.
Hint Resolve sy_expr_loop : sy.
Lemma sy_expr p : sy (parse_expr sr source p).
Proof. unfold parse_expr. sys. Qed.
Lemma sy_loop_vars p : sy (parse_loop_vars sr source p).
Proof. unfold parse_loop_vars. sys. Qed.
Hint Resolve sy_expr sy_loop_vars : sy.
Lemma sy_if_cond p : sy (parse_if_cond sr source p).
Proof. unfold parse_if_cond. sys. Qed.
Hint Resolve sy_if_cond : sy.
Lemma sy_block p : sy (parse_block sr source p).
Proof. unfold parse_block. sys. Qed.
Hint Resolve sy_block : sy.
Lemma sy_push st sc : sy (push_stmt st sc).
Proof. unfold push_stmt. sys. Qed.
Hint Resolve sy_push : sy.
Lemma sy_end_if bl : forall sc sp, sy (end_if_loop source bl sc sp).
Proof. induction bl as [|b bl IH]; intros sc sp; cbn [end_if_loop]; sys. Qed.
Lemma sy_has_else bl m sp : valid_utf8 m -> sy (set_has_else source bl m sp).
Proof. intros H. unfold set_has_else. sys. Qed.
Hint Resolve sy_end_if : sy.
Hint Extern 1 (sy (set_has_else _ _ _ _)) => (apply sy_has_else; vl) : sy.
Lemma sy_handle b sp bl sc : sy (handle_block source b sp bl sc).
Proof. unfold handle_block. sys. Qed.
Hint Resolve sy_handle : sy.
Lemma sy_stmt tk sp p bl sc : sy (parse_stmt sr source tk sp p bl sc).
Proof. unfold parse_stmt. sys. Qed.
Hint Resolve sy_stmt : sy.
Lemma sy_loop fuel : forall p bl sc, sy (parse_template_loop sr source fuel p bl sc).
Proof. induction fuel as [|fuel IH]; intros p bl sc; cbn [parse_template_loop]; sys. Qed.
Hint Resolve sy_loop : sy.
Lemma sy_template : sy (parse_template sr source).
Proof. unfold parse_template. sys. Qed.
Hint Resolve sy_template : sy.

(** ** Code generation *)
Lemma sy_update c i : sy (update_jump c i).
Proof. unfold update_jump. sys. Qed.
Hint Resolve sy_update : sy.
Lemma sy_compile_stmt s : forall c, sy (compile_stmt c s).
Proof.
  assert (L : forall l, Forall (fun s => forall c, sy (compile_stmt c s)) l -> forall c, sy (compile_scope c l)).
  { induction 1 as [|s0 l Hs Hl IH]; intros c; cbn [compile_scope]; sys. }
  induction s as [sp|e sp|name g|neg c thn els Ht He|v e b Hb|e name b Hb] using stmt_ind'; intros code; cbn [compile_stmt].
  - sys.
  - sys.
  - sys.
  - apply sy_bind; [exact (L thn Ht _)|]. intros c1. destruct els as [els|]; [|sys]. apply sy_bind; [sys|]. intros c2.
    apply sy_bind; [exact (L els He _)|]. intros c3. sys.
  - apply sy_bind; [sys|]. intros sp. apply sy_bind; [exact (L b Hb _)|]. intros c3. sys.
  - apply sy_bind; [exact (L b Hb _)|]. intros c3. sys.
Qed.
Hint Resolve sy_compile_stmt : sy.
Lemma sy_compile_scope l : forall c, sy (compile_scope c l).
Proof. induction l as [|s l IH]; intros c; cbn [compile_scope]; sys. Qed.
Hint Resolve sy_compile_scope : sy.
Lemma sy_compile : sy (compile_template sr source).
Proof. unfold compile_template. sys. Qed.
End Validity.
