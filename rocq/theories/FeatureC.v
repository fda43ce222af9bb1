(** Compiling in two builds (C51). *)
From Verif Require Import Base Utf8 Ext Errors Syntax AhoCorasick SearchSpec SyntaxSpec Value Ast Lexer LexSpec Wp LexProof
  GrammarSpec Parser AstOk Compiler CompileProof ParseMain Fmt Filters Render Engine EngineSpec CompileFacts FeatureSpec.

Definition starts_ascii (s : str) : Prop := match s with [] => True | b :: _ => (byte_N b < 128)%N end.
Lemma first_ascii b r : (byte_N b < 128)%N -> exists t, chars (b :: r) = byte_N b :: t.
Proof.
  intros Hl. unfold chars. pose proof (char_indices_encode (byte_N b) r 0 ltac:(unfold scalar in *; lia)) as E.
  rewrite encode_ascii in E by exact Hl. unfold byte_of, byte_N in E. rewrite Byte.of_to_N in E. cbn [app] in E. rewrite E. cbn. eauto.
Qed.
Lemma all_ascii_chars s : all_ascii s -> Forall (fun c => (c < 128)%N) (chars s).
Proof.
  intros H. assert (E : chars s = map byte_N s); [|rewrite E; clear E; induction H; constructor; auto].
  induction H as [|b s H Hs IH]; [reflexivity|]. cbn [map]. rewrite <- IH.
  pose proof (chars_encode (byte_N b) s ltac:(unfold scalar in *; lia) (ascii_valid s Hs)) as E.
  rewrite encode_ascii in E by exact H. unfold byte_of, byte_N in E. rewrite Byte.of_to_N in E. exact E.
Qed.
Lemma ascii_start c s : (c < 128)%N -> starts_ascii (encode c ++ s).
Proof.
  intros H. rewrite encode_ascii by exact H. cbn. unfold byte_of, byte_N.
  destruct (Byte.of_N c) eqn:E; [now rewrite (Byte.to_of_N _ E)|]. apply Byte.of_N_None_iff in E. lia.
Qed.
Lemma reserved_ascii s : In s reserved -> all_ascii s.
Proof. intros H. unfold all_ascii. cbn in H. repeat (destruct H as [<-|H]; [repeat constructor|]). destruct H. Qed.
Lemma skip_sub source m n : m <= n -> skipn m source = sub source m n ++ skipn n source.
Proof. intros H. unfold sub. replace n with ((n - m) + m) at 2 by lia. rewrite <- skipn_skipn, firstn_skipn. reflexivity. Qed.

Section Transfer.
Variables X1 X2 : Ext.
Hypothesis Hb : two_builds X1 X2.
Variable sx : syntax.
Hypothesis Hu : user_syntax sx.
Hypothesis Ha : ascii_delimiters sx.
Variable source : str.
Hypothesis Hv : valid_utf8 source.

Lemma word_char_same c : (c < 128)%N -> @word_char X1 c = @word_char X2 c.
Proof. intros H. destruct (tb_ascii1 _ _ Hb) as (_ & _ & H1), (tb_ascii2 _ _ Hb) as (_ & _ & H2). unfold word_char. now rewrite H1, H2. Qed.
Lemma ident_shape_same s : all_ascii s -> @ident_shape X1 s -> @ident_shape X2 s.
Proof.
  intros Hs (c & cs & E & (S1 & S2 & S3 & S4) & F). apply all_ascii_chars in Hs. rewrite E in Hs. inversion Hs as [|? ? Hc Hcs]; subst.
  exists c, cs. split; [exact E|]. split.
  - split; [|auto]. unfold word_start in *. destruct (c =? 95)%N eqn:E95; [reflexivity|]. cbn [orb] in *.
    destruct (tb_ascii1 _ _ Hb) as (_ & H1 & _), (tb_ascii2 _ _ Hb) as (H2 & _ & _). apply H2; [exact Hc|].
    specialize (H1 c Hc S1). rewrite S2, E95, !orb_false_r in H1. exact H1.
  - clear E Hs. induction F as [|x l Hx F IH]; constructor; inversion Hcs; subst; auto. now rewrite <- word_char_same.
Qed.
Lemma stops_same rest : starts_ascii rest -> stops (@word_char X1) rest -> stops (@word_char X2) rest.
Proof.
  unfold stops. destruct rest as [|b r]; [auto|]. intros H. destruct (first_ascii b r H) as (t & ->). now rewrite word_char_same.
Qed.
Lemma lexeme_first_ascii path t s : valid_utf8 s -> s <> [] -> (t = TIdent -> all_ascii s) -> @lexeme X1 path t s -> starts_ascii s.
Proof.
  intros V Hne Hi H.
  assert (C : forall c cs, chars s = c :: cs -> (c < 128)%N -> starts_ascii s).
  { intros c cs E Hc. destruct (chars_cons_inv s c cs V E) as (_ & s' & _ & -> & _). now apply ascii_start. }
  assert (A : all_ascii s -> starts_ascii s) by (intros F; destruct F; [exact I|assumption]).
  assert (N : chars s <> []) by (destruct s as [|b s0]; [congruence|]; intros E; apply flat_map_chars in V; rewrite E in V; discriminate V).
  destruct t; cbn in H; try contradiction; try (subst s; repeat constructor; fail).
  - destruct H as [_ F]. destruct (chars s) as [|c cs] eqn:E; [congruence|]. inversion F as [|? ? Hc]; subst.
    apply (C c cs); [exact eq_refl|]. unfold blank in Hc. apply orb_prop in Hc as [Hc|Hc]; apply N.eqb_eq in Hc; lia.
  - apply A, reserved_ascii. exact (proj1 H).
  - apply A, Hi. reflexivity.
  - destruct H as (_ & _ & F). destruct (chars s) as [|c cs] eqn:E; [congruence|]. inversion F as [|? ? Hc]; subst.
    apply (C c cs); [exact eq_refl|]. apply digit_range in Hc. lia.
  - destruct H as (_ & c & cs & E & Hc & _). apply (C c cs E). apply digit_range in Hc. lia.
  - destruct H as (body & E & _). apply (C _ _ E). lia.
Qed.
Lemma after_ascii n e path ts : @tiling X1 sx source true n (MTag e path) ts ->
  (forall sp, In (TIdent, sp) ts -> all_ascii (txt source sp)) -> starts_ascii (skipn n source).
Proof.
  intros H Hi. inversion H as [? ? E|? ? ? ? ? ? ? ? ? ? ? ? ? Hm|m n0 k b ts0|m n0 k md ts0 Ho (_ & _ & _ & _ & _ & Hbest) _ _|m n0 t e0 p0 ts0 Hlt Hle B1 B2 _ Hlex]; subst.
  - rewrite E by reflexivity. now rewrite skipn_all.
  - exfalso. exact (Hm e path eq_refl).
  - destruct Hbest as (bef & p & aft & E & (_ & t & Et) & _). rewrite Et.
    assert (Hin : In (k, p) sx) by (rewrite E; apply in_or_app; right; left; reflexivity).
    pose proof (Ha k p Hin) as Hp. pose proof (proj1 (user_syntax_pat _ Hu _ _ Hin)) as Hne. destruct Hp; [exfalso; apply Hne; reflexivity|assumption].
  - rewrite (skip_sub source n n0) by lia.
    assert (Hs : starts_ascii (sub source n n0)).
    { apply (lexeme_first_ascii path t); auto.
      - apply sub_valid; auto; lia.
      - intros E. apply (f_equal (@length byte)) in E. unfold sub in E. rewrite firstn_length, skipn_length in E. cbn in E. lia.
      - intros ->. exact (Hi (mkspan n n0) (or_introl eq_refl)). }
    destruct (sub source n n0) as [|b r] eqn:E; [|exact Hs].
    apply (f_equal (@length byte)) in E. unfold sub in E. rewrite firstn_length, skipn_length in E. cbn in E. lia.
Qed.
Lemma tiling_transfer at_ md ts : @tiling X1 sx source true at_ md ts ->
  (forall sp, In (TIdent, sp) ts -> all_ascii (txt source sp)) -> @tiling X2 sx source true at_ md ts.
Proof.
  induction 1 as [at_ md E|at_ md m n at' ts A1 A2 A3 A4 A5 A6 A7 A8 A9 A10 A11 A12 H IH|m n k b ts Ho Ht H IH|m n k md ts Ho Ht Hm H IH|m n t e path ts B1 B2 B3 B4 B5 B6 B7 H IH]; intros Hi.
  - now apply ti_end.
  - eapply ti_raw; eauto. apply IH. intros sp Hin. apply Hi. now right.
  - apply ti_open; auto. apply IH. intros sp Hin. apply Hi. now right.
  - eapply ti_close; eauto. apply IH. intros sp Hin. apply Hi. now right.
  - assert (Hi' : forall sp, In (TIdent, sp) ts -> all_ascii (txt source sp)) by (intros sp Hin; apply Hi; now right).
    pose proof (after_ascii _ _ _ _ H Hi') as Hs.
    assert (Hid : t = TIdent -> all_ascii (sub source m n)) by (intros ->; exact (Hi (mkspan m n) (or_introl eq_refl))).
    apply ti_tok; auto.
    + destruct t; try exact B6; cbn in *.
      * destruct B6 as [R S]. split; [exact R|]. apply ident_shape_same; auto using reserved_ascii.
      * destruct B6 as [R S]. split; [exact R|]. apply ident_shape_same; auto.
    + destruct t; try exact B7; cbn in *; now apply stops_same.
Qed.

(** ** The grammar: only number literals depend on the build *)
Lemma number_same s b v : @number_lit X1 s b v -> @number_lit X2 s b v.
Proof. intros H. destruct H as [z H|f H E]; [now apply nl_int|]. apply nl_float; auto. now rewrite <- (tb_parse _ _ Hb). Qed.
Lemma base_same ts b : @g_base X1 source ts b -> @g_base X2 source ts b.
Proof. intros H; destruct H; constructor; auto using number_same. Qed.
Lemma args_same ts l : @g_args X1 source ts l -> @g_args X2 source ts l.
Proof. induction 1; constructor; auto using base_same. Qed.
Lemma expr_same ts e : @g_expr X1 source ts e -> @g_expr X2 source ts e.
Proof. induction 1; constructor; auto using base_same, args_same. Qed.
Lemma cond_same ts n e : @g_cond X1 source ts n e -> @g_cond X2 source ts n e.
Proof. destruct 1; constructor; auto using expr_same. Qed.
Lemma grammar_same :
  (forall ts s, @g_stmt X1 source ts s -> @g_stmt X2 source ts s) /\
  (forall ts l, @g_scope X1 source ts l -> @g_scope X2 source ts l) /\
  (forall ts e, @g_else X1 source ts e -> @g_else X2 source ts e).
Proof.
  apply (@g_mind X1 source (fun ts s => @g_stmt X2 source ts s) (fun ts s => @g_scope X2 source ts s) (fun ts s => @g_else X2 source ts s));
    intros; try (econstructor; eauto using expr_same, cond_same; fail).
Qed.
Lemma derives_transfer s ts : @tiling X1 sx source true 0 (MText false) ts -> @g_scope X1 source (nonspace ts) s ->
  (forall sp, In (TIdent, sp) ts -> all_ascii (txt source sp)) -> @derives X2 sx source s.
Proof. intros H G Hi. exists ts. split; [now apply tiling_transfer|]. now apply grammar_same. Qed.
Lemma compile_transfer sr t : @searcher_new error sx = Ok sr -> trims_ok sx source ->
  (forall ts sp, @tiling X1 sx source true 0 (MText false) ts -> In (TIdent, sp) ts -> all_ascii (txt source sp)) ->
  @compile_template X1 sr source = Ok t -> @compile_template X2 sr source = Ok t.
Proof.
  intros Hsr Ht Hi E. apply (@compile_iff X1 sx Hu sr Hsr source Hv Ht) in E. destruct E as (s & (ts & T & G) & ->).
  apply (@compile_iff X2 sx Hu sr Hsr source Hv Ht). exists s. split; [|reflexivity]. apply (derives_transfer s ts); auto.
  intros sp. now apply Hi.
Qed.
End Transfer.

Lemma builds_sym X1 X2 : two_builds X1 X2 -> two_builds X2 X1.
Proof. intros [H1 H2 H3 H4 H5]. constructor; congruence. Qed.

(** Without "unicode" all identifiers are ASCII. *)
Lemma tiling_idents X sx source full at_ md ts : @tiling X sx source full at_ md ts -> forall sp, In (TIdent, sp) ts -> @ident_shape X (txt source sp).
Proof.
  induction 1 as [at_ md E|at_ md m n at' ts A1 A2 A3 A4 A5 A6 A7 A8 A9 A10 A11 A12 H IH|m n k b ts Ho Ht H IH|m n k md ts Ho Ht Hm H IH|m n t e path ts B1 B2 B3 B4 B5 B6 B7 H IH];
    intros sp Hin; [destruct Hin|destruct Hin as [Hin|Hin]; [|now apply IH]..].
  - discriminate Hin.
  - destruct k; discriminate Hin.
  - destruct k; discriminate Hin.
  - injection Hin as -> <-. exact (proj2 B6).
Qed.
Lemma word_ascii c : ascii_letter c || ascii_digit c || (c =? 95)%N = true -> (c < 128)%N.
Proof.
  unfold ascii_letter, ascii_digit. rewrite !orb_true_iff, !andb_true_iff, !N.leb_le, N.eqb_eq. lia.
Qed.
Lemma no_unicode_idents X sx source : no_unicode X -> valid_utf8 source -> forall full at_ md ts, @tiling X sx source full at_ md ts -> forall sp,
  In (TIdent, sp) ts -> valid_utf8 (txt source sp) -> all_ascii (txt source sp).
Proof.
  intros (N1 & N2) Hv full at_ md ts H sp Hin V. destruct (tiling_idents _ _ _ _ _ _ _ H sp Hin) as (c & cs & E & (S1 & _) & F).
  assert (A : Forall (fun c => (c < 128)%N) (chars (txt source sp))).
  { rewrite E. constructor.
    - unfold word_start in S1. rewrite N1 in S1. apply orb_prop in S1 as [S1|S1]; [apply N.eqb_eq in S1; lia|now apply word_ascii].
    - revert F. apply Forall_impl. intros x Hx. unfold word_char in Hx. rewrite N2 in Hx. now apply word_ascii. }
  rewrite <- (flat_map_chars _ V). clear - A. induction A as [|x l H A IH]; cbn; [constructor|].
  rewrite encode_ascii by exact H. cbn. constructor; auto.
  unfold byte_of, byte_N. destruct (Byte.of_N x) eqn:E; [now rewrite (Byte.to_of_N _ E)|]. apply Byte.of_N_None_iff in E. lia.
Qed.
Lemma tiling_valid X sx source full at_ md ts : valid_utf8 source -> @tiling X sx source full at_ md ts -> forall sp, In (TIdent, sp) ts -> valid_utf8 (txt source sp).
Proof.
  intros Hv. induction 1 as [at_ md E|at_ md m n at' ts A1 A2 A3 A4 A5 A6 A7 A8 A9 A10 A11 A12 H IH|m n k b ts Ho Ht H IH|m n k md ts Ho Ht Hm H IH|m n t e path ts B1 B2 B3 B4 B5 B6 B7 H IH];
    intros sp Hin; [destruct Hin|destruct Hin as [Hin|Hin]; [|now apply IH]..].
  - discriminate Hin.
  - destruct k; discriminate Hin.
  - destruct k; discriminate Hin.
  - injection Hin as -> <-. apply sub_valid; auto; cbn; lia.
Qed.

Lemma with_syntax_same X1 X2 sx : @f64_display X1 = @f64_display X2 -> @engine_with_syntax X1 sx = @engine_with_syntax X2 sx.
Proof. intros H. unfold engine_with_syntax, fmt_default, display_chunks. now rewrite H. Qed.

Section Compile.
Variables U A : Ext.
Hypothesis Hb : two_builds U A.
Hypothesis Hno : no_unicode A.
Variable sx : syntax.
Hypothesis Hu : user_syntax sx.
Hypothesis Ha : ascii_delimiters sx.

Lemma compile_both sr source t : @searcher_new error sx = Ok sr -> valid_utf8 source -> trims_ok sx source ->
  (@compile_template A sr source = Ok t <-> @compile_template U sr source = Ok t /\ ascii_identifiers U sx source).
Proof.
  intros Hsr Hv Ht. split.
  - intros E.
    assert (Hi : forall ts sp, @tiling A sx source true 0 (MText false) ts -> In (TIdent, sp) ts -> all_ascii (txt source sp)).
    { intros ts sp T Hin. eapply no_unicode_idents; eauto. eapply tiling_valid; eauto. }
    split; [now apply (compile_transfer A U (builds_sym _ _ Hb) sx Hu Ha source Hv)|].
    apply (@compile_iff A sx Hu sr Hsr source Hv Ht) in E. destruct E as (s & (ts & T & G) & ->).
    intros ts' sp T' Hin.
    assert (T2 : @tiling U sx source true 0 (MText false) ts).
    { apply (tiling_transfer A U (builds_sym _ _ Hb) sx Hu Ha source Hv); [exact T|]. intros sp' Hin'. exact (Hi ts sp' T Hin'). }
    rewrite (@tiling_unique U sx source ts' ts Hu Ht Hv T' T2) in Hin. exact (Hi ts sp T Hin).
  - intros (E & Hi). apply (compile_transfer U A Hb sx Hu Ha source Hv); auto.
Qed.
End Compile.
