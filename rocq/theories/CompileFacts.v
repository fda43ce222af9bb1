(** Facts about engines, tokens and comments used by the property theorems. *)
From Verif Require Import Base Utf8 Ext Errors Syntax AhoCorasick SearchSpec SyntaxSpec Value Ast Lexer LexSpec Wp TrimProof
  AcProof LexProof GrammarSpec Parser LitProof TokStream ParseProof ParseSound ParseComplete AstOk Compiler CompileProof ParseMain
  TileSpec TileProof Fmt Stack Filters Render Engine EngineSpec.

Section CompileFacts.
Context `{X : Ext}.

Lemma engine_exists sx : user_syntax sx -> exists e, engine_with_syntax sx = Ok e.
Proof.
  intros H. destruct (@find_at_spec error error sx) as (sr & H1 & _).
  { intros k p Hin. exact (proj1 (user_syntax_pat sx H k p Hin)). }
  unfold engine_with_syntax. rewrite H1. eexists. reflexivity.
Qed.
Lemma engine_searcher sx e : engine_for sx e -> @searcher_new error sx = Ok (en_searcher e).
Proof.
  induction 1; auto.
  - unfold engine_with_syntax in H. destruct (searcher_new sx) as [sr| | |] eqn:E; try discriminate.
    injection H as <-. reflexivity.
  - unfold add_template. destruct (engine_compile s e); auto.
Qed.

Lemma lex_all_ok sx e source : user_syntax sx -> trims_ok sx source -> engine_for sx e -> valid_utf8 source ->
  exists ts, match lex_all (en_searcher e) source with
  | Ok toks => tiling sx source true 0 (MText false) ts /\ toks = nonspace ts
  | Err _ => tiling sx source false 0 (MText false) ts
  | _ => False
  end.
Proof.
  intros Hu Hc He Hv. pose proof (engine_searcher _ _ He) as Hsr.
  destruct (lexes_start sx Hu _ Hsr source Hv Hc) as (ts & fin & Hl & Ht). exists ts.
  assert (Hs : stream sx (en_searcher e) source lexer_new (nonspace ts) fin) by (eexists ts, _, _, _; eauto).
  unfold lex_all. rewrite (lex_all_loop_spec sx Hu _ source Hv _ _ _ _ Hs).
  - destruct fin; auto.
  - destruct (stream_ok sx Hu (en_searcher e) source Hv ts fin Hl Ht) as [(_ & _ & Hlen) _]. lia.
Qed.
Lemma lex_all_complete sx e source ts : user_syntax sx -> trims_ok sx source -> engine_for sx e -> valid_utf8 source ->
  tiling sx source true 0 (MText false) ts -> lex_all (en_searcher e) source = Ok (nonspace ts).
Proof.
  intros Hu Hc He Hv Ht. pose proof (engine_searcher _ _ He) as Hsr.
  pose proof (lexes_complete sx Hu _ (searcher_spec sx Hu _ Hsr) source Hv Hc _ _ _ Ht _ (inv_new sx source)) as Hl.
  assert (Hs : stream sx (en_searcher e) source lexer_new (nonspace ts) None) by (eexists ts, _, _, _; eauto).
  unfold lex_all. rewrite (lex_all_loop_spec sx Hu _ source Hv _ _ _ _ Hs); auto.
  destruct (stream_ok sx Hu (en_searcher e) source Hv ts None Hl Ht) as [(_ & _ & Hlen) _]. lia.
Qed.
Lemma tiling_unique sx source ts ts' : user_syntax sx -> trims_ok sx source -> valid_utf8 source ->
  tiling sx source true 0 (MText false) ts -> tiling sx source true 0 (MText false) ts' -> ts = ts'.
Proof.
  intros Hu Hc Hv H H'. destruct (engine_exists sx Hu) as (e & He). apply ef_new in He.
  pose proof (engine_searcher _ _ He) as Hsr.
  pose proof (lexes_complete sx Hu _ (searcher_spec sx Hu _ Hsr) source Hv Hc _ _ _ H _ (inv_new sx source)) as Hl.
  pose proof (lexes_complete sx Hu _ (searcher_spec sx Hu _ Hsr) source Hv Hc _ _ _ H' _ (inv_new sx source)) as Hl'.
  clear - Hl Hl'. remember lexer_new as lx. remember (@None error) as fin. clear Heqlx. revert ts' Hl'.
  induction Hl as [lx E|lx er E|lx t lx' ts fin E Hl IH]; intros ts' Hl'; subst.
  - inversion Hl' as [? E'|? ? E'|? ? ? ? ? E']; subst; auto. congruence.
  - discriminate.
  - inversion Hl' as [? E'|? ? E'|? ? ? ? ? E' Hl'']; subst; [congruence|].
    rewrite E in E'. injection E' as <- <-. f_equal. auto.
Qed.

(** ** Comments *)
Definition plain (ts : list tok) : Prop := Forall (fun t => fst t <> TBeginComment) ts.
Lemma wc_app a a' b b' : without_comments a a' -> without_comments b b' -> without_comments (a ++ b) (a' ++ b').
Proof. induction 1; intros H'; cbn [app]; auto; constructor; auto. Qed.
Lemma wc_plain ts : plain ts -> without_comments ts ts.
Proof. induction 1; constructor; auto. Qed.
Lemma wc_fun a b : without_comments a b -> forall c, without_comments a c -> b = c.
Proof.
  induction 1 as [|bb r e ts ts' H IH|t ts ts' Hn H IH]; intros c Hc; inversion Hc; subst; auto.
  - simpl in *. congruence.
  - simpl in *. congruence.
  - f_equal; auto.
Qed.
Lemma plain_app a b : plain a -> plain b -> plain (a ++ b).
Proof. intros. apply Forall_app. auto. Qed.
Ltac pl := repeat (apply plain_app || (apply Forall_cons; [discriminate|]) || apply Forall_nil || assumption); auto.
Variable source : str.
Lemma plain_access ts a : g_access source ts a -> plain ts.
Proof. destruct 1; pl. Qed.
Lemma plain_members ts a : g_members source ts a -> plain ts.
Proof. induction 1; try apply plain_access in H; pl. Qed.
Lemma plain_base ts a : g_base source ts a -> plain ts.
Proof. destruct 1; try apply plain_members in H; pl. Qed.
Lemma plain_args ts a : g_args source ts a -> plain ts.
Proof. induction 1; apply plain_base in H; pl. Qed.
Lemma plain_expr ts a : g_expr source ts a -> plain ts.
Proof. induction 1; try apply plain_base in H; try apply plain_args in H0; pl. Qed.
Lemma plain_kw s ts : kw source s ts -> plain ts.
Proof. intros (sp & -> & _). pl. Qed.
Lemma plain_cond ts n a : g_cond source ts n a -> plain ts.
Proof. destruct 1 as [ts e He|k ts e Hk He]; apply plain_expr in He; try apply plain_kw in Hk; pl. Qed.
Lemma plain_vars ts a : g_vars ts a -> plain ts.
Proof. destruct 1; pl. Qed.
Lemma plain_tag i t : tag_block i t -> plain i -> plain t.
Proof. intros (b & e & ->) H. pl. Qed.

Lemma g_without :
  (forall ts s, g_stmt source ts s -> exists ts', without_comments ts ts' /\ g_stmt source ts' s) /\
  (forall ts l, g_scope source ts l -> exists ts', without_comments ts ts' /\ g_scope source ts' l) /\
  (forall ts e, g_else source ts e -> exists ts', without_comments ts ts' /\ g_else source ts' e).
Proof.
  apply g_mut; intros;
  repeat match goal with
  | H : exists ts', _ /\ _ |- _ => destruct H as (? & ? & ?)
  | H : kw source _ ?t |- _ => pose proof (plain_kw _ _ H); revert H
  | H : g_expr source _ _ |- _ => pose proof (plain_expr _ _ H); revert H
  | H : g_cond source _ _ _ |- _ => pose proof (plain_cond _ _ _ H); revert H
  | H : g_vars _ _ |- _ => pose proof (plain_vars _ _ H); revert H
  end; intros.
  - eexists. split; [apply wc_plain; pl|]. constructor.
  - eexists. split; [apply wc_plain; pl|]. now constructor.
  - assert (plain t) by (eapply plain_tag; eauto; pl). eexists. split; [apply wc_plain; eauto|]. econstructor; eauto.
  - assert (plain t) by (eapply plain_tag; eauto; pl). eexists. split; [apply wc_plain; eauto|]. eapply gs_include_with; eauto.
  - assert (plain t) by (eapply plain_tag; eauto; pl). eexists. split; [apply wc_app; [apply wc_plain; eauto|apply wc_app; eauto]|].
    eapply gs_if; eauto.
  - assert (plain t) by (eapply plain_tag; eauto; pl). assert (plain t') by (eapply plain_tag; eauto).
    eexists. split; [apply wc_app; [apply wc_plain; eauto|apply wc_app; [eauto|apply wc_plain; eauto]]|]. eapply gs_for; eauto.
  - assert (plain t) by (eapply plain_tag; eauto; pl). assert (plain t') by (eapply plain_tag; eauto).
    eexists. split; [apply wc_app; [apply wc_plain; eauto|apply wc_app; [eauto|apply wc_plain; eauto]]|]. eapply gs_with; eauto.
  - exists []. split; constructor.
  - eexists. split; [constructor; eauto|]. auto.
  - eexists. split; [apply wc_app; eauto|]. econstructor; eauto.
  - assert (plain t) by (eapply plain_tag; eauto; pl). eexists. split; [apply wc_plain; eauto|]. econstructor; eauto.
  - assert (plain t) by (eapply plain_tag; eauto; pl). assert (plain t') by (eapply plain_tag; eauto).
    eexists. split; [apply wc_app; [apply wc_plain; eauto|apply wc_app; [eauto|apply wc_plain; eauto]]|]. eapply gel_else; eauto.
  - assert (plain t) by (eapply plain_tag; eauto; pl). eexists. split; [apply wc_app; [apply wc_plain; eauto|apply wc_app; eauto]|].
    eapply gel_elseif; eauto.
Qed.
End CompileFacts.
