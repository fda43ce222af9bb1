(** Renderers whose templates were compiled by engines, and their statements. *)
From Verif Require Import Base Utf8 Ext Errors Syntax AhoCorasick SearchSpec SyntaxSpec Value Ast Lexer LexSpec Wp
  GrammarSpec Parser TokStream ParseProof AstOk Compiler CompileProof ParseMain Fmt Stack Filters Render Engine EngineSpec CompileFacts
  RenderSpec RenderProof RenderErr MapFacts.

Section RenderMain.
Context `{X : Ext}.

(** [template_of sx t]: [t] is the result of compiling its (UTF-8) source with an
    engine of syntax [sx] ([trims_ok]: see C03). *)
Definition template_of (sx : syntax) (t : template) : Prop :=
  user_syntax sx /\ trims_ok sx (t_source t) /\ valid_utf8 (t_source t) /\
  exists e, engine_for sx e /\ engine_compile (t_source t) e = Ok t.

(** [well_made inner origin]: the root template of the renderer and every template
    an include can name were compiled, [t] with the syntax [origin t]. *)
Definition well_made (inner : renderer_inner) (origin : template -> syntax) : Prop :=
  forall t, provided inner t -> template_of (origin t) t.

(** [statements inner origin ast_of]: moreover [ast_of t] are the statements the
    grammar derives from the source of [t]. *)
Definition statements (inner : renderer_inner) (origin : template -> syntax) (ast_of : template -> scope) : Prop :=
  forall t, provided inner t -> template_of (origin t) t /\ derives (origin t) (t_source t) (ast_of t).

(** The statements exist. *)
Lemma statements_exist inner origin : well_made inner origin -> exists ast_of, statements inner origin ast_of.
Proof.
  intros H.
  exists (fun t => match @searcher_new error (origin t) with
                   | Ok sr => match parse_template sr (t_source t) with Ok s => s | _ => [] end
                   | _ => [] end).
  intros t Hp. pose proof (H t Hp) as Ht. split; [exact Ht|]. destruct Ht as (Hu & Hc & Hv & e & He & Ec).
  pose proof (engine_searcher _ _ He) as Hs. rewrite Hs.
  apply (compile_iff _ Hu _ Hs _ Hv Hc) in Ec as (s & D & _).
  now rewrite (parse_complete _ Hu _ Hs _ Hv Hc s D).
Qed.

Lemma statements_sourced inner origin ast_of : statements inner origin ast_of ->
  forall t, provided inner t -> sourced ast_of t.
Proof.
  intros H t Hp. destruct (H t Hp) as ((Hu & Hc & Hv & e & He & Ec) & D).
  pose proof (engine_searcher _ _ He) as Hs.
  pose proof (derives_ok _ Hu _ Hv _ D) as Hok. split; [|exact Hok].
  assert (E2 : engine_compile (t_source t) e = Ok (mktemplate (t_source t) (cscope 0 (ast_of t)))).
  { apply (compile_iff _ Hu _ Hs _ Hv Hc). eauto. }
  rewrite Ec in E2. injection E2 as E2. rewrite E2 at 1. reflexivity.
Qed.
Lemma derives_nonempty sx source s : user_syntax sx -> valid_utf8 source -> derives sx source s -> s <> [] -> source <> [].
Proof. intros Hu Hv D Hs E. apply (derives_empty sx Hu source Hv) in D; auto. Qed.

Theorem render_is_spec inner origin ast_of st : statements inner origin ast_of ->
  exists n, forall fuel, n <= fuel -> render inner fuel st = s_render inner ast_of st.
Proof.
  intros H. apply render_spec; [intros t Hp|]; apply (statements_sourced inner origin ast_of H); [now right|now left].
Qed.

Theorem spec_fine inner origin ast_of np st : statements inner origin ast_of ->
  (np = true -> (forall t, provided inner t -> sharing_all false (ast_of t)) /\ no_vars st) ->
  rall (outcome_ok inner ast_of np (ri_template inner) (ri_template_name inner)) (s_render inner ast_of st).
Proof.
  intros H Hnp. apply render_fine.
  - intros t Hp. split; [|split].
    + now apply (statements_sourced inner origin ast_of H).
    + destruct (H t Hp) as ((Hu & _ & Hv & _) & D). eapply derives_nonempty; eauto.
    + intros E. now apply Hnp.
  - intros E. now apply Hnp.
Qed.

(** ** The usual case: one engine, no template function *)
Lemma compile_source sr source t : compile_template sr source = Ok t -> t_source t = source.
Proof.
  unfold compile_template. destruct (parse_template sr source); cbn [bind]; try discriminate. destruct (compile_scope _ _); cbn [bind]; try discriminate. intros E. injection E as <-. reflexivity.
Qed.
Lemma engine_templates sx e : user_syntax sx -> engine_for sx e ->
  forall n t, In (n, t) (en_templates e) -> trims_ok sx (t_source t) -> template_of sx t.
Proof.
  intros Hu. induction 1 as [e H|m e He IH|f e He IH|m f e He IH|m f e He IH|m e He IH|m s e Hv He IH|m e He IH]; auto.
  - unfold engine_with_syntax in H. destruct (searcher_new sx); try discriminate. injection H as <-. intros n t [].
  - unfold add_template. destruct (engine_compile s e) as [t0| | |] eqn:E; auto. cbn [fst set_templates en_templates].
    intros n t [Hi|Hi]%In_map_insert; [|eauto]. injection Hi as -> ->. intros Hc.
    assert (t_source t0 = s) as <- by (eapply compile_source; exact E).
    repeat split; auto. eauto.
  - intros n t Hi. cbn [remove_template fst set_templates en_templates] in Hi. apply In_map_remove in Hi. eauto.
Qed.
Lemma compiled_template sx e source t : user_syntax sx -> trims_ok sx source -> engine_for sx e -> valid_utf8 source ->
  engine_compile source e = Ok t -> template_of sx t.
Proof.
  intros Hu Hc He Hv E. assert (t_source t = source) as <-.
  { apply (compile_iff _ Hu _ (engine_searcher _ _ He) _ Hv Hc) in E as (l & _ & ->). reflexivity. }
  repeat split; auto. eauto.
Qed.

(** A renderer over an engine and a template compiled by it (or taken from it). *)
Lemma engine_well_made sx e t name depth : user_syntax sx -> (forall n t', In (n, t') (en_templates e) -> trims_ok sx (t_source t')) -> engine_for sx e -> template_of sx t ->
  well_made (mkinner e t name depth None) (fun _ => sx).
Proof.
  intros Hu Hc He Ht t' [->|[(f & h & n & E & _)|(_ & n & E)]]; cbn in *; [exact Ht|discriminate|].
  apply map_get_In in E. eapply engine_templates; eauto.
Qed.
End RenderMain.
