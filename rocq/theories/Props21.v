(** More about C13: where rendering can panic. *)
From Verif Require Import Base Utf8 Ext Errors Syntax AhoCorasick SearchSpec SyntaxSpec Value Ast Lexer LexSpec Wp
  GrammarSpec Parser AstOk Compiler CompileProof ParseMain Fmt Stack Filters Render Engine EngineSpec CompileFacts
  RenderSpec RenderProof RenderErr MapFacts RenderMain RenderObs Props2 Props3 Demo Props14 PanicSpec PanicProof.

Section C13.
Context `{X : Ext}.

(** C13 (partial).  Rendering does not panic, also with includes inside [with] blocks, as long as the
    place of each name of a [with] variable is a range, between characters, of the source of every
    template that is included in that block. *)
Theorem C13_foreign_names_partial inner origin ast_of g :
  statements inner origin ast_of ->
  (forall t sp, provided inner t -> in_sight inner ast_of t sp -> span_ok (t_source t) sp) ->
  finished (initial_stack g) ->
  (forall r, renders inner g r -> finished r) /\ forall k w p, writes inner g k w p -> finished (snd p).
Proof.
  intros H Hs Hg.
  destruct (initial_stack g) as [st|e| |] eqn:E; cbn in Hg; try contradiction.
  - assert (F : rall (fun r => finished r) (s_render inner ast_of st)).
    { apply render_fin; auto.
      - intros t Hp. split; [apply (statements_sourced inner origin ast_of H t Hp)|].
        destruct (H t Hp) as ((Hu & _ & Hv & _) & D). eapply derives_nonempty; eauto.
      - destruct (initial_stack_shape _ _ E) as [(v & ->)|(f & ->)]; unfold sees; cbn; repeat constructor. }
    destruct (C11_compiled_means_source inner origin ast_of g st H E) as (H1 & H2). split.
    + intros r Hr. rewrite (renders_fun _ _ _ _ Hr H1).
      pose proof (rall_string _ _ F []) as K. unfold string_result.
      destruct (run_string [] _) as [s [[]| | |]]; cbn in *; auto.
    + intros k w p Hp. rewrite (writes_fun _ _ _ _ _ _ Hp (H2 k w)).
      pose proof (rall_run _ k _ F w None) as K. unfold writer_result.
      destruct (run k w None _) as [[w' [c|]] [[]| | |]]; cbn in *; auto.
  - split.
    + intros r (_ & n & Hr). rewrite <- (Hr n), <- (Nat.add_0_r n) by auto. unfold to_string. now rewrite E.
    + intros k w p (_ & n & Hr). rewrite <- (Hr n) by auto. unfold to_writer. now rewrite E.
Qed.
End C13.
Print Assumptions C13_foreign_names_partial.

(** ** A concrete case: an include inside a [with] block; the name of the variable, at 13..14, is a
    range of the included source (and happens to have another name there). *)
Local Existing Instance ascii_ext.
Definition roomy_engine : engine :=
  match engine_new with
  | Ok e => adds [("outer"%string, "{% with x as n %}{% include ""inner"" %}{% endwith %}"%string); ("inner"%string, "Dear friend, {{ y }}"%string)] e
  | _ => mkengine [] fmt_default [] [] 0
  end.
Lemma roomy_for : engine_for default_syntax roomy_engine.
Proof.
  unfold roomy_engine. destruct engine_new as [e| | |] eqn:E; try (vm_compute in E; discriminate).
  apply adds_for; [vm_compute; reflexivity|]. now apply ef_new.
Qed.
Definition roomy := renderer_of roomy_engine "outer".
Definition roomy_ast (t : template) : scope := match parse_template (en_searcher roomy_engine) (t_source t) with Ok l => l | _ => [] end.
Lemma roomy_well_made : well_made roomy (fun _ => default_syntax).
Proof. apply renderer_well_made; [exact roomy_for|]. intros E. vm_compute in E. discriminate E. Qed.
Lemma roomy_statements : statements roomy (fun _ => default_syntax) roomy_ast.
Proof.
  intros t Hp. pose proof (roomy_well_made t Hp) as Ht. split; [exact Ht|]. destruct Ht as (Hu & Hc & Hv & e & He & Ec). unfold roomy_ast.
  pose proof (engine_searcher _ _ roomy_for) as Hs. pose proof (engine_searcher _ _ He) as Hs'. assert (Es : en_searcher roomy_engine = en_searcher e) by congruence.
  destruct (proj1 (proj1 (proj2 (C08_accepted_iff_grammatical _ e (t_source t) Hu Hc He Hv))) (ex_intro _ t Ec)) as (s & D).
  rewrite Es. apply (C08_accepted_iff_grammatical _ e (t_source t) Hu Hc He Hv) in D as D'. rewrite D'. exact D.
Qed.
(** For a renderer of an engine: enough that the names shared with includes fit in every template. *)
Definition fits_at (s : str) (sp : span) : bool := (sp_m sp <=? sp_n sp) && boundary s (sp_m sp) && boundary s (sp_n sp).
Lemma fits_ok s sp : fits_at s sp = true -> span_ok s sp.
Proof.
  unfold fits_at, span_ok. intros E. apply andb_prop in E as [E V]. apply andb_prop in E as [E1 E2]. apply Nat.leb_le in E1.
  split; [exact E1|split; [exact E2|exact V]].
Qed.
Definition shared_names (sl : scope) : list span := flat_map (fun p => map id_span (snd p)) (flat_map (shares []) sl).
Lemma shared_in sl name ws n : In (name, ws) (flat_map (shares []) sl) -> In n ws -> In (id_span n) (shared_names sl).
Proof. intros H K. unfold shared_names. apply in_flat_map. exists (name, ws). split; [exact H|]. apply in_map. exact K. Qed.
Lemma in_sight_shared inner ast_of t sp : in_sight inner ast_of t sp -> exists t', provided inner t' /\ In sp (shared_names (ast_of t')).
Proof. induction 1 as [t name ws n t' Hp H K R|]; [|exact IHin_sight]. exists t. split; [exact Hp|]. eapply shared_in; eauto. Qed.
Lemma provided_in e name t : engine_get_template (s2b name) e <> None -> provided (renderer_of e name) t -> In t (map snd (en_templates e)).
Proof.
  intros Hg Hp. assert (exists n, In (n, t) (en_templates e)) as (n & Hn).
  { unfold renderer_of, engine_get_template in *. destruct (map_get (s2b name) (en_templates e)) as [t0|] eqn:E; [|now destruct Hg].
    destruct Hp as [->|[(f & h & n & F & _)|(_ & n & F)]]; [|discriminate F|].
    - exists (s2b name). now apply map_get_In.
    - exists n. now apply map_get_In. }
  apply (in_map snd) in Hn. exact Hn.
Qed.
Definition all_fit (ast_of : template -> scope) (l : list template) : bool :=
  forallb (fun t => forallb (fun t' => forallb (fits_at (t_source t)) (shared_names (ast_of t'))) l) l.
Lemma all_fit_sight e name ast_of : engine_get_template (s2b name) e <> None -> all_fit ast_of (map snd (en_templates e)) = true ->
  forall t sp, provided (renderer_of e name) t -> in_sight (renderer_of e name) ast_of t sp -> span_ok (t_source t) sp.
Proof.
  intros Hg A t sp Hp Hs. destruct (in_sight_shared _ _ _ _ Hs) as (t' & Hp' & K).
  apply fits_ok. unfold all_fit in A. rewrite forallb_forall in A. specialize (A _ (provided_in _ _ _ Hg Hp)).
  rewrite forallb_forall in A. specialize (A _ (provided_in _ _ _ Hg Hp')). rewrite forallb_forall in A. exact (A _ K).
Qed.
Definition roomy_value : value := VMap [(s2b "x", VInt 1); (s2b "y", VStr (s2b "Ann"))].
Example C13_foreign_names_case :
  statements roomy (fun _ => default_syntax) roomy_ast /\
  (forall t sp, provided roomy t -> in_sight roomy roomy_ast t sp -> span_ok (t_source t) sp) /\
  (exists t, provided roomy t /\ in_sight roomy roomy_ast t (mkspan 13 14)) /\
  finished (initial_stack (GBorrowed roomy_value)) /\
  to_string 200 roomy (GBorrowed roomy_value) = Ok (s2b "Dear friend, Ann").
Proof.
  assert (G : engine_get_template (s2b "outer") roomy_engine <> None) by (intros E; vm_compute in E; discriminate E).
  split; [exact roomy_statements|]. split.
  { apply all_fit_sight; [exact G|]. vm_compute. reflexivity. }
  split.
  { destruct (map_get (s2b "inner") (en_templates roomy_engine)) as [t|] eqn:Ei; [|vm_compute in Ei; discriminate Ei].
    destruct (map_get (s2b "outer") (en_templates roomy_engine)) as [t0|] eqn:Eo; [|vm_compute in Eo; discriminate Eo].
    exists t. unfold roomy. rewrite (renderer_shape _ _ _ Eo). split.
    - right. right. split; [reflexivity|]. exists (s2b "inner"). exact Ei.
    - assert (E0 : t_source t0 = s2b "{% with x as n %}{% include ""inner"" %}{% endwith %}").
      { assert (Es : option_map t_source (map_get (s2b "outer") (en_templates roomy_engine)) = Some (s2b "{% with x as n %}{% include ""inner"" %}{% endwith %}")) by (vm_compute; reflexivity).
        rewrite Eo in Es. cbn [option_map] in Es. congruence. }
      eapply (is_with _ _ t0 (s2b "inner") [mkident (mkspan 13 14)]  (mkident (mkspan 13 14)) t).
      + left. reflexivity.
      + unfold roomy_ast. rewrite E0. vm_compute. left. reflexivity.
      + left. reflexivity.
      + exact Ei. }
  split; [vm_compute; exact I|]. vm_compute. reflexivity.
Qed.
