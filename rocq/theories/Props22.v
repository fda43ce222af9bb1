(** C49: more variables, functions, templates or include depth do not change a
    rendering that succeeds without them. *)
From Verif Require Import Base Utf8 Ext Errors Syntax AhoCorasick SearchSpec SyntaxSpec Value Ast Lexer LexSpec Wp
  GrammarSpec Parser AstOk Compiler CompileProof ParseMain Fmt Stack Filters Render Engine EngineSpec CompileFacts
  RenderSpec RenderProof RenderErr MapFacts RenderMain RenderObs UseSpec Props2 Props3 Demo Props14 Props19 ExtendSpec Extend.

Section C49.
Context `{X : Ext}.

Lemma context_stack g1 g2 : context_extends g1 g2 -> exists st1 st2, initial_stack g1 = Ok st1 /\ initial_stack g2 = Ok st2 /\ stack_grows st1 st2.
Proof.
  assert (I : forall g v, given g v -> initial_stack g = Ok [FrScope (Borrowed v)]) by (now destruct 1).
  intros [h1 h2 v1 v2 G1 G2 Hv|f1 f2 Hf].
  - rewrite (I _ _ G1), (I _ _ G2). do 2 eexists. split; [reflexivity|]. split; [reflexivity|]. now constructor.
  - cbn. do 2 eexists. split; [reflexivity|]. split; [reflexivity|]. now constructor.
Qed.
Lemma extends_provided inner1 inner2 t : renderer_extends inner1 inner2 -> provided inner1 t -> provided inner2 t.
Proof.
  intros HE [->|Hn]; [left; apply (ext_root _ _ HE)|]. right. unfold named in *.
  assert (O : exists n, offers inner2 [] n t \/ exists h, offers inner2 h n t).
  { destruct Hn as [(f & h & n & E & F)|(E & n & F)]; exists n; right.
    - exists h. apply (ext_templates _ _ HE h h); auto. unfold offers. now rewrite E.
    - exists []. apply (ext_templates _ _ HE [] []); auto. unfold offers. now rewrite E. }
  destruct O as (n & [O|(h & O)]); unfold offers in O; destruct (ri_template_fn inner2) as [f|]; eauto 8.
Qed.

(** C49.  A renderer whose engine has at least the functions, templates and include depth of another
    renderer, given a context with at least the variables, renders the same text whenever the other
    one succeeds; to a string and to a writer. *)
Theorem C49_extension inner1 inner2 origin g1 g2 :
  well_made inner2 origin -> renderer_extends inner1 inner2 -> context_extends g1 g2 ->
  (forall s, renders inner1 g1 (Ok s) -> renders inner2 g2 (Ok s)) /\
  forall k w w', writes inner1 g1 k w (w', Ok tt) -> writes inner2 g2 k w (w', Ok tt).
Proof.
  intros Hw HE HC. destruct (statements_exist _ _ Hw) as (ast_of & H2).
  assert (H1 : statements inner1 origin ast_of) by (intros t Hp; apply H2; eapply extends_provided; eauto).
  destruct (context_stack _ _ HC) as (st1 & st2 & E1 & E2 & Hst).
  assert (G : grows eq (s_render inner1 ast_of st1) (s_render inner2 ast_of st2)).
  { apply render_grows; auto. intros t Hp. apply (statements_sourced inner1 origin ast_of H1 t Hp). }
  destruct (C11_compiled_means_source inner1 origin ast_of g1 st1 H1 E1) as (R1 & W1).
  destruct (C11_compiled_means_source inner2 origin ast_of g2 st2 H2 E2) as (R2 & W2). split.
  - intros s Hs. pose proof (renders_fun _ _ _ _ Hs R1) as K. unfold string_result in K.
    replace (Ok s) with (string_result (s_render inner2 ast_of st2)); [exact R2|]. unfold string_result.
    destruct (run_string [] (s_render inner1 ast_of st1)) as [o [[]| | |]] eqn:E; try discriminate.
    rewrite (grows_string _ _ G _ _ _ E). symmetry. exact K.
  - intros k w w' Hs. pose proof (writes_fun _ _ _ _ _ _ Hs (W1 k w)) as K. unfold writer_result in K.
    replace (w', Ok tt) with (writer_result k w (s_render inner2 ast_of st2)); [apply W2|]. unfold writer_result.
    destruct (run k w None (s_render inner1 ast_of st1)) as [[o c] [[]| | |]] eqn:E; try (destruct c; discriminate).
    rewrite (grows_run _ _ _ G _ _ _ _ _ E). symmetry. exact K.
Qed.

Lemma has_all_insert {V} k (v : V) m : map_get k m = None -> has_all m (map_insert k v m).
Proof.
  intros E k' v' E'. destruct (list_eq_dec Byte.byte_eq_dec k k') as [<-|N]; [congruence|].
  now rewrite map_get_insert_other by auto.
Qed.
Lemma adds_new_has e1 e2 : adds_new e1 e2 ->
  en_default_formatter e1 = en_default_formatter e2 /\ has_all (en_functions e1) (en_functions e2) /\
  has_all (en_templates e1) (en_templates e2) /\ (en_max_include_depth e1 <= en_max_include_depth e2)%N.
Proof.
  assert (R : forall V (m : list (str * V)), has_all m m) by (intros V m k v; auto).
  induction 1 as [e|e name source e' Hn E|e name f e' E|e name f e' E|e n Hn|e1 e2 e3 _ IH1 _ IH2].
  - repeat split; auto. apply N.le_refl.
  - unfold add_template in E. destruct (engine_compile source e) as [t| | |]; try discriminate. injection E as <-. cbn.
    repeat split; auto; [|apply N.le_refl]. apply has_all_insert. unfold engine_get_template in Hn. now destruct (map_get name (en_templates e)).
  - unfold add_filter in E. injection E as <- E. cbn. repeat split; auto; [|apply N.le_refl]. apply has_all_insert. now destruct (map_get name (en_functions e)).
  - unfold add_formatter in E. injection E as <- E. cbn. repeat split; auto; [|apply N.le_refl]. apply has_all_insert. now destruct (map_get name (en_functions e)).
  - cbn. repeat split; auto.
  - destruct IH1 as (A1 & A2 & A3 & A4), IH2 as (B1 & B2 & B3 & B4). split; [congruence|]. split; [|split; [|lia]]; intros k v K; auto.
Qed.
(** C49.  Registering templates, filters and formatters under new names, or raising the include limit,
    does not change what a renderer of the engine yields if it succeeds. *)
Theorem C49_adding inner e' origin g1 g2 :
  well_made (with_engine e' inner) origin -> adds_new (ri_engine inner) e' -> context_extends g1 g2 ->
  (forall s, renders inner g1 (Ok s) -> renders (with_engine e' inner) g2 (Ok s)) /\
  forall k w w', writes inner g1 k w (w', Ok tt) -> writes (with_engine e' inner) g2 k w (w', Ok tt).
Proof.
  intros Hw Ha HC. apply C49_extension with (origin := origin); auto. destruct (adds_new_has _ _ Ha) as (A1 & A2 & A3 & A4).
  split; cbn; auto.
  - intros h1 h2 name t Hh. unfold offers. cbn. destruct (ri_template_fn inner) as [f|]; [|apply A3].
    rewrite Hh by discriminate. auto.
  - unfold max_include_depth. cbn. destruct (ri_max_include_depth inner); [apply N.le_refl|exact A4].
Qed.
End C49.
Print Assumptions C49_extension.
Print Assumptions C49_adding.

(** ** A concrete case: the templates of Demo.v in an engine with one more template and one more
    formatter and a higher limit, and with one more variable. *)
Local Existing Instance ascii_ext.
Definition shout : formatter := fun _ => FWrite (s2b "!") FDone (FFail None).
Definition bigger_engine : engine :=
  set_max_include_depth 100 (fst (add_formatter (s2b "shout") shout (adds [("extra"%string, "{{ name | shout }}{% include ""row"" %}"%string)] demo_engine))).
Definition bigger_value : value := match demo_value with VMap m => VMap (map_insert (s2b "more") (VInt 1) m) | v => v end.
Lemma bigger_for : engine_for default_syntax bigger_engine.
Proof. apply ef_depth, ef_formatter, adds_for; [vm_compute; reflexivity|]. exact demo_for. Qed.
Lemma add_ok name source e : match snd (add_template name source e) with Ok _ => true | _ => false end = true ->
  add_template name source e = (fst (add_template name source e), Ok tt).
Proof. destruct (add_template name source e) as [e' [[]| | |]]; cbn; congruence. Qed.
Lemma add_fresh name f e : map_get name (en_functions e) = None -> add_formatter name f e = (fst (add_formatter name f e), None).
Proof. intros E. unfold add_formatter. rewrite E. reflexivity. Qed.
Lemma bigger_adds : adds_new demo_engine bigger_engine.
Proof.
  eapply an_more; [|eapply an_more].
  - apply (an_template demo_engine (s2b "extra") (s2b "{{ name | shout }}{% include ""row"" %}")); [vm_compute; reflexivity|].
    apply add_ok. vm_compute. reflexivity.
  - apply (an_formatter _ (s2b "shout") shout). apply add_fresh. vm_compute. reflexivity.
  - apply an_depth. vm_compute. discriminate.
Qed.
Example C49_case :
  well_made (with_engine bigger_engine (demo "page")) (fun _ => default_syntax) /\
  adds_new (ri_engine (demo "page")) bigger_engine /\
  context_extends (GBorrowed demo_value) (GBorrowed bigger_value) /\
  to_string 200 (with_engine bigger_engine (demo "page")) (GBorrowed bigger_value) = Ok (s2b "<x>, <7> T -ANN-").
Proof.
  destruct (map_get (s2b "page") (en_templates demo_engine)) as [t|] eqn:E; [|vm_compute in E; discriminate E].
  pose proof (proj1 (proj2 (proj2 (adds_new_has _ _ bigger_adds))) _ _ E) as E'.
  assert (G : engine_get_template (s2b "page") bigger_engine <> None) by (unfold engine_get_template; rewrite E'; discriminate).
  split; [|split; [|split]].
  - unfold demo. rewrite (renderer_shape _ _ _ E). change (with_engine bigger_engine _) with (mkinner bigger_engine t (Some (s2b "page")) None None).
    rewrite <- (renderer_shape _ _ _ E'). apply renderer_well_made; [exact bigger_for|exact G].
  - unfold demo. rewrite (renderer_shape _ _ _ E). exact bigger_adds.
  - apply (ce_value _ _ demo_value bigger_value); [constructor|constructor|]. apply ve_map. apply has_all_insert. vm_compute. reflexivity.
  - vm_compute. reflexivity.
Qed.
(** The conditions are needed: a new key inside a value is a different value, a template that
    failed may succeed. *)
Definition nested_engine : engine :=
  match engine_new with Ok e => adds [("page"%string, "{{ user?.nick }}"%string)] e | _ => mkengine [] fmt_default [] [] 0 end.
Example C49_needed :
  to_string 50 (renderer_of nested_engine "page") (GBorrowed (VMap [(s2b "user", VMap [])])) = Ok [] /\
  to_string 50 (renderer_of nested_engine "page") (GBorrowed (VMap [(s2b "user", VMap [(s2b "nick", VInt 7)])])) = Ok (s2b "7") /\
  match to_string 50 (renderer_of nested_engine "page") (GBorrowed (VMap [])) with Err _ => True | _ => False end.
Proof. split; [|split]; vm_compute; trivial. Qed.
