(** Property C56: a compiled template may be rendered by another engine than the one
    that compiled it. *)
From Verif Require Import Base Utf8 Ext Errors Syntax AhoCorasick SearchSpec SyntaxSpec Value Ast Lexer LexSpec Wp
  GrammarSpec Parser AstOk Compiler CompileProof ParseMain Fmt Stack Filters Render Engine EngineSpec CompileFacts
  RenderSpec RenderProof RenderErr MapFacts RenderMain RenderObs Props2 Props3 Demo Meaning MeaningProof LayoutSpec LayoutProof Props14
  Props23.

(** ** Equality of compiled templates can be decided *)
Definition value_eq_dec : forall a b : value, {a = b} + {a <> b}.
Proof.
  fix go 1. intros a b. destruct a as [|x|x|x|x|x|x], b as [|y|y|y|y|y|y]; try (right; discriminate).
  - now left.
  - destruct (Bool.bool_dec x y); [left; congruence|right; congruence].
  - destruct (Z.eq_dec x y); [left; congruence|right; congruence].
  - assert ({x = y} + {x <> y}) as [|] by (decide equality; try apply Bool.bool_dec; [apply Z.eq_dec|decide equality]); [left; congruence|right; congruence].
  - destruct (str_eq_dec x y); [left; congruence|right; congruence].
  - assert ({x = y} + {x <> y}) as [|] by exact (list_eq_dec go x y); [left; congruence|right; congruence].
  - assert (H : forall p q : str * value, {p = q} + {p <> q}).
    { intros [k v] [k' v']. destruct (str_eq_dec k k'); [|right; congruence]. destruct (go v v'); [left; congruence|right; congruence]. }
    destruct (list_eq_dec H x y); [left; congruence|right; congruence].
Defined.
Lemma span_eq_dec (a b : span) : {a = b} + {a <> b}. Proof. decide equality; apply Nat.eq_dec. Defined.
Lemma ident_eq_dec (a b : ident) : {a = b} + {a <> b}. Proof. decide equality; apply span_eq_dec. Defined.
Lemma op_eq_dec (a b : access_op) : {a = b} + {a <> b}. Proof. decide equality. Defined.
Lemma access_eq_dec (a b : access) : {a = b} + {a <> b}. Proof. decide equality; [apply span_eq_dec|apply N.eq_dec|apply ident_eq_dec]. Defined.
Lemma member_eq_dec (a b : member) : {a = b} + {a <> b}. Proof. decide equality; [apply span_eq_dec|apply access_eq_dec|apply op_eq_dec]. Defined.
Lemma var_eq_dec (a b : var) : {a = b} + {a <> b}. Proof. exact (list_eq_dec member_eq_dec a b). Defined.
Lemma base_eq_dec (a b : base_expr) : {a = b} + {a <> b}. Proof. decide equality; [apply var_eq_dec|apply span_eq_dec|apply value_eq_dec]. Defined.
Lemma args_eq_dec (a b : args) : {a = b} + {a <> b}. Proof. decide equality; [apply span_eq_dec|exact (list_eq_dec base_eq_dec _ _)]. Defined.
Lemma loop_eq_dec (a b : loop_vars) : {a = b} + {a <> b}. Proof. decide equality; first [apply ident_eq_dec|apply span_eq_dec]. Defined.
Lemma ast_string_eq_dec (a b : ast_string) : {a = b} + {a <> b}. Proof. decide equality; [apply span_eq_dec|apply str_eq_dec]. Defined.
Lemma option_eq_dec {A} (d : forall a b : A, {a = b} + {a <> b}) (a b : option A) : {a = b} + {a <> b}. Proof. decide equality. Defined.
Lemma instr_eq_dec (a b : instr) : {a = b} + {a <> b}.
Proof.
  decide equality; first [apply (option_eq_dec Nat.eq_dec)|apply span_eq_dec|apply ident_eq_dec|apply loop_eq_dec|apply ast_string_eq_dec
    |apply var_eq_dec|apply value_eq_dec|apply (option_eq_dec args_eq_dec)].
Defined.
Lemma template_eq_dec (a b : template) : {a = b} + {a <> b}. Proof. decide equality; [exact (list_eq_dec instr_eq_dec _ _)|apply str_eq_dec]. Defined.

Section C56.
Context `{X : Ext}.

(** Everything that was compiled has significant tokens. *)
Lemma compiled_significant sx t : template_of sx t -> exists l, significant sx (t_source t) l.
Proof.
  intros (Hu & Hc & Hv & e & He & Ec).
  destruct (proj1 (proj1 (proj2 (C08_accepted_iff_grammatical sx e (t_source t) Hu Hc He Hv))) (ex_intro _ t Ec)) as (s & ts & T & G).
  destruct (proj1 (proj2 (g_without (t_source t))) _ _ G) as (ts' & Hw & _). exists (map (sense (t_source t)) ts'), ts, ts'. auto.
Qed.

Section Two.
Variables (sx1 sx2 : syntax) (e1 e2 : engine) (source1 : str) (t1 : template) (name : option str) (depth : option N).
Hypotheses (Hu1 : user_syntax sx1) (Hu2 : user_syntax sx2) (He1 : engine_for sx1 e1) (He2 : engine_for sx2 e2).
Hypotheses (Hv1 : valid_utf8 source1) (Hc1 : trims_ok sx1 source1).
Hypothesis (Hc : forall n t, In (n, t) (en_templates e2) -> trims_ok sx2 (t_source t)).
Hypothesis (Ec1 : engine_compile source1 e1 = Ok t1).
(** The other engine does not have the very same compiled template, unless by the same delimiters. *)
Hypothesis (Hnew : forall n, In (n, t1) (en_templates e2) -> sx1 = sx2).
Definition root_origin (t : template) : syntax := if template_eq_dec t t1 then sx1 else sx2.

Lemma origin_root : root_origin t1 = sx1.
Proof. unfold root_origin. destruct (template_eq_dec t1 t1); congruence. Qed.
Lemma origin_registered n t : In (n, t) (en_templates e2) -> root_origin t = sx2.
Proof. intros Hi. unfold root_origin. destruct (template_eq_dec t t1) as [->|]; eauto. Qed.
Lemma foreign_well_made : well_made (mkinner e2 t1 name depth None) root_origin.
Proof.
  intros t [->|[(f & h & n & E & _)|(_ & n & E)]]; cbn in *; [|discriminate|].
  - rewrite origin_root. exact (compiled_template sx1 e1 source1 t1 Hu1 Hc1 He1 Hv1 Ec1).
  - apply map_get_In in E. rewrite (origin_registered n t E). eapply engine_templates; eauto.
Qed.
Lemma foreign_provided t s : provided (mkinner e2 t1 name depth None) t -> derives (root_origin t) (t_source t) s ->
  (t = t1 /\ derives sx1 source1 s) \/ exists n, In (n, t) (en_templates e2) /\ derives sx2 (t_source t) s.
Proof.
  intros [->|[(f & h & n & E & _)|(_ & n & E)]] D; cbn in *; [|discriminate|].
  - left. split; [reflexivity|]. rewrite origin_root in D. rewrite (compile_source _ _ _ Ec1) in D. exact D.
  - apply map_get_In in E. rewrite (origin_registered n t E) in D. right. eauto.
Qed.
End Two.

(** C56.  A template compiled by one engine and rendered by another, with other delimiters,
    other functions and other templates, gives what the other engine gives for the same statements
    written with its delimiters, except for places in errors; for [io::Write]rs too. *)
Theorem C56_other_engine sx1 e1 source1 t1 sx2 e2 source2 t2 name depth g :
  user_syntax sx1 -> engine_for sx1 e1 -> valid_utf8 source1 -> trims_ok sx1 source1 -> engine_compile source1 e1 = Ok t1 ->
  user_syntax sx2 -> engine_for sx2 e2 -> valid_utf8 source2 -> trims_ok sx2 source2 -> engine_compile source2 e2 = Ok t2 ->
  alike sx1 source1 sx2 source2 ->
  (forall n t, In (n, t) (en_templates e2) -> trims_ok sx2 (t_source t)) ->
  (forall n, In (n, t1) (en_templates e2) -> sx1 = sx2) ->
  (forall s, derives sx1 source1 s -> sharing_all false s) ->
  (forall n t s, In (n, t) (en_templates e2) -> derives sx2 (t_source t) s -> sharing_all false s) ->
  (forall r1 r2, renders (mkinner e2 t1 name depth None) g r1 -> renders (mkinner e2 t2 name depth None) g r2 -> without_place r1 = without_place r2) /\
  forall k w p1 p2, writes (mkinner e2 t1 name depth None) g k w p1 -> writes (mkinner e2 t2 name depth None) g k w p2 ->
    fst p1 = fst p2 /\ without_place (snd p1) = without_place (snd p2).
Proof.
  intros Hu1 He1 Hv1 Hc1 Ec1 Hu2 He2 Hv2 Hc2 Ec2 Ha Hc Hnew Hs1 Hs2.
  refine (C41_layout (mkinner e2 t1 name depth None) (root_origin sx1 sx2 t1) (mkinner e2 t2 name depth None) (fun _ => sx2) g _ _ _ _).
  - exact (foreign_well_made sx1 sx2 e1 e2 source1 t1 name depth Hu1 Hu2 He1 He2 Hv1 Hc1 Hc Ec1 Hnew).
  - apply engine_well_made; auto. exact (compiled_template sx2 e2 source2 t2 Hu2 Hc2 He2 Hv2 Ec2).
  - unfold alike_renderers, alike_templates. cbn. split; [reflexivity|]. split; [reflexivity|]. split; [reflexivity|]. split; [reflexivity|]. split.
    + rewrite origin_root, (compile_source _ _ _ Ec1), (compile_source _ _ _ Ec2). exact Ha.
    + intros n. destruct (map_get n (en_templates e2)) as [t|] eqn:E; [|exact I]. apply map_get_In in E.
      rewrite (origin_registered sx1 sx2 e2 t1 Hnew n t E). destruct (compiled_significant sx2 t) as (l & L); [eapply engine_templates; eauto|]. now exists l.
  - intros t s Hp D. destruct (foreign_provided sx1 sx2 e1 e2 source1 t1 name depth Ec1 Hnew t s Hp D) as [(-> & D')|(n & Hi & D')]; eauto.
Qed.

(** C56.  In particular it ends, and does not panic. *)
Theorem C56_no_panic sx1 e1 source1 t1 sx2 e2 name depth g :
  user_syntax sx1 -> engine_for sx1 e1 -> valid_utf8 source1 -> trims_ok sx1 source1 -> engine_compile source1 e1 = Ok t1 ->
  user_syntax sx2 -> engine_for sx2 e2 ->
  (forall n t, In (n, t) (en_templates e2) -> trims_ok sx2 (t_source t)) ->
  (forall n, In (n, t1) (en_templates e2) -> sx1 = sx2) ->
  (forall s, derives sx1 source1 s -> sharing_all false s) ->
  (forall n t s, In (n, t) (en_templates e2) -> derives sx2 (t_source t) s -> sharing_all false s) ->
  finished (initial_stack g) ->
  (exists r, renders (mkinner e2 t1 name depth None) g r /\ finished r) /\
  forall k w, exists p, writes (mkinner e2 t1 name depth None) g k w p /\ finished (snd p).
Proof.
  intros Hu1 He1 Hv1 Hc1 Ec1 Hu2 He2 Hc Hnew Hs1 Hs2 Hg.
  assert (W : well_made (mkinner e2 t1 name depth None) (root_origin sx1 sx2 t1)) by exact (foreign_well_made sx1 sx2 e1 e2 source1 t1 name depth Hu1 Hu2 He1 He2 Hv1 Hc1 Hc Ec1 Hnew).
  assert (Ho : initial_stack g <> OutOfFuel) by (intros E; rewrite E in Hg; exact Hg).
  destruct (C12_rendering_terminates _ _ g W Ho) as ((r & R) & T).
  destruct (C13_rendering_never_panics_partial _ _ g W) as (N1 & N2); [|exact Hg|].
  - intros t s Hp D. destruct (foreign_provided sx1 sx2 e1 e2 source1 t1 name depth Ec1 Hnew t s Hp D) as [(-> & D')|(n & Hi & D')]; eauto.
  - split; [eauto|]. intros k w. destruct (T k w) as (p & P). eauto.
Qed.

(** C56.  With the same delimiters it is the very template the other engine compiles, so that nothing
    at all depends on which of the two compiled it. *)
Theorem C56_same_delimiters sx e1 e2 source t : engine_for sx e1 -> engine_for sx e2 ->
  engine_compile source e1 = Ok t -> engine_compile source e2 = Ok t.
Proof. intros H1 H2 E. rewrite <- (proj1 (C25_compile_from_syntax sx e1 e2 source [] H1 H2)). exact E. Qed.
End C56.
Print Assumptions C56_other_engine.
Print Assumptions C56_no_panic.
Print Assumptions C56_same_delimiters.

(** ** A concrete case *)
Local Existing Instance ascii_ext.
(** The demo page, compiled by the demo engine with the usual delimiters, rendered by an engine
    with other delimiters, that has its own "row" and "foot". *)
Definition other_page : string := "<% for item in items %><!-- rows --><%-  include ""row""%><%endfor %><%with title as t%> ${   t   }<%endwith%> <%include ""foot"" with user%><!-- the end -->".
Definition shares (e : engine) (source : str) : bool :=
  match parse_template (en_searcher e) source with Ok l => forallb (confinedb false) (bare source l) | _ => true end.
Lemma shares_ok sx e source s : user_syntax sx -> trims_ok sx source -> engine_for sx e -> valid_utf8 source ->
  shares e source = true -> derives sx source s -> sharing_all false s.
Proof.
  intros Hu Hc He Hv E D. unfold shares in E.
  rewrite (proj2 (proj1 (C08_accepted_iff_grammatical sx e source Hu Hc He Hv) s) D) in E.
  apply confinedb_all, confined_all_bare in E. exact E.
Qed.
Definition page_source : string := "{% for item in items %}{% include ""row"" %}{% endfor %}{% with title as t %} {{ t }}{% endwith %} {% include ""foot"" with user %}".
Definition foot_engine : engine := adds [("foot"%string, "[${name}]"%string)] other_engine.
Lemma foot_for : engine_for other_syntax foot_engine.
Proof. apply adds_for; [vm_compute; reflexivity|exact other_for]. Qed.
Definition from_demo : template := match engine_compile (s2b page_source) demo_engine with Ok t => t | _ => mktemplate [] [] end.
Definition from_foot : template := match engine_compile (s2b other_page) foot_engine with Ok t => t | _ => mktemplate [] [] end.
Lemma other_ok source : trims_ok other_syntax source.
Proof. apply LexProof.closers_trims, other_closers_ok. Qed.
Lemma no_source_in (l : list (str * template)) t : forallb (fun p => negb (str_eqb (t_source (snd p)) (t_source t))) l = true -> forall n, ~ In (n, t) l.
Proof. rewrite forallb_forall. intros H n Hi. specialize (H _ Hi). cbn [snd] in H. rewrite str_eqb_refl in H. discriminate. Qed.
Lemma all_share (l : list (str * template)) e : forallb (fun p => asciib (t_source (snd p)) && shares e (t_source (snd p))) l = true ->
  forall n t, In (n, t) l -> asciib (t_source t) = true /\ shares e (t_source t) = true.
Proof. rewrite forallb_forall. intros H n t Hi. specialize (H _ Hi). cbn [snd] in H. now apply andb_prop in H. Qed.
Example C56_case :
  (* the hypotheses *)
  engine_compile (s2b page_source) demo_engine = Ok from_demo /\ engine_compile (s2b other_page) foot_engine = Ok from_foot /\
  alike default_syntax (s2b page_source) other_syntax (s2b other_page) /\
  (forall n, In (n, from_demo) (en_templates foot_engine) -> default_syntax = other_syntax) /\
  (forall s, derives default_syntax (s2b page_source) s -> sharing_all false s) /\
  (forall n t s, In (n, t) (en_templates foot_engine) -> derives other_syntax (t_source t) s -> sharing_all false s) /\
  (* and what comes out, by the other engine and by its own *)
  to_string 200 (template_renderer from_demo foot_engine) (GBorrowed demo_value) = Ok (s2b "<x>, <7> T [ann]") /\
  to_string 200 (template_renderer from_foot foot_engine) (GBorrowed demo_value) = Ok (s2b "<x>, <7> T [ann]") /\
  to_string 200 (template_renderer from_demo demo_engine) (GBorrowed demo_value) = Ok (s2b "<x>, <7> T -ANN-").
Proof.
  split; [vm_compute; reflexivity|]. split; [vm_compute; reflexivity|]. split.
  { assert (V1 : asciib (s2b page_source) = true) by (vm_compute; reflexivity). assert (V2 : asciib (s2b other_page) = true) by (vm_compute; reflexivity).
    destruct (gist demo_engine (s2b page_source)) as [l|] eqn:G1; [|vm_compute in G1; discriminate G1].
    refine (gist_alike _ _ _ _ _ _ default_user_syntax (default_trims_ok _) demo_for (asciib_valid _ V1) other_user_syntax (other_ok _) foot_for (asciib_valid _ V2) l G1 _).
    rewrite <- G1. vm_compute. reflexivity. }
  split. { intros n Hi. exfalso. revert n Hi. apply no_source_in. vm_compute. reflexivity. }
  split. { intros s D. refine (shares_ok default_syntax demo_engine (s2b page_source) s default_user_syntax (default_trims_ok _) demo_for (asciib_valid _ _) _ D); vm_compute; reflexivity. }
  split.
  { assert (A : forallb (fun p => asciib (t_source (snd p)) && shares foot_engine (t_source (snd p))) (en_templates foot_engine) = true) by (vm_compute; reflexivity).
    intros n t s Hi D. destruct (all_share _ _ A n t Hi) as (A1 & A2). exact (shares_ok other_syntax foot_engine (t_source t) s other_user_syntax (other_ok _) foot_for (asciib_valid _ A1) A2 D). }
  split; [vm_compute; reflexivity|]. split; vm_compute; reflexivity.
Qed.
