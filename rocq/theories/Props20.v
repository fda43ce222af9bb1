(** Property C48: an [include] is its template, written out. *)
From Verif Require Import Base Utf8 Ext Errors Syntax AhoCorasick SearchSpec SyntaxSpec Value Ast Lexer LexSpec Wp
  GrammarSpec Parser AstOk Compiler CompileProof ParseMain Fmt Stack Filters Render Engine EngineSpec CompileFacts
  RenderSpec RenderProof RenderErr MapFacts RenderMain RenderObs Props2 Props3 Demo Meaning MeaningProof LayoutSpec LayoutProof
  RefactorSpec Refactor Inline Props14 Props19.

Section C48.
Context `{X : Ext}.

(** The statements of the template [n] of the engine of a renderer. *)
Definition template_statements (inner : renderer_inner) (origin : template -> syntax) (n : str) (b : list pstmt) : Prop :=
  exists t l, map_get n (en_templates (ri_engine inner)) = Some t /\ derives (origin t) (t_source t) l /\ b = bare (t_source t) l.
(** The second template is the first with some [include]s written out. *)
Definition written_out (inner1 : renderer_inner) (origin1 origin2 : template -> syntax) (t1 t2 : template) : Prop :=
  exists l1 l2, derives (origin1 t1) (t_source t1) l1 /\ derives (origin2 t2) (t_source t2) l2 /\
    inlines (template_statements inner1 origin1) (bare (t_source t1) l1) (bare (t_source t2) l2).

(** C48.  Replacing [include]s (without [with]) by the statements of the template they
    name changes nothing, except that errors have another place and may name another
    template, and that there may be fewer errors about the depth of includes. *)
Theorem C48_inlining inner1 origin1 inner2 origin2 g :
  well_made inner1 origin1 -> well_made inner2 origin2 ->
  ri_template_fn inner1 = None -> ri_template_fn inner2 = None ->
  related_renderers (written_out inner1 origin1 origin2) inner1 inner2 ->
  (forall t s, provided inner1 t -> derives (origin1 t) (t_source t) s -> sharing_all false s) ->
  (forall t s, provided inner2 t -> derives (origin2 t) (t_source t) s -> sharing_all false s) ->
  forall r1 r2, renders inner1 g r1 -> renders inner2 g r2 ->
  match r1 with
  | Ok out => r2 = Ok out
  | Err e1 => too_deep (max_include_depth inner1) e1 \/ exists e2, r2 = Err e2 /\ e_kind e1 = e_kind e2 /\ e_reason e1 = e_reason e2
  | r => r2 = r
  end.
Proof.
  intros W1 W2 F1 F2 (A1 & A2 & A3 & A4 & A5 & A6) S1 S2 r1 r2 R1 R2. rewrite F1, F2 in A6.
  destruct (statements_exist _ _ W1) as (ast1 & H1). destruct (statements_exist _ _ W2) as (ast2 & H2).
  assert (U1 : forall t l, provided inner1 t -> derives (origin1 t) (t_source t) l -> l = ast1 t).
  { intros t l P D. destruct (H1 t P) as ((Hu & Hc & Hv & e1 & He1 & _) & D'). exact (proj2 (proj2 (C08_accepted_iff_grammatical _ _ _ Hu Hc He1 Hv)) _ _ D D'). }
  assert (U2 : forall t l, provided inner2 t -> derives (origin2 t) (t_source t) l -> l = ast2 t).
  { intros t l P D. destruct (H2 t P) as ((Hu & Hc & Hv & e1 & He1 & _) & D'). exact (proj2 (proj2 (C08_accepted_iff_grammatical _ _ _ Hu Hc He1 Hv)) _ _ D D'). }
  assert (B : forall t1 t2, provided inner1 t1 -> provided inner2 t2 -> written_out inner1 origin1 origin2 t1 t2 ->
    inlines (template_statements inner1 origin1) (bare (t_source t1) (ast1 t1)) (bare (t_source t2) (ast2 t2))).
  { intros t1 t2 P1 P2 (l1 & l2 & D1 & D2 & R). rewrite <- (U1 t1 l1 P1 D1), <- (U2 t2 l2 P2 D2). exact R. }
  destruct (initial_stack g) as [st|e| |] eqn:E.
  2-4: destruct R1 as (_ & n & R1), R2 as (_ & m & R2); rewrite <- (R1 n), <- (R2 m) by auto; unfold to_string; rewrite E; cbn; auto; right; exists e; auto.
  assert (C1 : forall t, provided inner1 t -> confined_all false (bare (t_source t) (ast1 t))) by (intros t Hp; apply confined_all_bare, (S1 t); auto; apply (H1 t Hp)).
  assert (C2 : forall t, provided inner2 t -> confined_all false (bare (t_source t) (ast2 t))) by (intros t Hp; apply confined_all_bare, (S2 t); auto; apply (H2 t Hp)).
  destruct (C40_meaning inner1 origin1 ast1 g H1 C1 st E) as ((r1' & R1' & M1) & _). destruct (C40_meaning inner2 origin2 ast2 g H2 C2 st E) as ((r2' & R2' & M2) & _).
  rewrite <- (renders_fun _ _ _ _ R1 R1') in M1. rewrite <- (renders_fun _ _ _ _ R2 R2') in M2.
  assert (L : leads (max_include_depth inner1) (m_render (world_of inner1 ast1) (root_of inner1 ast1) (ri_template_name inner1) (start g))
    (m_render (world_of inner2 ast2) (root_of inner2 ast2) (ri_template_name inner2) (start g))).
  { apply inline_render with (find := template_statements inner1 origin1); cbn [world_of w_function w_default w_limit w_find].
    - intros n. now rewrite A1.
    - exact A2.
    - reflexivity.
    - now symmetry.
    - intros asked n. rewrite F1, F2. specialize (A6 n).
      destruct (map_get n (en_templates (ri_engine inner1))) as [t1|] eqn:E1, (map_get n (en_templates (ri_engine inner2))) as [t2|] eqn:E2; try contradiction.
      + assert (P1 : provided inner1 t1) by (right; right; eauto). assert (P2 : provided inner2 t2) by (right; right; eauto).
        split; [|split; [apply B; auto|auto]]. intros b (t & l & Et & D & ->). rewrite E1 in Et. injection Et as <-. now rewrite (U1 t1 l P1 D).
      + split; [|reflexivity]. intros b (t & l & Et & _). rewrite E1 in Et. discriminate Et.
    - apply B; auto; now left. }
  specialize (L []). unfold string_result in M1, M2.
  destruct (run_string [] (m_render (world_of inner1 ast1) _ _ _)) as [b1 [[]|e1| |]], (run_string [] (m_render (world_of inner2 ast2) _ _ _)) as [b2 [[]|e2| |]];
    cbn [seen as_far] in L; destruct r1 as [o1|x1| |], r2 as [o2|x2| |]; cbn [without_place] in M1, M2; try discriminate M1; try discriminate M2; try discriminate L; auto; try congruence.
  all: injection M1 as M1; assert (K1 : e_kind x1 = e_kind e1 /\ e_reason x1 = e_reason e1) by (rewrite <- M1; auto); destruct K1 as (K1 & K2);
    destruct L as [(L1 & L2)|(e' & Ee & L1 & L2)]; [left; split; congruence|try discriminate Ee].
  right. injection Ee as <-. injection M2 as M2. exists x2. split; [reflexivity|]. rewrite <- M2 in L1, L2. cbn in L1, L2. split; congruence.
Qed.
End C48.
Print Assumptions C48_inlining.

(** ** A concrete case: the demo page with its rows written out. *)
Local Existing Instance ascii_ext.
Definition flat_templates : list (string * string) :=
  [("row"%string, "<{{ item.name }}>{% if not loop.last %}, {% endif %}"%string);
   ("foot"%string, "-{{ name | upper }}-"%string);
   ("page"%string, "{% for item in items %}<{{ item.name }}>{% if not loop.last %}, {% endif %}{% endfor %}{% with title as t %} {{ t }}{% endwith %} {% include ""foot"" with user %}"%string);
   ("again"%string, "a{# #}a{% include ""again"" %}"%string)].
Definition flat_engine : engine :=
  match engine_new with Ok e => adds flat_templates (fst (add_filter (s2b "upper") upper e)) | _ => mkengine [] fmt_default [] [] 0 end.
Lemma flat_for : engine_for default_syntax flat_engine.
Proof.
  unfold flat_engine. destruct engine_new as [e| | |] eqn:E; try (vm_compute in E; discriminate).
  apply adds_for; [vm_compute; reflexivity|]. apply ef_filter. now apply ef_new.
Qed.
Definition row_tree : list pstmt :=
  [PText (s2b "<"); PShow (member "item" "name"); PText (s2b ">"); PIf true (member "loop" "last") [PText (s2b ", ")] None].
Definition again_tree : list pstmt := [PText (s2b "a"); PInclude (s2b "again") None].
Lemma page_out (f : str -> list pstmt -> Prop) : f (s2b "row") row_tree -> inlines f
  [PFor (s2b "item") (va "items") [PInclude (s2b "row") None]; PWith (va "title") (s2b "t") [PText (s2b " "); PShow (va "t")]; PText (s2b " ");
   PInclude (s2b "foot") (Some (va "user"))]
  [PFor (s2b "item") (va "items") row_tree; PWith (va "title") (s2b "t") [PText (s2b " "); PShow (va "t")]; PText (s2b " ");
   PInclude (s2b "foot") (Some (va "user"))].
Proof. intros H. eapply (il_app f [_] [_]); [|apply il_refl]. apply il_for. now apply il_include. Qed.
Lemma again_out (f : str -> list pstmt -> Prop) : f (s2b "again") again_tree -> inlines f again_tree
  [PText (s2b "a"); PText (s2b "a"); PInclude (s2b "again") None].
Proof. intros H. eapply (il_app f [_] [_]); [apply il_refl|]. now apply il_include. Qed.
Definition flat_ast (t : template) : scope := match parse_template (en_searcher flat_engine) (t_source t) with Ok l => l | _ => [] end.
Definition known (n : str) (b : list pstmt) : Prop := exists t, map_get n (en_templates demo_engine) = Some t /\ asciib (t_source t) = true /\
  parse_template (en_searcher demo_engine) (t_source t) = Ok (demo_ast t) /\ bare (t_source t) (demo_ast t) = b.
Lemma known_by n b : match map_get n (en_templates demo_engine) with
  | Some t => asciib (t_source t) = true /\ parse_template (en_searcher demo_engine) (t_source t) = Ok (demo_ast t) /\ bare (t_source t) (demo_ast t) = b
  | None => False end -> known n b.
Proof. intros H. unfold known. destruct (map_get n (en_templates demo_engine)) as [t|]; [|contradiction]. eauto. Qed.
Lemma known_row : known (s2b "row") row_tree.
Proof. apply known_by. vm_compute. split; [reflexivity|]. split; reflexivity. Qed.
Lemma known_again : known (s2b "again") again_tree.
Proof. apply known_by. vm_compute. split; [reflexivity|]. split; reflexivity. Qed.
Lemma known_template inner n b : ri_engine inner = demo_engine -> known n b -> template_statements inner (fun _ => default_syntax) n b.
Proof.
  intros Ei (t & E & V & P & <-). exists t, (demo_ast t). split; [now rewrite Ei|]. split; [|reflexivity]. apply asciib_valid in V.
  apply (C08_accepted_iff_grammatical _ _ _ default_user_syntax (default_trims_ok _) demo_for V). exact P.
Qed.
Fixpoint outs_ok (f : str -> list pstmt -> Prop) (l1 l2 : list (str * template)) : Prop :=
  match l1, l2 with
  | [], [] => True
  | (n1, t1) :: l1', (n2, t2) :: l2' =>
    n1 = n2 /\ asciib (t_source t1) = true /\ asciib (t_source t2) = true /\
    parse_template (en_searcher demo_engine) (t_source t1) = Ok (demo_ast t1) /\ parse_template (en_searcher flat_engine) (t_source t2) = Ok (flat_ast t2) /\
    inlines f (bare (t_source t1) (demo_ast t1)) (bare (t_source t2) (flat_ast t2)) /\ outs_ok f l1' l2'
  | _, _ => False
  end.
Lemma flat_outs (f : str -> list pstmt -> Prop) : f (s2b "row") row_tree -> f (s2b "again") again_tree -> outs_ok f (en_templates demo_engine) (en_templates flat_engine).
Proof.
  intros R A. apply page_out in R. apply again_out in A.
  vm_compute in R, A. vm_compute. do 4 (split; [reflexivity|]). split; [reflexivity|]. split; [exact A|].
  do 4 (split; [reflexivity|]). split; [reflexivity|]. split; [apply il_refl|].
  do 4 (split; [reflexivity|]). split; [reflexivity|]. split; [exact R|].
  do 4 (split; [reflexivity|]). split; [reflexivity|]. split; [apply il_refl|]. exact I.
Qed.
Lemma outs_written inner l1 : forall l2, outs_ok (template_statements inner (fun _ => default_syntax)) l1 l2 -> forall name,
  match map_get name l1, map_get name l2 with
  | Some t1, Some t2 => written_out inner (fun _ => default_syntax) (fun _ => default_syntax) t1 t2
  | None, None => True
  | _, _ => False
  end.
Proof.
  induction l1 as [|[n1 t1] l1 IH]; intros [|[n2 t2] l2] H name; cbn [outs_ok] in H; try contradiction; [exact I|].
  destruct H as (-> & V1 & V2 & P1 & P2 & R & H). cbn [map_get]. destruct (str_eqb name n2); [|apply IH; exact H].
  apply asciib_valid in V1, V2. exists (demo_ast t1), (flat_ast t2). split; [|split].
  - apply (C08_accepted_iff_grammatical _ _ _ default_user_syntax (default_trims_ok _) demo_for V1). exact P1.
  - apply (C08_accepted_iff_grammatical _ _ _ default_user_syntax (default_trims_ok _) flat_for V2). exact P2.
  - exact R.
Qed.
Example C48_case :
  well_made (demo "page") (fun _ => default_syntax) /\ well_made (renderer_of flat_engine "page") (fun _ => default_syntax) /\
  ri_template_fn (demo "page") = None /\ ri_template_fn (renderer_of flat_engine "page") = None /\
  related_renderers (written_out (demo "page") (fun _ => default_syntax) (fun _ => default_syntax)) (demo "page") (renderer_of flat_engine "page") /\
  (forall t s, provided (demo "page") t -> derives default_syntax (t_source t) s -> sharing_all false s) /\
  (forall t s, provided (renderer_of flat_engine "page") t -> derives default_syntax (t_source t) s -> sharing_all false s) /\
  to_string 200 (renderer_of flat_engine "page") (GBorrowed demo_value) = Ok (s2b "<x>, <7> T -ANN-").
Proof.
  assert (G1 : engine_get_template (s2b "page") demo_engine <> None) by (apply has_get; vm_compute; reflexivity).
  assert (G2 : engine_get_template (s2b "page") flat_engine <> None) by (apply has_get; vm_compute; reflexivity).
  split; [exact page_well_made|]. split; [exact (renderer_well_made _ _ flat_for G2)|]. split; [vm_compute; reflexivity|]. split; [vm_compute; reflexivity|]. split; [|split; [|split]].
  - unfold demo.
    destruct (map_get (s2b "page") (en_templates demo_engine)) as [t1|] eqn:E1; [|destruct G1; unfold engine_get_template; rewrite E1; reflexivity].
    destruct (map_get (s2b "page") (en_templates flat_engine)) as [t2|] eqn:E2; [|destruct G2; unfold engine_get_template; rewrite E2; reflexivity].
    rewrite (renderer_shape _ _ _ E1), (renderer_shape _ _ _ E2).
    pose proof (outs_written (mkinner demo_engine t1 (Some (s2b "page")) None None) _ _
      (flat_outs _ (known_template (mkinner demo_engine t1 (Some (s2b "page")) None None) _ _ eq_refl known_row)
        (known_template (mkinner demo_engine t1 (Some (s2b "page")) None None) _ _ eq_refl known_again))) as A.
    pose proof (A (s2b "page")) as B. rewrite E1, E2 in B. split; [vm_compute; reflexivity|]. split; [vm_compute; reflexivity|].
    split; [vm_compute; reflexivity|]. split; [reflexivity|]. split; [exact B|exact A].
  - refine (engine_shares demo_engine "page" demo_for G1 _). vm_compute. reflexivity.
  - refine (engine_shares flat_engine "page" flat_for G2 _). vm_compute. reflexivity.
  - vm_compute. reflexivity.
Qed.
