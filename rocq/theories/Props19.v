(** Property C47: rewritings that change nothing. *)
From Verif Require Import Base Utf8 Ext Errors Syntax AhoCorasick SearchSpec SyntaxSpec Value Ast Lexer LexSpec Wp
  GrammarSpec Parser AstOk Compiler CompileProof ParseMain Fmt Stack Filters Render Engine EngineSpec CompileFacts
  RenderSpec RenderProof RenderErr MapFacts RenderMain RenderObs Props2 Props3 Demo Meaning MeaningProof LayoutSpec LayoutProof
  RefactorSpec Refactor Props14.

Section C47.
Context `{X : Ext}.

(** Two renderers that differ only in their templates, which are related one by one. *)
Definition related_renderers (T : template -> template -> Prop) (inner1 inner2 : renderer_inner) : Prop :=
  en_functions (ri_engine inner1) = en_functions (ri_engine inner2) /\
  en_default_formatter (ri_engine inner1) = en_default_formatter (ri_engine inner2) /\
  max_include_depth inner1 = max_include_depth inner2 /\
  ri_template_name inner1 = ri_template_name inner2 /\
  T (ri_template inner1) (ri_template inner2) /\
  match ri_template_fn inner1, ri_template_fn inner2 with
  | Some f1, Some f2 => forall asked name,
      match f1 asked name, f2 asked name with inl t1, inl t2 => T t1 t2 | inr r1, inr r2 => r1 = r2 | _, _ => False end
  | None, None => forall name,
      match map_get name (en_templates (ri_engine inner1)), map_get name (en_templates (ri_engine inner2)) with
      | Some t1, Some t2 => T t1 t2 | None, None => True | _, _ => False end
  | _, _ => False
  end.
(** The statements of the second template are a rewriting of those of the first. *)
Definition rewritten (e : engine) (origin1 origin2 : template -> syntax) (t1 t2 : template) : Prop :=
  exists l1 l2, derives (origin1 t1) (t_source t1) l1 /\ derives (origin2 t2) (t_source t2) l2 /\
    refactors (fun n => map_get n (en_functions e)) (en_default_formatter e) (bare (t_source t1) l1) (bare (t_source t2) l2).

(** C47.  Rewriting templates by the laws of RefactorSpec.v does not change what they
    render to, nor the error, except for its place. *)
Theorem C47_refactoring inner1 origin1 inner2 origin2 g :
  well_made inner1 origin1 -> well_made inner2 origin2 ->
  related_renderers (rewritten (ri_engine inner2) origin1 origin2) inner1 inner2 ->
  (forall t s, provided inner1 t -> derives (origin1 t) (t_source t) s -> sharing_all false s) ->
  (forall t s, provided inner2 t -> derives (origin2 t) (t_source t) s -> sharing_all false s) ->
  forall r1 r2, renders inner1 g r1 -> renders inner2 g r2 -> without_place r1 = without_place r2.
Proof.
  intros W1 W2 (A1 & A2 & A3 & A4 & A5 & A6) S1 S2 r1 r2 R1 R2.
  destruct (statements_exist _ _ W1) as (ast1 & H1). destruct (statements_exist _ _ W2) as (ast2 & H2).
  assert (B : forall t1 t2, provided inner1 t1 -> provided inner2 t2 -> rewritten (ri_engine inner2) origin1 origin2 t1 t2 ->
    refactors (fun n => map_get n (en_functions (ri_engine inner2))) (en_default_formatter (ri_engine inner2)) (bare (t_source t1) (ast1 t1)) (bare (t_source t2) (ast2 t2))).
  { intros t1 t2 P1 P2 (l1 & l2 & D1 & D2 & R). destruct (H1 t1 P1) as ((Hu & Hc & Hv & e1 & He1 & _) & D1'). destruct (H2 t2 P2) as ((Hu2 & Hc2 & Hv2 & e2 & He2 & _) & D2').
    rewrite (proj2 (proj2 (C08_accepted_iff_grammatical _ _ _ Hu Hc He1 Hv)) _ _ D1' D1), (proj2 (proj2 (C08_accepted_iff_grammatical _ _ _ Hu2 Hc2 He2 Hv2)) _ _ D2' D2). exact R. }
  destruct (initial_stack g) as [st|e| |] eqn:E.
  2-4: destruct R1 as (_ & n & R1), R2 as (_ & m & R2); rewrite <- (R1 n), <- (R2 m) by auto; unfold to_string; now rewrite E.
  assert (C1 : forall t, provided inner1 t -> confined_all false (bare (t_source t) (ast1 t))) by (intros t Hp; apply confined_all_bare, (S1 t); auto; apply (H1 t Hp)).
  assert (C2 : forall t, provided inner2 t -> confined_all false (bare (t_source t) (ast2 t))) by (intros t Hp; apply confined_all_bare, (S2 t); auto; apply (H2 t Hp)).
  destruct (C40_meaning inner1 origin1 ast1 g H1 C1 st E) as ((r1' & R1' & M1) & _). destruct (C40_meaning inner2 origin2 ast2 g H2 C2 st E) as ((r2' & R2' & M2) & _).
  rewrite (renders_fun _ _ _ _ R1 R1'), (renders_fun _ _ _ _ R2 R2'), M1, M2. rewrite A4.
  assert (S : same (m_render (world_of inner1 ast1) (root_of inner1 ast1) (ri_template_name inner2) (start g))
    (m_render (world_of inner2 ast2) (root_of inner2 ast2) (ri_template_name inner2) (start g))).
  { apply alike_render; cbn [world_of w_function w_default w_limit w_find].
    - intros n. now rewrite A1.
    - exact A2.
    - exact A3.
    - intros asked n. destruct (ri_template_fn inner1) as [f1|] eqn:F1, (ri_template_fn inner2) as [f2|] eqn:F2; try contradiction.
      + specialize (A6 asked n). destruct (f1 asked n) as [t1|x1] eqn:E1, (f2 asked n) as [t2|x2] eqn:E2; try contradiction; [|exact A6].
        split; [|reflexivity]. apply B; auto; right; left; eauto 6.
      + specialize (A6 n). destruct (map_get n (en_templates (ri_engine inner1))) as [t1|] eqn:E1, (map_get n (en_templates (ri_engine inner2))) as [t2|] eqn:E2; try contradiction; [|reflexivity].
        split; [|reflexivity]. apply B; auto; right; right; eauto.
    - apply B; auto; now left. }
  specialize (S []). unfold string_result.
  destruct (run_string [] (m_render (world_of inner1 ast1) _ _ _)) as [b1 [[]|e1| |]], (run_string [] (m_render (world_of inner2 ast2) _ _ _)) as [b2 [[]|e2| |]]; cbn in S; try discriminate S; congruence.
Qed.
End C47.
Print Assumptions C47_refactoring.

(** ** A concrete case *)
Local Existing Instance ascii_ext.
(** The demo page of Demo.v, rewritten: a name for [item.name], the branches of the [if] swapped, a
    comment in a text, the variable of the [with] renamed, a text as an expression. *)
Definition tidy_templates : list (string * string) :=
  [("row"%string, "<{% with item.name as n %}{{ n }}{% endwith %}>{% if loop.last %}{% else %},{# and #} {% endif %}"%string);
   ("foot"%string, "-{{ name | upper }}-"%string);
   ("page"%string, "{% for item in items %}{% include ""row"" %}{% endfor %}{% with title as heading %} {{ heading }}{{ "" "" }}{% endwith %}{% include ""foot"" with user %}"%string);
   ("again"%string, "a{% if 1 %}{% include ""again"" %}{% endif %}"%string)].
Definition tidy_engine : engine :=
  match engine_new with Ok e => adds tidy_templates (fst (add_filter (s2b "upper") upper e)) | _ => mkengine [] fmt_default [] [] 0 end.
Lemma tidy_for : engine_for default_syntax tidy_engine.
Proof.
  unfold tidy_engine. destruct engine_new as [e| | |] eqn:E; try (vm_compute in E; discriminate).
  apply adds_for; [vm_compute; reflexivity|]. apply ef_filter. now apply ef_new.
Qed.
Notation va x := (PAtom (PVar (s2b x) [])).
Notation member x y := (PAtom (PVar (s2b x) [mkpstep false (KName (s2b y))])).
Lemma row_rewritten f d : refactors f d
  [PText (s2b "<"); PShow (member "item" "name"); PText (s2b ">"); PIf true (member "loop" "last") [PText (s2b ", ")] None]
  [PText (s2b "<"); PWith (member "item" "name") (s2b "n") [PShow (va "n")]; PText (s2b ">");
   PIf false (member "loop" "last") [] (Some [PText (s2b ","); PText (s2b " ")])].
Proof.
  eapply (rf_app f d [_] [_]); [apply rf_refl|]. eapply (rf_app f d [_] [_]); [apply rf_name; exact I|]. eapply (rf_app f d [_] [_]); [apply rf_refl|].
  eapply rf_trans; [|apply rf_sym, rf_not]. apply rf_if; [|apply rf_refl]. apply rf_sym, rf_text.
Qed.
Lemma page_rewritten f d : d = fmt_default -> refactors f d
  [PFor (s2b "item") (va "items") [PInclude (s2b "row") None]; PWith (va "title") (s2b "t") [PText (s2b " "); PShow (va "t")]; PText (s2b " ");
   PInclude (s2b "foot") (Some (va "user"))]
  [PFor (s2b "item") (va "items") [PInclude (s2b "row") None];
   PWith (va "title") (s2b "heading") [PText (s2b " "); PShow (va "heading"); PShow (PAtom (PLit (VStr (s2b " "))))];
   PInclude (s2b "foot") (Some (va "user"))].
Proof.
  intros ->. eapply (rf_app f _ [_] [_]); [apply rf_refl|]. eapply (rf_app f _ [_; _] [_] [_] [_]); [|apply rf_refl].
  eapply rf_trans; [apply rf_longer; cbn; auto|].
  eapply rf_trans; [apply rf_with; eapply (rf_app f _ [_; _] [_; _] [_] [PShow (PAtom (PLit (VStr (s2b " "))))]); [apply rf_refl|apply rf_sym, rf_show_text; reflexivity]|].
  eapply rf_trans; [apply rf_rename_with with (y := s2b "heading")|apply rf_refl].
  split; [discriminate|]. split; [discriminate|]. cbn [in_block in_stmt in_expr mentions app]. repeat split; discriminate || tauto.
Qed.
Lemma again_rewritten f d : refactors f d [PText (s2b "a"); PInclude (s2b "again") None] 
  [PText (s2b "a"); PIf false (PAtom (PLit (VInt 1))) [PInclude (s2b "again") None] None].
Proof.
  eapply (rf_app f d [_] [_]); [apply rf_refl|]. apply rf_sym. eapply rf_trans; [eapply (rf_if f d false _ _ [PInclude (s2b "again") None] None (Some [])); apply rf_refl|].
  apply (rf_constant f d false (VInt 1)).
Qed.
Definition tidy_ast (t : template) : scope := match parse_template (en_searcher tidy_engine) (t_source t) with Ok l => l | _ => [] end.
Fixpoint trees_ok (f : str -> option engine_fn) (d : formatter) (l1 l2 : list (str * template)) : Prop :=
  match l1, l2 with
  | [], [] => True
  | (n1, t1) :: l1', (n2, t2) :: l2' =>
    n1 = n2 /\ asciib (t_source t1) = true /\ asciib (t_source t2) = true /\
    parse_template (en_searcher demo_engine) (t_source t1) = Ok (demo_ast t1) /\ parse_template (en_searcher tidy_engine) (t_source t2) = Ok (tidy_ast t2) /\
    refactors f d (bare (t_source t1) (demo_ast t1)) (bare (t_source t2) (tidy_ast t2)) /\ trees_ok f d l1' l2'
  | _, _ => False
  end.
Lemma tidy_trees f d : d = fmt_default -> trees_ok f d (en_templates demo_engine) (en_templates tidy_engine).
Proof.
  intros Hd. pose proof (row_rewritten f d) as R. pose proof (page_rewritten f d Hd) as P. pose proof (again_rewritten f d) as A.
  vm_compute in R, P, A. clear Hd. vm_compute. do 4 (split; [reflexivity|]). split; [reflexivity|]. split; [exact A|].
  do 4 (split; [reflexivity|]). split; [reflexivity|]. split; [apply rf_refl|].
  do 4 (split; [reflexivity|]). split; [reflexivity|]. split; [exact P|].
  do 4 (split; [reflexivity|]). split; [reflexivity|]. split; [exact R|]. exact I.
Qed.
Lemma trees_rewritten e l1 : forall l2, trees_ok (fun n => map_get n (en_functions e)) (en_default_formatter e) l1 l2 -> forall name,
  match map_get name l1, map_get name l2 with
  | Some t1, Some t2 => rewritten e (fun _ => default_syntax) (fun _ => default_syntax) t1 t2
  | None, None => True
  | _, _ => False
  end.
Proof.
  induction l1 as [|[n1 t1] l1 IH]; intros [|[n2 t2] l2] H name; cbn [trees_ok] in H; try contradiction; [exact I|].
  destruct H as (-> & V1 & V2 & P1 & P2 & R & H). cbn [map_get]. destruct (str_eqb name n2); [|apply IH; exact H].
  apply asciib_valid in V1, V2. exists (demo_ast t1), (tidy_ast t2). split; [|split].
  - apply (C08_accepted_iff_grammatical _ _ _ default_user_syntax (default_trims_ok _) demo_for V1). exact P1.
  - apply (C08_accepted_iff_grammatical _ _ _ default_user_syntax (default_trims_ok _) tidy_for V2). exact P2.
  - exact R.
Qed.
Lemma tidy_default : en_default_formatter tidy_engine = fmt_default.
Proof. vm_compute. reflexivity. Qed.
Lemma shares_ok e t : engine_for default_syntax e -> asciib (t_source t) = true ->
  (match parse_template (en_searcher e) (t_source t) with Ok l => forallb (confinedb false) (bare (t_source t) l) | _ => true end) = true ->
  forall s, derives default_syntax (t_source t) s -> sharing_all false s.
Proof.
  intros He V C s D. apply asciib_valid in V. apply (C08_accepted_iff_grammatical _ _ _ default_user_syntax (default_trims_ok _) He V) in D. rewrite D in C.
  apply (confined_all_bare (t_source t)). now apply confinedb_all.
Qed.
Definition shares_fine (e : engine) (t : template) : bool := asciib (t_source t) &&
  match parse_template (en_searcher e) (t_source t) with Ok l => forallb (confinedb false) (bare (t_source t) l) | _ => true end.
Lemma engine_shares e name : engine_for default_syntax e -> engine_get_template (s2b name) e <> None ->
  forallb (fun p => shares_fine e (snd p)) (en_templates e) = true ->
  forall t s, provided (renderer_of e name) t -> derives default_syntax (t_source t) s -> sharing_all false s.
Proof.
  intros He Hg C t s Hp.
  assert (exists n, In (n, t) (en_templates e)) as (n & Hn).
  { unfold renderer_of, engine_get_template in *. destruct (map_get (s2b name) (en_templates e)) as [t0|] eqn:E; [|now destruct Hg].
    destruct Hp as [->|[(f & h & n & F & _)|(_ & n & F)]]; [|discriminate F|].
    - exists (s2b name). now apply map_get_In.
    - exists n. now apply map_get_In. }
  rewrite forallb_forall in C. specialize (C _ Hn). apply andb_prop in C as [V C]. now apply (shares_ok e).
Qed.
Definition has_template (e : engine) (name : string) : bool := match engine_get_template (s2b name) e with Some _ => true | None => false end.
Lemma has_get e name : has_template e name = true -> engine_get_template (s2b name) e <> None.
Proof. unfold has_template. intros E E'. rewrite E' in E. discriminate E. Qed.
Example C47_case :
  well_made (demo "page") (fun _ => default_syntax) /\ well_made (renderer_of tidy_engine "page") (fun _ => default_syntax) /\
  related_renderers (rewritten (ri_engine (renderer_of tidy_engine "page")) (fun _ => default_syntax) (fun _ => default_syntax)) (demo "page") (renderer_of tidy_engine "page") /\
  (forall t s, provided (demo "page") t -> derives default_syntax (t_source t) s -> sharing_all false s) /\
  (forall t s, provided (renderer_of tidy_engine "page") t -> derives default_syntax (t_source t) s -> sharing_all false s) /\
  to_string 200 (renderer_of tidy_engine "page") (GBorrowed demo_value) = Ok (s2b "<x>, <7> T -ANN-").
Proof.
  assert (G1 : engine_get_template (s2b "page") demo_engine <> None) by (apply has_get; vm_compute; reflexivity).
  assert (G2 : engine_get_template (s2b "page") tidy_engine <> None) by (apply has_get; vm_compute; reflexivity).
  split; [exact page_well_made|]. split; [exact (renderer_well_made _ _ tidy_for G2)|]. split; [|split; [|split]].
  - pose proof (trees_rewritten tidy_engine _ _ (tidy_trees _ _ tidy_default)) as A. pose proof (A (s2b "page")) as B. unfold demo.
    destruct (map_get (s2b "page") (en_templates demo_engine)) as [t1|] eqn:E1; [|destruct G1; unfold engine_get_template; rewrite E1; reflexivity].
    destruct (map_get (s2b "page") (en_templates tidy_engine)) as [t2|] eqn:E2; [|destruct G2; unfold engine_get_template; rewrite E2; reflexivity].
    rewrite (renderer_shape _ _ _ E1), (renderer_shape _ _ _ E2). split; [vm_compute; reflexivity|]. split; [vm_compute; reflexivity|].
    split; [vm_compute; reflexivity|]. split; [reflexivity|]. split; [exact B|exact A].
  - refine (engine_shares demo_engine "page" demo_for G1 _). vm_compute. reflexivity.
  - refine (engine_shares tidy_engine "page" tidy_for G2 _). vm_compute. reflexivity.
  - vm_compute. reflexivity.
Qed.

(** The condition on renaming loop variables is needed: a missing optional member of a
    loop variable is looked for outside of the loop (C20). *)
Definition ask_item : str := s2b "{% for item in items %}[{{ item?.nick }}]{% endfor %}".
Definition ask_thing : str := s2b "{% for thing in items %}[{{ thing?.nick }}]{% endfor %}".
Definition ask_value : value :=
  VMap (map_of_list [(s2b "items", VList [VMap []]); (s2b "item", VMap [(s2b "nick", VStr (s2b "outer"))]); (s2b "thing", VNone)]).
Definition compiled (s : str) : template := match engine_compile s demo_engine with Ok t => t | _ => mktemplate [] [] end.
Example C47_needed :
  bare ask_item (demo_ast (compiled ask_item)) = [PFor (s2b "item") (va "items") [PText (s2b "["); PShow (PAtom (PVar (s2b "item") [mkpstep true (KName (s2b "nick"))])); PText (s2b "]")]] /\
  bare ask_thing (demo_ast (compiled ask_thing)) = [PFor (s2b "thing") (va "items") (rename (s2b "item") (s2b "thing") [PText (s2b "["); PShow (PAtom (PVar (s2b "item") [mkpstep true (KName (s2b "nick"))])); PText (s2b "]")])] /\
  to_string 200 (template_renderer (compiled ask_item) demo_engine) (GBorrowed ask_value) = Ok (s2b "[outer]") /\
  match to_string 200 (template_renderer (compiled ask_thing) demo_engine) (GBorrowed ask_value) with Err e => e_reason e = Some (s2b "none does not support key-based access") | _ => False end.
Proof. split; [vm_compute; reflexivity|]. split; [vm_compute; reflexivity|]. split; vm_compute; reflexivity. Qed.
