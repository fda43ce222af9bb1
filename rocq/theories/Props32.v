(** Property C59: the error of a rendering points at what is at fault. *)
From Verif Require Import Base Utf8 Ext Errors Syntax AhoCorasick SearchSpec SyntaxSpec Value Ast Lexer LexSpec Wp
  GrammarSpec Parser AstOk Compiler CompileProof ParseMain Fmt Stack Filters FilterSpec Render Engine EngineSpec CompileFacts
  RenderSpec RenderProof RenderErr MapFacts RenderMain RenderObs LocSpec LocProof Props2 Props3 Demo OriginSpec LookupSpec Meaning MeaningProof Props14 Props30
  FaultSpec Fault Props31 PlaceSpec Place.

Section C59.
Context `{X : Ext}.
(** C59.  If a rendering fails, and not because the context did not serialize or because of the
    writer, then the error marks a part of a statement of the template it names; rendering can come to
    that statement with variables for which that part is at fault, and the kind and
    the reason say how.  Or includes nest too deep. *)
Theorem C59_errors_point_at_the_fault inner origin ast_of g st :
  statements inner origin ast_of ->
  (forall t, provided inner t -> sharing_all false (ast_of t)) ->
  initial_stack g = Ok st ->
  (forall e, renders inner g (Err e) ->
     (exists sp t n, points inner ast_of st e sp t n) \/ too_deep inner ast_of st e) /\
  forall k w w' e, writes inner g k w (w', Err e) ->
     (exists code, e = mk_io_error code) \/ (exists sp t n, points inner ast_of st e sp t n) \/ too_deep inner ast_of st e.
Proof.
  intros H Hs Hg.
  assert (P : forall e, ends (s_render inner ast_of st) e -> explained inner ast_of st e).
  { intros e K. apply render_points; auto.
    - intros t Hp. split; [|split]; auto.
      + apply (statements_sourced inner origin ast_of H t Hp).
      + destruct (H t Hp) as ((Hu & _ & Hv & _) & D). eapply derives_nonempty; eauto.
    - destruct (initial_stack_shape _ _ Hg) as [(v & ->)|(f & ->)]; unfold no_vars; cbn; repeat constructor. }
  destruct (C11_compiled_means_source inner origin ast_of g st H Hg) as (H1 & H2). split.
  - intros e R. apply P. apply ends_string. symmetry. exact (renders_fun _ _ _ _ R H1).
  - intros k w w' e R. pose proof (writes_fun _ _ _ _ _ _ R (H2 k w)) as K.
    destruct (ends_writer k (s_render inner ast_of st) w e) as [L|L]; [now rewrite <- K|right; now apply P|now left].
Qed.
(** C59.  What the error shows of the place it points at: see C27. *)
Theorem C59_shown inner ast_of st e sp t n : points inner ast_of st e sp t n ->
  e_name e = n /\ sp_m sp <= sp_n sp <= length (t_source t) /\
  exists p, e_pretty e = Some p /\ is_line (t_source t) (p_text p) /\
    p_width p = Nat.max 1 (display_width (sub (t_source t) (sp_m sp) (sp_n sp))) /\
    LocSpec.shown (t_source t) (sp_m sp) (p_ln p) (p_col p) (p_text p).
Proof.
  intros (k & r & p & st1 & d & s & st' & _ & _ & _ & Ep & ->). split; [reflexivity|]. split; [now apply pretty_in_range in Ep|].
  exists p. split; [reflexivity|]. split; [now apply pretty_line in Ep|]. split; [now apply pretty_width|]. now apply pretty_shown.
Qed.
End C59.
Print Assumptions C59_errors_point_at_the_fault.
Print Assumptions C59_shown.

(** ** A concrete case *)
Local Existing Instance ascii_ext.
Lemma demo_sharing : forall t, provided (demo "page") t -> sharing_all false (demo_ast t).
Proof. intros t Hp. apply confined_all_bare with (t_source t). exact (demo_confined t Hp). Qed.
Definition marked (r : res str) : option (option str * nat * nat * nat) :=
  match r with Err e => match e_pretty e with Some p => Some (e_name e, p_ln p, p_col p, p_width p) | None => None end | _ => None end.
(** Without the user's name, the demo page fails in [foot], at [name]: the first member
    of the path of the expression of its [{{ .. }}]. *)
Example C59_case :
  statements (demo "page") (fun _ => default_syntax) demo_ast /\
  (forall t, provided (demo "page") t -> sharing_all false (demo_ast t)) /\
  marked (to_string 200 (demo "page") (GBorrowed no_name)) = Some (Some (s2b "foot"), 0, 4, 4) /\
  sub (s2b "-{{ name | upper }}-") 4 8 = s2b "name".
Proof.
  split; [exact (demo_statements "page" page_well_made)|]. split; [exact demo_sharing|]. split; vm_compute; reflexivity.
Qed.
(** The rules for this case: in variables without [name]. *)
Example C59_case_rules : forall inner st,
  at_fault inner (s2b "-{{ name | upper }}-") (FrScope (Borrowed (VMap [])) :: FrBoundary :: st)
    (SInline (ECall (mkident (mkspan 11 16)) None (EBase (BVar (var_at 4 8))) (mkspan 4 16)) (mkspan 1 19))
    KRender (Some (s2b "not found in this scope")) (mkspan 4 8).
Proof.
  intros inner st. apply af_show. apply em_before. apply ev_var_error.
  apply sf_var with (name := s2b "name").
  - eexists. split; [reflexivity|]. vm_compute. reflexivity.
  - apply lk_scope_other; [reflexivity|]. apply lk_boundary.
Qed.
