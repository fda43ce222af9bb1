(** Property C14: the include depth. *)
From Verif Require Import Base Utf8 Ext Errors Syntax AhoCorasick SearchSpec SyntaxSpec Value Ast Lexer LexSpec Wp
  GrammarSpec Parser AstOk Compiler CompileProof ParseMain Fmt Stack Filters Render Engine EngineSpec CompileFacts
  RenderSpec RenderProof RenderErr MapFacts RenderMain RenderObs StackRel Parts IncludeFacts LookupSpec LookupProof
  BlockSpec BlockProof Props2 Demo Props3 Props4 Props5 DepthSpec DepthProof.
From Coq Require Import Relations.

Section C14.
Context `{X : Ext}.
Variable inner : renderer_inner.

(** C14.  Consider what would happen without a limit.  If at some moment more
    templates were active than allowed (the limit, but at least the root), then
    the first such moment is one with one too many; rendering writes exactly what
    was written up to there and ends with the depth error.  Conversely the depth
    error occurs only then. *)
Theorem C14_too_deep g st : initial_stack g = Ok st ->
  (exists m, leads_to inner (start inner st) m /\ allowed inner < length (mo_active m)) <->
  renders inner g (Err (limit_error (max_include_depth inner))).
Proof.
  intros Hg. assert (Hs : length (mo_active (start inner st)) <= allowed inner) by (unfold allowed; cbn [start mo_active length]; lia). split.
  - intros (m & H1 & H2). destruct (exceeds inner _ _ H1 Hs H2) as (m1 & _ & _ & n & Hn). split; [discriminate|].
    exists n. intros f Hf. unfold to_string. rewrite Hg. cbn [bind]. pose proof (Hn f Hf) as E. unfold start, mo_written, mo_active, mo_vars, mo_asked in E.
    unfold render. rewrite E. reflexivity.
  - intros (_ & n & Hn). specialize (Hn n (le_n _)). unfold to_string in Hn. rewrite Hg in Hn. cbn [bind] in Hn.
    destruct (run_string [] (render inner n st)) as [o [[]|e| |]] eqn:E; try discriminate Hn. injection Hn as ->.
    exact (limit_reached inner n (start inner st) o E Hs).
Qed.
Theorem C14_stops_there g st m : initial_stack g = Ok st ->
  leads_to inner (start inner st) m -> allowed inner < length (mo_active m) ->
  exists m1, leads_to inner (start inner st) m1 /\ length (mo_active m1) = S (allowed inner) /\
    exists n, forall f, n <= f -> run_string [] (render inner f st) = (mo_written m1, Err (limit_error (max_include_depth inner))).
Proof.
  intros Hg H1 H2. assert (Hs : length (mo_active (start inner st)) <= allowed inner) by (unfold allowed; cbn [start mo_active length]; lia).
  exact (exceeds inner _ _ H1 Hs H2).
Qed.
(** C14.  A limit that is not exceeded does not matter: every larger one gives the
    same result. *)
Lemma larger_run m : (max_include_depth inner <= m)%N -> forall f ts st h out o r,
  run_string out (render_loop inner f ts st h) = (o, r) -> r <> Err (limit_error (max_include_depth inner)) ->
  run_string out (render_loop (with_max_include_depth m inner) f ts st h) = (o, r).
Proof.
  intros Hm. induction f as [|f IH]; intros ts st h out o r E Hr; destruct ts as [|a rest]; try exact E. cbn [render_loop] in *.
  change (render_one (with_max_include_depth m inner)) with (render_one inner).
  rewrite run_string_bind in E |- *. destruct (run_string out _) as [o1 [[[rs pc] st1]|e| |]]; try exact E.
  rewrite run_string_bind in E |- *. change (get_template (with_max_include_depth m inner)) with (get_template inner).
  match type of E with (match run_string o1 ?x with _ => _ end) = _ => set (y := x) in E; match goal with |- (match run_string o1 ?x' with _ => _ end) = _ => change x' with y end end.
  destruct (run_string o1 y) as [o2 [[[ts2 st2] h2]|e| |]]; try exact E.
  change (max_include_depth (with_max_include_depth m inner)) with m.
  destruct (max_include_depth inner <? N.of_nat (length ts2))%N eqn:Ec.
  - exfalso. cbn in E. injection E as _ E. apply Hr. rewrite <- E. reflexivity.
  - apply N.ltb_ge in Ec. replace (m <? N.of_nat (length ts2))%N with false by (symmetry; apply N.ltb_ge; lia). now apply IH.
Qed.
Theorem C14_larger_limits g r m : (max_include_depth inner <= m)%N -> renders inner g r ->
  r <> Err (limit_error (max_include_depth inner)) -> renders (with_max_include_depth m inner) g r.
Proof.
  intros Hm (Hr & n & Hn) Hl. split; [exact Hr|]. exists n. intros f Hf. specialize (Hn f Hf). unfold to_string in *.
  destruct (initial_stack g) as [st| | |]; try exact Hn. cbn [bind] in *. unfold render in *.
  destruct (run_string [] (render_loop inner f _ st [])) as [o r'] eqn:E.
  change (ri_template (with_max_include_depth m inner)) with (ri_template inner). change (ri_template_name (with_max_include_depth m inner)) with (ri_template_name inner).
  rewrite (larger_run m Hm _ _ _ _ _ _ _ E); [exact Hn|]. intros ->. apply Hl. now rewrite <- Hn.
Qed.
End C14.
(** C14.  The limit: that of the renderer if it was set, otherwise that of the
    engine when the renderer was made; 64 for a new engine. *)
Theorem C14_setting `{X : Ext} t e n r sx e0 :
  max_include_depth (with_max_include_depth n r) = n /\
  max_include_depth (template_renderer t (set_max_include_depth n e)) = n /\
  (forall s, max_include_depth (template_ref_renderer (s, t) (set_max_include_depth n e)) = n) /\
  (forall f, max_include_depth (with_template_fn f r) = max_include_depth r) /\
  (forall name src, en_max_include_depth (fst (add_template name src e)) = en_max_include_depth e) /\
  (forall name f, en_max_include_depth (fst (add_filter name f e)) = en_max_include_depth e) /\
  (forall name f, en_max_include_depth (fst (add_formatter name f e)) = en_max_include_depth e) /\
  (engine_with_syntax sx = Ok e0 -> max_include_depth (template_renderer t e0) = 64%N).
Proof.
  repeat split; intros; auto.
  - unfold add_template. now destruct (engine_compile src e).
  - unfold engine_with_syntax in H. destruct (searcher_new sx); try discriminate. injection H as <-. reflexivity.
Qed.
Print Assumptions C14_too_deep.
Print Assumptions C14_stops_there.
Print Assumptions C14_larger_limits.
Print Assumptions C14_setting.

Local Existing Instance ascii_ext.
(** Beside them: the template "again" includes itself; the page does not. *)
Example again_too_deep : exists m, leads_to (demo "again") (start (demo "again") [FrScope (Borrowed VNone)]) m /\ allowed (demo "again") < length (mo_active m).
Proof. apply (C14_too_deep (demo "again") (GBorrowed VNone) _ eq_refl). exact again_depth. Qed.
Example page_limit_2 : renders (with_max_include_depth 2 (demo "page")) (GBorrowed demo_value) (Ok (s2b "<x>, <7> T -ANN-")).
Proof. apply (renders_by _ 200); [vm_compute; reflexivity|discriminate]. Qed.
Example page_limit_1 : renders (with_max_include_depth 1 (demo "page")) (GBorrowed demo_value) (Err (limit_error 1)).
Proof. apply (renders_by _ 200); [vm_compute; reflexivity|discriminate]. Qed.
