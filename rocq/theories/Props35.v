(** C62: compiled templates are no larger than their source, and a template without loops and
    includes is rendered in at most one step per byte of its source. *)
From Verif Require Import Base Utf8 Ext Errors Syntax SyntaxSpec Value Ast LexSpec GrammarSpec Parser ParseMain Compiler CompileProof CompileFacts
  Fmt Stack Filters Render RenderErr Engine EngineSpec RenderSpec RenderObs RenderMain Props2 Demo SizeSpec Size Steps.

Section C62.
Context `{X : Ext}.
Lemma template_of_iff sx source e t : user_syntax sx -> trims_ok sx source -> engine_for sx e -> valid_utf8 source ->
  engine_compile source e = Ok t <-> exists s, derives sx source s /\ t = mktemplate source (cscope 0 s).
Proof.
  intros Hu Hc He Hv. exact (compile_iff sx Hu _ (engine_searcher _ _ He) source Hv Hc t).
Qed.

(** C62.  A compiled template is no larger than its source: the number of its instructions, the
    names and indexes of its variables, the arguments of its filter calls, and the bytes of its
    string literals and template names together are at most the bytes of the source. *)
Theorem C62_size sx source e t :
  user_syntax sx -> trims_ok sx source -> engine_for sx e -> valid_utf8 source ->
  engine_compile source e = Ok t -> size t <= length source.
Proof.
  intros Hu Hc He Hv E. apply (template_of_iff sx) in E as (s & D & ->); auto.
  exact (derives_size sx Hu source Hv s D).
Qed.

Lemma csize_length l : length l <= list_sum (map instr_size l).
Proof.
  induction l as [|i l IH]; cbn [map length]; [lia|]. unfold list_sum in *. cbn [fold_right]. assert (1 <= instr_size i); [|lia]. destruct i as [j|j|j|sp|sp|name sp|vars sp|j|name| |name|name|v|v|name sp [a|]]; cbn; lia.
Qed.

(** C62.  A template that has no loop and no include is rendered in at most one step per byte
    of its source (and two more for the end), whatever the context, the filters, the formatters
    and the output are: with that many steps the rendering is complete. *)
Theorem C62_steps sx source e t s inner g fuel :
  user_syntax sx -> trims_ok sx source -> engine_for sx e -> valid_utf8 source ->
  engine_compile source e = Ok t -> derives sx source s -> all_straight s ->
  ri_template inner = t -> initial_stack g <> OutOfFuel -> length source + 2 <= fuel ->
  renders inner g (to_string fuel inner g) /\
  forall k w, writes inner g k w (to_writer fuel inner g k w).
Proof.
  intros Hu Hc He Hv E D S <- Hg L. pose proof (C62_size _ _ _ _ Hu Hc He Hv E) as Z. unfold size in Z. pose proof (csize_length (t_instrs (ri_template inner))) as Cl.
  apply (template_of_iff sx) in E as (s' & D' & Et); auto.
  assert (s = s') as <- by exact (proj2 (proj2 (C08_accepted_iff_grammatical sx e source Hu Hc He Hv)) _ _ D D').
  assert (F : fwds 0 (t_instrs (ri_template inner))) by (rewrite Et; apply fwds_scope; exact S).
  unfold renders, writes, to_string, to_writer. destruct (initial_stack g) as [st|er| |]; cbn [bind]; [| | |congruence].
  - destruct (render_done inner st F) as (Ro & Rf).
    assert (Hf : forall n, fuel <= n -> render inner n st = render inner fuel st) by (intros n Ln; rewrite (Rf n), (Rf fuel); auto; lia).
    assert (Ov : rall over (render inner fuel st)) by (rewrite (Rf fuel); auto; lia).
    split.
    + split.
      * pose proof (string_over _ Ov []) as K. destruct (run_string [] (render inner fuel st)) as [o [[]|er| |]]; cbn in *; congruence.
      * exists fuel. intros n Ln. now rewrite (Hf n Ln).
    + intros k w. split.
      * pose proof (run_over k _ Ov w None) as K. destruct (run k w None (render inner fuel st)) as [[w' [c|]] [[]|er| |]]; cbn in *; congruence.
      * exists fuel. intros n Ln. now rewrite (Hf n Ln).
  - split; [|intros k w]; (split; [discriminate|]); exists fuel; reflexivity.
  - split; [|intros k w]; (split; [discriminate|]); exists fuel; reflexivity.
Qed.
End C62.
Print Assumptions C62_size.
Print Assumptions C62_steps.

(** ** A concrete case *)
Local Existing Instance ascii_ext.
Definition line_source : str := s2b "{% with x.a | upper as y %}{% if not y %}-{% else %}{{ y }}{{ x.b.2 | add: ""zz"", x.c, 7 }}{% endif %}{% endwith %}".
Definition line_ast : scope := parsed "{% with x.a | upper as y %}{% if not y %}-{% else %}{{ y }}{{ x.b.2 | add: ""zz"", x.c, 7 }}{% endif %}{% endwith %}".
Definition line : template := mktemplate line_source (cscope 0 line_ast).
Example line_sizes : size line = 26 /\ length line_source = 114 /\ length (t_instrs line) = 13 /\ all_straight line_ast.
Proof. vm_compute. split; [|split; [|split]]; auto 20. Qed.
Lemma line_compiles : engine_compile line_source demo_engine = Ok line.
Proof. vm_compute. reflexivity. Qed.
Lemma line_derives : derives default_syntax line_source line_ast.
Proof.
  assert (V : valid_utf8 line_source) by (apply asciib_valid; vm_compute; reflexivity).
  apply (proj1 (C08_accepted_iff_grammatical _ _ _ default_user_syntax (default_trims_ok _) demo_for V) line_ast). vm_compute. reflexivity.
Qed.
(** Whatever the context: 116 steps are enough. *)
Example line_steps g : initial_stack g <> OutOfFuel ->
  renders (template_renderer line demo_engine) g (to_string 116 (template_renderer line demo_engine) g).
Proof.
  intros Hg. refine (proj1 (C62_steps default_syntax line_source demo_engine line line_ast _ g 116 default_user_syntax (default_trims_ok _) demo_for _ line_compiles line_derives _ _ Hg _)).
  - apply asciib_valid. vm_compute. reflexivity.
  - exact (proj2 (proj2 (proj2 line_sizes))).
  - reflexivity.
  - vm_compute. repeat constructor.
Qed.
(** The bound on the size is met: a text is one instruction for one byte. *)
Example line_tight : size (mktemplate (s2b "a") (cscope 0 (parsed "a"))) = 1 /\ length (s2b "a") = 1.
Proof. vm_compute. split; reflexivity. Qed.
(** A template with a loop takes more steps than its source has bytes, for a long enough list. *)
Definition loop_source : str := s2b "{% for x in l %}{{ x }}{% endfor %}".
Definition loop_template : template := mktemplate loop_source (cscope 0 (parsed "{% for x in l %}{{ x }}{% endfor %}")).
Definition long_list : value := VMap [(s2b "l", VList (repeat (VInt 1) 50))].
Example loop_takes_more : engine_compile loop_source demo_engine = Ok loop_template /\
  to_string (length loop_source + 2) (template_renderer loop_template demo_engine) (GBorrowed long_list) = OutOfFuel /\
  to_string 500 (template_renderer loop_template demo_engine) (GBorrowed long_list) = Ok (concat (repeat (s2b "1") 50)).
Proof. vm_compute. split; [|split]; reflexivity. Qed.
