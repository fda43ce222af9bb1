(** Property theorems: rendering as a whole (C11, C12, C13, C21, C22, C28). *)
From Verif Require Import Base Utf8 Ext Errors Syntax AhoCorasick SearchSpec SyntaxSpec Value Ast Lexer LexSpec Wp
  GrammarSpec Parser AstOk Compiler CompileProof ParseMain Fmt Stack Filters Render Engine EngineSpec CompileFacts
  RenderSpec RenderProof RenderErr MapFacts RenderMain WriteSpec RenderObs Props2 Demo.

Section Trees.
Lemma rall_string {A} (P : res A -> Prop) x : rall P x -> forall buf, P (snd (run_string buf x)).
Proof. induction x as [r|s o IHo e IHe]; cbn [rall run_string]; intros H buf; auto. apply IHo. tauto. Qed.
Lemma rall_run {A} (P : res A -> Prop) k x : rall P x -> forall w er, P (snd (run k w er x)).
Proof.
  induction x as [r|s o IHo e IHe]; cbn [rall run]; intros H w er; auto.
  destruct (sk_write k w s) as [w' [c|]]; [apply IHe|apply IHo]; tauto.
Qed.
Lemma string_result_of (x : rt unit) : string_result x =
  match ending x with Ok tt => Ok (concat (pieces x)) | Err e => Err e | Panic => Panic | OutOfFuel => OutOfFuel end.
Proof. unfold string_result. rewrite run_string_pieces. cbn [app]. now destruct (ending x) as [[]| | |]. Qed.
Lemma string_result_fuel x : rall (fun r : res unit => r <> OutOfFuel) x -> string_result x <> OutOfFuel.
Proof.
  intros H. pose proof (rall_string _ _ H []) as K. unfold string_result.
  destruct (run_string [] x) as [s [[]| | |]]; cbn in K; congruence.
Qed.
Lemma writer_result_fuel k w x : rall (fun r : res unit => r <> OutOfFuel) x -> snd (writer_result k w x) <> OutOfFuel.
Proof.
  intros H. pose proof (rall_run _ k _ H w None) as K. unfold writer_result.
  destruct (run k w None x) as [[w' [c|]] [[]| | |]]; cbn in *; congruence.
Qed.
End Trees.

Section Props3.
Context `{X : Ext}.

(** C11.  Whatever the templates, the engine, the context and the writer: running
    the compiled templates is interpreting their statements ([s_render],
    RenderSpec.v), both for the string returned (or the error) and for what every
    writer receives. *)
Theorem C11_compiled_means_source inner origin ast_of g st :
  statements inner origin ast_of -> initial_stack g = Ok st ->
  renders inner g (string_result (s_render inner ast_of st)) /\
  forall k w, writes inner g k w (writer_result k w (s_render inner ast_of st)).
Proof.
  intros H Hg. destruct (render_is_spec inner origin ast_of st H) as (n & Hn).
  assert (F : rall (fun r => r <> OutOfFuel) (s_render inner ast_of st)).
  { eapply rall_mono; [|apply (spec_fine inner origin ast_of false st H); discriminate]. intros [a|e| |]; cbn; congruence. }
  split.
  - split; [now apply string_result_fuel|]. exists n. intros fuel Hf. rewrite (to_string_result _ _ _ _ Hg). now rewrite Hn.
  - intros k w. split; [now apply writer_result_fuel|]. exists n. intros fuel Hf. rewrite (to_writer_result _ _ _ _ _ _ Hg). now rewrite Hn.
Qed.

(** C12.  Rendering compiled templates ends, for every context, engine, writer,
    template function and depth limit. *)
Theorem C12_rendering_terminates inner origin g :
  well_made inner origin -> initial_stack g <> OutOfFuel ->
  (exists r, renders inner g r) /\ forall k w, exists p, writes inner g k w p.
Proof.
  intros H Hg. destruct (initial_stack g) as [st|e| |] eqn:E; [| | |congruence].
  - destruct (statements_exist inner origin H) as (ast_of & Ha).
    destruct (C11_compiled_means_source inner origin ast_of g st Ha E) as (H1 & H2). eauto.
  - split; [exists (Err e)|intros k w; exists (w, Err e)]; (split; [cbn; congruence|]); exists 0; intros; unfold to_string, to_writer; now rewrite E.
  - split; [exists Panic|intros k w; exists (w, Panic)]; (split; [cbn; congruence|]); exists 0; intros; unfold to_string, to_writer; now rewrite E.
Qed.

(** C13 (partial).  Rendering does not panic if no template includes another from
    inside a [with] block (unless the include has its own [with]). *)
Theorem C13_rendering_never_panics_partial inner origin g :
  well_made inner origin ->
  (forall t s, provided inner t -> derives (origin t) (t_source t) s -> sharing_all false s) ->
  finished (initial_stack g) ->
  (forall r, renders inner g r -> finished r) /\ forall k w p, writes inner g k w p -> finished (snd p).
Proof.
  intros H0 Hs0 Hg. destruct (statements_exist inner origin H0) as (ast_of & H).
  assert (Hs : forall t, provided inner t -> sharing_all false (ast_of t)).
  { intros t Hp. apply (Hs0 t); auto. apply (H t Hp). }
  destruct (initial_stack g) as [st|e| |] eqn:E; cbn in Hg; try contradiction.
  - assert (F : rall (fun r => finished r) (s_render inner ast_of st)).
    { eapply rall_mono; [|apply (spec_fine inner origin ast_of true st H)].
      - intros [a|er| |]; cbn; auto; discriminate.
      - intros _. split; auto. destruct (initial_stack_shape _ _ E) as [(v & ->)|(f & ->)]; unfold no_vars; cbn; repeat constructor. }
    destruct (C11_compiled_means_source inner origin ast_of g st H E) as (H1 & H2). split.
    + intros r Hr. rewrite (renders_fun _ _ _ _ Hr H1).
      pose proof (rall_string _ _ F []) as K. unfold string_result.
      destruct (run_string [] _) as [s [[]| | |]]; cbn in *; auto.
    + intros k w p Hp. rewrite (writes_fun _ _ _ _ _ _ Hp (H2 k w)).
      pose proof (rall_run _ k _ F w None) as K. unfold writer_result.
      destruct (run k w None _) as [[w' [c|]] [[]| | |]]; cbn in *; auto.
  - split.
    + intros r (_ & n & Hr). rewrite <- (Hr n), <- (Nat.add_0_r n) by auto. unfold to_string. now rewrite E.
    + intros k w p (_ & n & Hr). rewrite <- (Hr n) by auto. unfold to_writer. now rewrite E.
Qed.

(** C21.  Each rendering has a sequence of texts such that [to_string] yields their
    concatenation, and [to_writer] hands exactly these texts, in order, to any
    writer that never fails; success or error are the same. *)
Theorem C21_string_and_writer_agree fuel inner g : exists chunks r,
  to_string fuel inner g = match r with Ok tt => Ok (concat chunks) | Err e => Err e | Panic => Panic | OutOfFuel => OutOfFuel end /\
  forall k w, never_fails k -> to_writer fuel inner g k w = (fst (feed k w chunks), r).
Proof.
  destruct (initial_stack g) as [st|e| |] eqn:E.
  - exists (pieces (render inner fuel st)), (ending (render inner fuel st)).
    split; [rewrite (to_string_result _ _ _ _ E); apply string_result_of|].
    intros k w Hk. rewrite (to_writer_result _ _ _ _ _ _ E). unfold writer_result.
    rewrite (proj1 (run_never_fails k _ Hk w)). now destruct (ending _).
  - exists [], (Err e). unfold to_string, to_writer. rewrite E. auto.
  - exists [], Panic. unfold to_string, to_writer. rewrite E. auto.
  - exists [], OutOfFuel. unfold to_string, to_writer. rewrite E. auto.
Qed.
(** In particular, for a writer that collects what it receives. *)
Definition buffer : sink := mksink str (fun w s => (w ++ s, None)).
Lemma feed_buffer l : forall w, feed buffer w l = (w ++ concat l, None).
Proof. induction l as [|s l IH]; intros w; cbn; [now rewrite app_nil_r|]. now rewrite IH, <- app_assoc. Qed.
Corollary C21_buffer fuel inner g w :
  (forall out, to_string fuel inner g = Ok out <-> to_writer fuel inner g buffer w = (w ++ out, Ok tt)) /\
  (forall e, to_string fuel inner g = Err e <-> exists w', to_writer fuel inner g buffer w = (w', Err e)).
Proof.
  destruct (C21_string_and_writer_agree fuel inner g) as (chunks & r & H1 & H2).
  specialize (H2 buffer w). rewrite H1, H2 by (intros ? ?; reflexivity). rewrite feed_buffer. cbn [fst].
  split; intros x.
  - destruct r as [[]|er| |]; (split; intros H; try discriminate).
    + injection H as ->. reflexivity.
    + assert (K : w ++ concat chunks = w ++ x) by (injection H as H; now rewrite H). apply app_inv_head in K. now rewrite K.
  - destruct r as [[]| | |]; (split; [intros H; try discriminate; injection H as ->; eexists; reflexivity|intros (? & H); congruence]).
Qed.

(** C22.  Formatters that give up when a write fails: there is a sequence of texts
    (those of [to_string]) such that a writer receives them in order up to the
    first one it refuses, and then rendering ends with that error. *)
Theorem C22_failing_writers inner origin g st :
  well_made inner origin -> formatters_stop (ri_engine inner) -> initial_stack g = Ok st ->
  exists chunks r,
    renders inner g (match r with Ok tt => Ok (concat chunks) | Err e => Err e | Panic => Panic | OutOfFuel => OutOfFuel end) /\
    forall k w, writes inner g k w (match feed k w chunks with
                                    | (w', None) => (w', r)
                                    | (w', Some code) => (w', Err (mk_io_error code))
                                    end).
Proof.
  intros H Hf Hg. destruct (statements_exist inner origin H) as (ast_of & Ha).
  destruct (C11_compiled_means_source inner origin ast_of g st Ha Hg) as (H1 & H2).
  set (x := s_render inner ast_of st) in *. exists (pieces x), (ending x).
  split; [rewrite <- string_result_of; exact H1|].
  assert (S : stops_rt x).
  { apply render_stops; auto. intros t Hp. split; [apply (statements_sourced _ _ _ Ha t Hp)|].
    destruct (Ha t Hp) as ((Hu & _ & Hv & _) & D). eapply derives_nonempty; eauto. }
  intros k w. pose proof (run_stops k x S w) as K. specialize (H2 k w). unfold writer_result in H2.
  destruct (feed k w (pieces x)) as [w' [c|]].
  - destruct K as (e & E). rewrite E in H2. exact H2.
  - rewrite K in H2. now destruct (ending x).
Qed.
(** [feed] spelled out: the texts before the refused one, then that one. *)
Lemma feed_refused k l : forall w w' c, feed k w l = (w', Some c) ->
  exists l1 s l2 w1, l = l1 ++ s :: l2 /\ feed k w l1 = (w1, None) /\ sk_write k w1 s = (w', Some c).
Proof.
  induction l as [|s l IH]; intros w w' c H; cbn [feed] in H; [discriminate|].
  destruct (sk_write k w s) as [w1 [c1|]] eqn:E.
  - injection H as -> ->. exists [], s, l, w. auto.
  - destruct (IH _ _ _ H) as (l1 & s' & l2 & w2 & -> & H2 & H3). exists (s :: l1), s', l2, w2. cbn [app feed]. rewrite E. auto.
Qed.

(** C28.  An error of a rendering is the depth error, or was raised by a template
    being rendered: the root or one reached from it by includes; it points to a
    place in the source of that template and carries its name ([raised]). *)
Theorem C28_errors_name_their_template inner origin ast_of g st e :
  statements inner origin ast_of -> initial_stack g = Ok st ->
  renders inner g (Err e) \/ (exists k w w', writes inner g k w (w', Err e) /\ forall c, e <> mk_io_error c) ->
  e = depth_error inner \/
  exists t n, nested inner ast_of (ri_template inner) (ri_template_name inner) t n /\ raised t n e.
Proof.
  intros H Hg. pose proof (spec_fine inner origin ast_of false st H ltac:(discriminate)) as F.
  destruct (C11_compiled_means_source inner origin ast_of g st H Hg) as (H1 & H2).
  intros [Hr|(k & w & w' & Hw & Hio)].
  - pose proof (renders_fun _ _ _ _ Hr H1) as E. pose proof (rall_string _ _ F []) as K. unfold string_result in E.
    destruct (run_string [] _) as [s [[]|e'| |]]; cbn in *; try discriminate. injection E as ->. exact K.
  - pose proof (writes_fun _ _ _ _ _ _ Hw (H2 k w)) as E. pose proof (rall_run _ k _ F w None) as K. unfold writer_result in E.
    destruct (run k w None _) as [[w1 [c|]] [[]|e'| |]]; cbn in *; try discriminate; injection E as -> ->; [congruence|exact K].
Qed.
End Props3.
Print Assumptions C11_compiled_means_source.
Print Assumptions C12_rendering_terminates.
Print Assumptions C13_rendering_never_panics_partial.
Print Assumptions C21_string_and_writer_agree.
Print Assumptions C21_buffer.
Print Assumptions C22_failing_writers.
Print Assumptions feed_refused.
Print Assumptions C28_errors_name_their_template.

Local Existing Instance ascii_ext.
(** Beside them: the demo engine meets the hypotheses. *)
Lemma chunks_stop l : stops_on_error (write_chunks l).
Proof. induction l; cbn; eauto. Qed.
Lemma default_stops v : stops_on_error (fmt_default v).
Proof. destruct v; cbn [fmt_default]; try exact I; apply chunks_stop. Qed.
Lemma demo_formatters_stop : formatters_stop demo_engine.
Proof.
  assert (E : en_functions demo_engine = [(s2b "upper", EFilter upper)]) by (vm_compute; reflexivity).
  assert (E' : en_default_formatter demo_engine = fmt_default) by (vm_compute; reflexivity).
  split.
  - intros v. rewrite E'. apply default_stops.
  - intros n f. rewrite E. cbn [map_get]. destruct (str_eqb _ _); [discriminate 1|discriminate 1].
Qed.
Example page_hypotheses : exists ast_of,
  statements (demo "page") (fun _ => default_syntax) ast_of /\
  initial_stack (GBorrowed demo_value) = Ok [FrScope (Borrowed demo_value)] /\
  formatters_stop (ri_engine (demo "page")) /\
  renders (demo "page") (GBorrowed demo_value) (Ok (s2b "<x>, <7> T -ANN-")).
Proof.
  destruct (statements_exist _ _ page_well_made) as (ast_of & Ha). exists ast_of. split; [exact Ha|]. split; [reflexivity|].
  split; [exact demo_formatters_stop|]. apply (renders_by _ 200); [exact demo_page|discriminate].
Qed.
Example page_no_include_in_with t s : provided (demo "page") t -> derives default_syntax (t_source t) s -> sharing_all false s.
Proof.
  intros Hp D.
  assert (Hv : valid_utf8 (t_source t)) by (destruct (page_well_made t Hp) as (_ & _ & H & _); exact H).
  apply (C08_accepted_iff_grammatical _ _ _ default_user_syntax (default_trims_ok _) demo_for Hv) in D.
  assert (Hi : In t (map snd (en_templates demo_engine))).
  { destruct Hp as [->|[(f & h & n & E & _)|(_ & n & E)]].
    - vm_compute. auto.
    - vm_compute in E. discriminate E.
    - apply map_get_In in E. apply (in_map snd) in E. exact E. }
  clear Hp Hv. revert D. revert t Hi.
  intros t Hi D.
  assert (L : exists ts, map snd (en_templates demo_engine) = ts /\ Forall (fun t => forall s, parse_template (en_searcher demo_engine) (t_source t) = Ok s -> sharing_all false s) ts).
  { eexists. split; [vm_compute; reflexivity|]. repeat apply Forall_cons; [..|apply Forall_nil]; intros s' E; vm_compute in E; injection E as <-; cbn [sharing_all sharing_ok]; repeat split. }
  destruct L as (ts & E & L). rewrite E in Hi. rewrite Forall_forall in L. eapply L; eauto.
Qed.

(** C13 in full is false of the code: an included template, in a [with] block of
    the includer, panics because the name of the [with] variable is looked up at
    its position in the wrong source (shown for the build without "unicode"). *)
Definition leak_engine : engine :=
  match engine_new with
  | Ok e => adds [("outer"%string, "{% with x as n %}{% include ""inner"" %}{% endwith %}"%string); ("inner"%string, "{{ y }}"%string)] e
  | _ => mkengine [] fmt_default [] [] 0
  end.
Lemma leak_for : engine_for default_syntax leak_engine.
Proof.
  unfold leak_engine. destruct engine_new as [e| | |] eqn:E; try (vm_compute in E; discriminate).
  apply adds_for; [vm_compute; reflexivity|]. now apply ef_new.
Qed.
Theorem C13_include_in_with_refuted :
  engine_for default_syntax leak_engine /\ well_made (renderer_of leak_engine "outer") (fun _ => default_syntax) /\
  renders (renderer_of leak_engine "outer") (GBorrowed (VMap [(s2b "x", VInt 1); (s2b "y", VInt 2)])) Panic.
Proof.
  split; [exact leak_for|]. split.
  - apply renderer_well_made; [exact leak_for|]. intros E. vm_compute in E. discriminate E.
  - apply (renders_by _ 50); [vm_compute; reflexivity|discriminate].
Qed.
Print Assumptions C13_include_in_with_refuted.

(** A writer that refuses its third write, and one error of each kind. *)
Definition third : sink := mksink (nat * str) (fun w s => if fst w =? 2 then (w, Some 5%N) else ((S (fst w), snd w ++ s), None)).
Example page_third : writes (demo "page") (GBorrowed demo_value) third (0, []) ((2, s2b "<x"), Err (mk_io_error 5)).
Proof. apply (writes_by _ 200); [vm_compute; reflexivity|discriminate]. Qed.
Example again_depth : renders (demo "again") (GBorrowed VNone) (Err (depth_error (demo "again"))).
Proof. apply (renders_by _ 200); [vm_compute; reflexivity|discriminate]. Qed.
Example row_error : exists e, renders (demo "page") (GBorrowed (VMap [(s2b "items", VList [VInt 1])])) (Err e) /\ 
  e_name e = Some (s2b "row").
Proof. eexists. split; [apply (renders_by _ 200); [vm_compute; reflexivity|discriminate]|reflexivity]. Qed.
