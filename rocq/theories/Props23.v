(** C50: the name of a template matters only in errors.  C25: what [compile] depends on.  C22: the source of an error. *)
From Verif Require Import Base Utf8 Ext Errors Syntax AhoCorasick SearchSpec SyntaxSpec Value Ast Lexer LexSpec Wp
  GrammarSpec Parser AstOk Compiler CompileProof ParseMain Fmt Stack Filters Render Engine EngineSpec CompileFacts
  RenderSpec RenderProof RenderErr MapFacts RenderMain RenderObs Props2 Props3 OriginSpec Props11 Demo NameSpec Naming.

Section C50.
Context `{X : Ext}.
Lemma called_well_made n inner origin : well_made inner origin -> well_made (called n inner) origin.
Proof. intros H t Hp. exact (H t Hp). Qed.
(** C50.  Of two renderers that differ in the name of their template only, both end alike: with the
    same text, or with errors that are equal or differ in that name; a writer gets the same bytes. *)
Theorem C50_name_only_in_errors inner origin n1 n2 g :
  well_made inner origin -> initial_stack g <> OutOfFuel ->
  (forall r1, renders (called n1 inner) g r1 -> exists r2, renders (called n2 inner) g r2 /\ same_up_to_name n1 n2 r1 r2) /\
  forall k w w' r1, writes (called n1 inner) g k w (w', r1) ->
    exists r2, writes (called n2 inner) g k w (w', r2) /\ same_up_to_name n1 n2 r1 r2.
Proof.
  intros Hw Hg. destruct (C12_rendering_terminates _ _ _ (called_well_made n2 _ _ Hw) Hg) as ((r2 & R2) & W2). split.
  - intros r1 R1. exists r2. split; [exact R2|]. destruct R1 as (_ & a & Ha), R2 as (_ & b & Hb).
    rewrite <- (Ha (a + b)), <- (Hb (a + b)) by lia. apply to_string_twin.
  - intros k w w' r1 W1. destruct (W2 k w) as ((w2 & r3) & W3). exists r3.
    assert (E : w' = w2 /\ same_up_to_name n1 n2 r1 r3).
    { destruct W1 as (_ & a & Ha), W3 as (_ & b & Hb). specialize (Ha (a + b)). specialize (Hb (a + b)).
      pose proof (to_writer_twin n1 n2 inner (a + b) g k w) as K. rewrite Ha, Hb in K by lia. exact K. }
    destruct E as (-> & E). auto.
Qed.
Lemma compile_same sx e1 e2 source : engine_for sx e1 -> engine_for sx e2 -> engine_compile source e1 = engine_compile source e2.
Proof.
  intros H1 H2. apply engine_searcher in H1. apply engine_searcher in H2. unfold engine_compile. congruence.
Qed.
(** C25.  What [compile] returns is determined by the syntax of the engine and the source: it does
    not depend on the functions and templates registered, on the settings, or on the history. *)
Theorem C25_compile_from_syntax sx e1 e2 source name : engine_for sx e1 -> engine_for sx e2 ->
  engine_compile source e1 = engine_compile source e2 /\
  snd (add_template name source e1) = snd (add_template name source e2).
Proof.
  intros H1 H2. pose proof (compile_same sx e1 e2 source H1 H2) as K. split; [exact K|].
  unfold add_template. rewrite K. now destruct (engine_compile source e2).
Qed.
(** C50.  Adding a template and rendering it by its name is compiling its text and rendering that,
    but for the name in errors. *)
Theorem C50_added_or_compiled sx e name source e' g :
  user_syntax sx -> valid_utf8 source -> trims_ok sx source ->
  (forall n t', In (n, t') (en_templates e) -> trims_ok sx (t_source t')) ->
  engine_for sx e -> add_template name source e = (e', Ok tt) -> initial_stack g <> OutOfFuel ->
  exists t r, engine_compile source e = Ok t /\ engine_template name e' = Ok r /\
    forall r1, renders (template_ref_renderer r e') g r1 ->
    exists r2, renders (template_renderer t e') g r2 /\ same_up_to_name (Some name) None r1 r2.
Proof.
  intros Hu Hv Ht Hts He Ea Hg. assert (He' : engine_for sx e').
  { pose proof (ef_template sx name source e Hv He) as K. rewrite Ea in K. exact K. }
  unfold add_template in Ea. destruct (engine_compile source e) as [t| | |] eqn:Ec; try discriminate. injection Ea as <-.
  exists t, (name, t). split; [reflexivity|]. split.
  - unfold engine_template, engine_get_template. cbn [en_templates set_templates]. now rewrite map_get_insert_same.
  - set (e' := set_templates _ e) in *. assert (W : well_made (template_renderer t e') (fun _ => sx)).
    { pose proof (compile_source _ _ _ Ec) as S. apply engine_well_made; auto.
      - intros n t' [Hi|Hi]%In_map_insert; [injection Hi as -> ->; now rewrite S|eauto].
      - eapply compiled_template; eauto. }
    destruct (C50_name_only_in_errors _ _ (Some name) None g W Hg) as (K & _). exact K.
Qed.

(** C22.  The source of an error ([std::error::Error::source]): an error of [to_string] has none; an
    error of [to_writer] has one only if the writer refused something, and it is the writer's last error. *)
Theorem C22_error_source inner origin g :
  well_made inner origin -> initial_stack g <> OutOfFuel -> (forall e, initial_stack g = Err e -> error_source e = None) ->
  (forall e, renders inner g (Err e) -> error_source e = None) /\
  forall k w w' log e, writes inner g (logging k) (w, []) ((w', log), Err e) ->
    writes inner g k w (w', Err e) /\ error_source e = last_refusal log.
Proof.
  intros Hw Hg Hi. assert (R : forall e, renders inner g (Err e) -> error_source e = None).
  { intros e He. destruct (initial_stack g) as [st|e0| |] eqn:Es.
    - destruct (statements_exist _ _ Hw) as (ast_of & Hs).
      destruct (C28_errors_name_their_template _ _ _ _ _ e Hs Es (or_introl He)) as [->|(t' & n & _ & K)]; [reflexivity|].
      destruct K as (e1 & K & ->). assert (N : error_source e1 = None).
      { unfold error_source. destruct K as [(_ & [-> | [-> | ->]] & _)|E1]; [reflexivity..|]. now rewrite E1. }
      destruct n as [s|]; [|exact N]. unfold error_source, with_template_name in *. destruct (e_name e1); exact N.
    - destruct He as (_ & n & He). specialize (He n (le_n _)). unfold to_string in He. rewrite Es in He. cbn in He. injection He as ->. now apply Hi.
    - destruct He as (_ & n & He). specialize (He n (le_n _)). unfold to_string in He. rewrite Es in He. discriminate.
    - congruence. }
  split; [exact R|]. intros k w w' log e He.
  destruct (C22_last_refusal inner origin g k w w' log (Err e) Hw He) as (W & H1 & H2). split; [exact W|].
  destruct (last_refusal log) as [c|].
  - destruct (H1 c eq_refl) as [K|[K|K]]; try discriminate. injection K as ->. reflexivity.
  - destruct (C12_rendering_terminates _ _ _ Hw Hg) as ((o & Ho) & _). apply R. rewrite <- (H2 eq_refl o Ho). exact Ho.
Qed.
End C50.
Print Assumptions C50_name_only_in_errors.
Print Assumptions C50_added_or_compiled.
Print Assumptions C25_compile_from_syntax.
Print Assumptions C22_error_source.

(** ** Concrete cases *)
Local Existing Instance ascii_ext.
(** A page that fails in itself and one that fails in an included template, rendered by name, by another
    name and without one: the name shows in the first error only. *)
Definition shown_name (n : option str) (page : string) : option (option str * option str) :=
  match to_string 200 (called n (demo page)) (GBorrowed (VMap [(s2b "items", VList [VInt 1]); (s2b "title", VInt 2)])) with
  | Err e => Some (e_name e, e_reason e) | _ => None end.
Example C50_case :
  well_made (demo "foot") (fun _ => default_syntax) /\ well_made (demo "page") (fun _ => default_syntax) /\
  shown_name (Some (s2b "foot")) "foot" = Some (Some (s2b "foot"), Some (s2b "not found in this scope")) /\
  shown_name (Some (s2b "feet")) "foot" = Some (Some (s2b "feet"), Some (s2b "not found in this scope")) /\
  shown_name None "foot" = Some (None, Some (s2b "not found in this scope")) /\
  shown_name (Some (s2b "page")) "page" = shown_name None "page" /\
  shown_name None "page" = Some (Some (s2b "row"), Some (s2b "integer does not support key-based access")).
Proof.
  split; [apply demo_well_made; vm_compute; reflexivity|]. split; [exact page_well_made|].
  split; [vm_compute; reflexivity|]. split; [vm_compute; reflexivity|]. split; [vm_compute; reflexivity|]. split; vm_compute; reflexivity.
Qed.
(** A template added to the demo engine. *)
Example C50_added_case :
  snd (add_template (s2b "new") (s2b "{% include ""row"" %} {{ title }}") demo_engine) = Ok tt /\
  match engine_compile (s2b "{% include ""row"" %} {{ title }}") demo_engine with Ok t =>
    to_string 200 (template_renderer t demo_engine) (GBorrowed (VMap [(s2b "item", VMap [(s2b "name", VInt 3)]); (s2b "loop", VMap [(s2b "last", VBool true)]); (s2b "title", VInt 2)]))
    = Ok (s2b "<3> 2") | _ => False end.
Proof. split; vm_compute; reflexivity. Qed.
(** A writer that takes six bytes and then refuses with code 7, and a writer that takes all: the
    source of the first error is the refusal, the second error has none. *)
Definition short_writer : sink := mksink nat (fun room s => if (length s <=? room)%nat then (room - length s, None) else (0, Some 7%N)).
Example C22_source_case :
  match snd (to_writer 200 (demo "page") (GBorrowed demo_value) short_writer 6) with Err e => error_source e = Some 7%N | _ => False end /\
  match snd (to_writer 200 (demo "page") (GBorrowed (VMap [])) short_writer 6) with Err e => error_source e = None | _ => False end.
Proof. split; vm_compute; reflexivity. Qed.
