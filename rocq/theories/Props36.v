(** C63: which errors which calls return. *)
From Verif Require Import Base Utf8 Ext Errors Syntax SyntaxSpec Value Ast LexSpec Parser Compiler Fmt Stack Filters Render Engine EngineSpec
  RenderSpec RenderObs RenderMain UseSpec Serde SerdeSpec Props2 Props10 Props15 Demo KindSpec Kinds.

Section C63.
Context `{X : Ext}.

(** C63.  An error of rendering to a string is the error of serializing the context, or one of
    those of KindSpec.v: never a syntax error, never an io error. *)
Theorem C63_to_string fuel inner g e : to_string fuel inner g = Err e ->
  g = GOwned (Err e) \/ rendering_error (max_include_depth inner) e.
Proof.
  unfold to_string. destruct (initial_stack g) as [st|er| |] eqn:Eg; cbn [bind]; try discriminate.
  - intros E. right. pose proof (string_along _ _ (along_render inner fuel st) []) as K.
    destruct (run_string [] (render inner fuel st)) as [o [[]|er| |]]; try discriminate. injection E as <-. exact K.
  - intros E. injection E as ->. left. destruct g as [[v|er| |]|v|f]; cbn in Eg; congruence.
Qed.

(** C63.  And to a writer: also the io error that the writer gave. *)
Theorem C63_to_writer fuel inner g k w w' e : to_writer fuel inner g k w = (w', Err e) ->
  (g = GOwned (Err e) /\ w' = w) \/ (exists code, e = mk_io_error code) \/ rendering_error (max_include_depth inner) e.
Proof.
  unfold to_writer. destruct (initial_stack g) as [st|er| |] eqn:Eg; try discriminate.
  - intros E. right. pose proof (run_along _ k _ (along_render inner fuel st) w) as K.
    destruct (run k w None (render inner fuel st)) as [[w1 io] r]. cbn [fst snd] in K. destruct io as [c|]; destruct r as [[]|er| |]; try discriminate; injection E as _ <-; [left; eauto|right; now apply K].
  - intros E. injection E as <- ->. left. split; [|reflexivity]. destruct g as [[v|er| |]|v|f]; cbn in Eg; congruence.
Qed.

(** C63.  A writer that takes everything gets no io error. *)
Theorem C63_good_writer fuel inner g k w w' e : (forall s x, snd (sk_write k s x) = None) ->
  to_writer fuel inner g k w = (w', Err e) -> g = GOwned (Err e) \/ rendering_error (max_include_depth inner) e.
Proof.
  intros Hk. assert (N : forall A (x : rt A) w, snd (fst (run k w None x)) = None).
  { intros A x. induction x as [r|s o IHo er _]; intros v; cbn [run]; [reflexivity|]. pose proof (Hk v s) as Ev. destruct (sk_write k v s) as [v' [c|]]; [discriminate Ev|apply IHo]. }
  unfold to_writer. destruct (initial_stack g) as [st|er| |] eqn:Eg; try discriminate.
  - intros E. right. pose proof (run_along _ k _ (along_render inner fuel st) w (N _ _ _)) as K. specialize (N _ (render inner fuel st) w).
    destruct (run k w None (render inner fuel st)) as [[w1 io] r]. cbn [fst snd] in *. subst io. destruct r as [[]|er| |]; try discriminate; injection E as _ <-. exact K.
  - intros E. injection E as _ ->. left. destruct g as [[v|er| |]|v|f]; cbn in Eg; congruence.
Qed.

(** C63.  Rendering from a value or a function makes no serialization error: without the
    feature "serde" there is none. *)
Theorem C63_no_serialization fuel inner g : match g with GOwned _ => False | _ => True end ->
  (forall e, to_string fuel inner g = Err e -> e_kind e <> KSerialize) /\
  forall k w w' e, to_writer fuel inner g k w = (w', Err e) -> e_kind e <> KSerialize.
Proof.
  assert (R : forall l e, rendering_error l e -> e_kind e <> KSerialize) by (intros l e H K; unfold rendering_error in H; now rewrite K in H).
  intros Hg. split.
  - intros e E. apply C63_to_string in E as [->|H]; [destruct Hg|]. exact (R _ _ H).
  - intros k w w' e E. apply C63_to_writer in E as [(-> & _)|[(c & ->)|H]]; [destruct Hg|discriminate|exact (R _ _ H)].
Qed.

(** C63.  Serialization makes only serialization errors, which say why and mark no place. *)
Theorem C63_serializing d e : machine d -> to_value d = Err e -> e_kind e = KSerialize /\ explained e /\ ~ placed e /\ e_name e = None.
Proof.
  intros Hm E. destruct (C26_rules d Hm) as (r & _ & _ & Er). rewrite E in Er. destruct r as [v|m]; [discriminate|]. injection Er as ->.
  split; [reflexivity|]. split; [discriminate|]. split; [|reflexivity]. unfold placed. cbn. auto.
Qed.

(** C63.  Compiling makes only syntax errors, which say why and mark a place; adding a template
    also names it. *)
Theorem C63_compiling sx source en e : user_syntax sx -> trims_ok sx source -> engine_for sx en -> valid_utf8 source ->
  engine_compile source en = Err e -> e_kind e = KSyntax /\ explained e /\ placed e /\ e_name e = None.
Proof.
  intros Hu Hc He Hv E. destruct (C44_reason sx en source e Hu Hc He Hv E) as (sp & why & p & -> & _).
  split; [reflexivity|]. split; [discriminate|]. split; [discriminate|reflexivity].
Qed.
Theorem C63_adding sx name source en en' e : user_syntax sx -> trims_ok sx source -> engine_for sx en -> valid_utf8 source ->
  add_template name source en = (en', Err e) -> e_kind e = KSyntax /\ explained e /\ placed e /\ e_name e = Some name.
Proof.
  intros Hu Hc He Hv. unfold add_template. destruct (engine_compile source en) as [t|er| |] eqn:E; try discriminate. intros K. injection K as _ <-.
  destruct (C63_compiling sx source en er Hu Hc He Hv E) as (K1 & K2 & K3 & K4). unfold with_template_name. rewrite K4. cbn. auto.
Qed.
End C63.
Print Assumptions C63_to_string.
Print Assumptions C63_to_writer.
Print Assumptions C63_good_writer.
Print Assumptions C63_no_serialization.
Print Assumptions C63_serializing.
Print Assumptions C63_compiling.
Print Assumptions C63_adding.

(** ** Concrete cases: an error of each kind *)
Local Existing Instance ascii_ext.
Definition kinds_engine : engine :=
  fst (add_formatter (s2b "cross") (fun _ => FFail (Some (s2b "too cross"))) (fst (add_filter (s2b "fussy") (mkfilter TyStr [] (fun _ _ => inr (s2b "not this"))) demo_engine))).
Definition outcome_of (source : string) (g : globals) : option (ekind * option str * bool) :=
  match engine_compile (s2b source) kinds_engine with
  | Ok t => match to_string 200 (template_renderer t kinds_engine) g with Err e => Some (e_kind e, e_reason e, match e_pretty e with Some _ => true | None => false end) | _ => None end
  | Err e => Some (e_kind e, e_reason e, match e_pretty e with Some _ => true | None => false end)
  | _ => None
  end.
Example a_render_error : outcome_of "{{ nobody }}" (GBorrowed demo_value) = Some (KRender, Some (s2b "not found in this scope"), true).
Proof. vm_compute. reflexivity. Qed.
Example a_depth_error : outcome_of "{% include ""again"" %}" (GBorrowed demo_value) = Some (KRender, Some (s2b "reached maximum include depth (64)"), false).
Proof. vm_compute. reflexivity. Qed.
Example a_filter_error : outcome_of "{{ title | fussy }}" (GBorrowed demo_value) = Some (KFilter, Some (s2b "not this"), true).
Proof. vm_compute. reflexivity. Qed.
Example a_format_error : outcome_of "{{ title | cross }}" (GBorrowed demo_value) = Some (KFormat, Some (s2b "too cross"), true).
Proof. vm_compute. reflexivity. Qed.
Example a_syntax_error : option_map (fun x => fst (fst x)) (outcome_of "{{ title" (GBorrowed demo_value)) = Some KSyntax.
Proof. vm_compute. reflexivity. Qed.
Example a_serialization_error : outcome_of "{{ title }}" (GOwned (to_value (SU128 5))) = Some (KSerialize, Some (s2b "u128 is not supported"), false).
Proof. vm_compute. reflexivity. Qed.
(** A writer that refuses everything, and one that takes everything. *)
Definition refusing : sink := mksink unit (fun _ _ => (tt, Some 28%N)).
Definition taking : sink := mksink str (fun w s => (w ++ s, None)).
Example an_io_error : snd (to_writer 200 (demo "page") (GBorrowed demo_value) refusing tt) = Err (mk_io_error 28).
Proof. vm_compute. reflexivity. Qed.
Example a_good_writer : (forall s x, snd (sk_write taking s x) = None) /\ snd (to_writer 200 (demo "again") (GBorrowed demo_value) taking []) <> Ok tt.
Proof. split; [reflexivity|]. vm_compute. discriminate. Qed.
