(** Properties C25, C27: the engine's registries, error locations. *)
From Verif Require Import Base Utf8 Ext Errors Syntax AhoCorasick SearchSpec SyntaxSpec Value Ast Lexer LexSpec Wp
  GrammarSpec Parser AstOk Compiler CompileProof ParseMain Fmt Stack Filters Render Engine EngineSpec CompileFacts
  RenderSpec RenderProof RenderErr MapFacts RenderMain RenderObs Props2 Demo Props3 RegistrySpec RegistryProof CompileErr
  LocSpec LocProof.

(** ** C25 *)
Section C25.
Context `{X : Ext}.
Lemma compile_unnamed e0 s e : engine_compile s e0 = Err e -> e_name e = None.
Proof.
  intros E. pose proof (sy_compile (en_searcher e0) s) as K. unfold engine_compile in E. rewrite E in K.
  destruct K as (r & sp & p & _ & ->). reflexivity.
Qed.
(** C28.  An error of [add_template] carries the name given, whatever was registered
    before, and is otherwise the error of [compile], which has no name. *)
Theorem C28_compile_errors name source e :
  (forall err, snd (add_template name source e) = Err err -> e_name err = Some name) /\
  (forall err, engine_compile source e = Err err ->
    e_name err = None /\ snd (add_template name source e) = Err (mkerror (e_kind err) (Some name) (e_reason err) (e_pretty err))).
Proof.
  unfold add_template. split.
  - destruct (engine_compile source e) as [t|err0| |] eqn:E; cbn [snd]; try discriminate. intros err H. injection H as <-.
    unfold with_template_name. rewrite (compile_unnamed _ _ _ E). reflexivity.
  - intros err E. rewrite E. pose proof (compile_unnamed _ _ _ E) as N. split; [exact N|]. cbn [snd]. unfold with_template_name. now rewrite N.
Qed.
(** C28.  The root: [Engine::template(name)] and [get_template(name)] render the
    template registered as [name] under that name, a [Template] renders without one. *)
Theorem C28_root e origin ast_of g st err :
  initial_stack g = Ok st ->
  (forall name t, map_get name (en_templates e) = Some t ->
    exists r, engine_get_template name e = Some r /\ engine_template name e = Ok r /\
    let inner := template_ref_renderer r e in
    statements inner origin ast_of -> renders inner g (Err err) ->
    err = depth_error inner \/ exists t' n, nested inner ast_of t (Some name) t' n /\ raised t' n err) /\
  (forall t, let inner := template_renderer t e in
    statements inner origin ast_of -> renders inner g (Err err) ->
    err = depth_error inner \/ exists t' n, nested inner ast_of t None t' n /\ raised t' n err).
Proof.
  intros Hg. split.
  - intros name t E. exists (name, t). unfold engine_template, engine_get_template. rewrite E. split; [reflexivity|]. split; [reflexivity|].
    intros Hs Hr. exact (C28_errors_name_their_template _ origin ast_of g st err Hs Hg (or_introl Hr)).
  - intros t inner Hs Hr. exact (C28_errors_name_their_template inner origin ast_of g st err Hs Hg (or_introl Hr)).
Qed.
Lemma new_blank sx e0 : engine_with_syntax sx = Ok e0 -> tidy e0 /\ holds e0 blank.
Proof.
  unfold engine_with_syntax. destruct (searcher_new sx) as [sr| | |]; cbn [bind]; try discriminate. intros E. injection E as <-.
  split; [split; exact I|]. split; reflexivity.
Qed.
Lemma call_searcher o e : en_searcher (fst (call o e)) = en_searcher e.
Proof.
  destruct o as [n f|n f|n|n t|n|n|n|t|f|n]; cbn [call]; auto.
  unfold add_template. now destruct (engine_compile t e).
Qed.
Lemma calls_searcher l : forall e, en_searcher (fst (call_all l e)) = en_searcher e.
Proof.
  induction l as [|o l IH]; intros e; cbn [call_all]; [reflexivity|].
  pose proof (call_searcher o e) as K. destruct (call o e) as [e1 r]. cbn in K. specialize (IH e1). destruct (call_all l e1) as [e2 rs]. cbn in *. congruence.
Qed.
(** C25.  The calls made on an engine are answered as by two finite maps and two
    settings ([expect]): a call of [add_template] whose text does not compile
    changes nothing and returns the compiler's error with the name put in. *)
Theorem C25_engine_is_two_maps sx e0 ops : engine_with_syntax sx = Ok e0 ->
  let '(e, replies) := call_all ops e0 in
  let '(s, expected) := expect_all (fun text => engine_compile text e0) ops blank in
  replies = expected /\ holds e s.
Proof.
  intros E. destruct (new_blank _ _ E) as (T & H).
  pose proof (call_expect_all (fun text => engine_compile text e0) (compile_unnamed e0) ops e0 blank (fun _ => eq_refl) T H) as K.
  destruct (call_all ops e0) as [e r], (expect_all _ ops blank) as [s r']. tauto.
Qed.
(** C25.  Only what the maps hold matters: two histories that lead to the same maps
    lead to the same engine. *)
Theorem C25_history_irrelevant sx e0 ops ops' : engine_with_syntax sx = Ok e0 ->
  let s := fst (expect_all (fun text => engine_compile text e0) ops blank) in
  let s' := fst (expect_all (fun text => engine_compile text e0) ops' blank) in
  (forall n, rg_functions s n = rg_functions s' n) -> (forall n, rg_templates s n = rg_templates s' n) ->
  rg_default s = rg_default s' -> rg_depth s = rg_depth s' ->
  fst (call_all ops e0) = fst (call_all ops' e0).
Proof.
  intros E s s' H1 H2 H3 H4. destruct (new_blank _ _ E) as (T & H).
  pose proof (call_expect_all _ (compile_unnamed e0) ops e0 blank (fun _ => eq_refl) T H) as K.
  pose proof (call_expect_all _ (compile_unnamed e0) ops' e0 blank (fun _ => eq_refl) T H) as K'.
  pose proof (calls_searcher ops e0) as Es. pose proof (calls_searcher ops' e0) as Es'.
  unfold s, s' in *. destruct (call_all ops e0) as [e r], (call_all ops' e0) as [e' r'].
  destruct (expect_all _ ops blank) as [a b], (expect_all _ ops' blank) as [a' b']. cbn [fst] in *.
  destruct K as (_ & _ & Te & [K1 K2 K3 K4]), K' as (_ & _ & Te' & [K1' K2' K3' K4']).
  apply (holds_fun e e' a Te Te'); [congruence|split; auto|]. split; intros; congruence.
Qed.
End C25.
Print Assumptions C25_engine_is_two_maps.
Print Assumptions C25_history_irrelevant.
Print Assumptions C28_compile_errors.
Print Assumptions C28_root.

(** ** C27 *)
Section C27.
Context `{X : Ext}.
(** C27.  A place of a text is on exactly one line: the line numbered by the line
    breaks before it. *)
Theorem C27_places s m : m <= length s ->
  exists ln col text, at_line_column s m ln col text /\ ln = newlines (firstn m s) /\
    forall ln' col' text', at_line_column s m ln' col' text' -> ln' = ln /\ col' = col /\ text' = text.
Proof.
  intros H. destruct (place_exists s m H) as (ln & col & text & P). exists ln, col, text. split; [exact P|]. split; [now apply place_line in P|].
  intros ln' col' text' P'. destruct (place_unique s m _ _ _ _ _ _ P' P) as (-> & -> & ->). auto.
Qed.
(** C27.  Every error of the compiler is a syntax error that shows a line of the
    source.  If the source is displayed with one column per byte, the line, column
    and text shown are those of the start of the range it points to.  For the other
    sources the place shown is the one that [shown] describes, which is wrong (see
    [C27_shown_exact] and [C27_refuted]); as it is at the very end of a source that ends
    with a line break. *)
Theorem C27_syntax_errors_partial source e err : engine_compile source e = Err err ->
  exists reason sp p, err = mkerror KSyntax None (Some reason) (Some p) /\
    sp_m sp <= sp_n sp <= length source /\ is_line source (p_text p) /\
    p_width p = Nat.max 1 (display_width (sub source (sp_m sp) (sp_n sp))) /\
    shown source (sp_m sp) (p_ln p) (p_col p) (p_text p) /\
    (narrow source -> ~ past_last_line source (sp_m sp) -> at_line_column source (sp_m sp) (p_ln p) (p_col p) (p_text p)).
Proof.
  intros E. pose proof (sy_compile (en_searcher e) source) as K. unfold engine_compile in E. rewrite E in K.
  destruct K as (r & sp & p & Ep & ->). exists r, sp, p. split; [reflexivity|]. split; [now apply pretty_in_range in Ep|].
  split; [now apply pretty_line in Ep|]. split; [now apply pretty_width|]. split; [now apply pretty_shown|].
  intros Hn Hp. now apply narrow_place.
Qed.
(** C27.  The same for an error of a rendering, unless it is the depth error or a
    failed write: it shows a line of the template it names (C28). *)
Theorem C27_render_errors_partial inner origin ast_of g st err :
  statements inner origin ast_of -> initial_stack g = Ok st ->
  renders inner g (Err err) \/ (exists k w w', writes inner g k w (w', Err err) /\ forall c, err <> mk_io_error c) ->
  err = depth_error inner \/
  exists t n, nested inner ast_of (ri_template inner) (ri_template_name inner) t n /\
    ((e_kind err = KFormat /\ e_pretty err = None) \/
     exists sp p, e_pretty err = Some p /\ sp_m sp <= sp_n sp <= length (t_source t) /\ is_line (t_source t) (p_text p) /\
       p_width p = Nat.max 1 (display_width (sub (t_source t) (sp_m sp) (sp_n sp))) /\
       shown (t_source t) (sp_m sp) (p_ln p) (p_col p) (p_text p) /\
       (narrow (t_source t) -> ~ past_last_line (t_source t) (sp_m sp) -> at_line_column (t_source t) (sp_m sp) (p_ln p) (p_col p) (p_text p))).
Proof.
  intros Hs Hg Hr. destruct (C28_errors_name_their_template inner origin ast_of g st err Hs Hg Hr) as [->|(t & n & Hn & e0 & He & ->)]; [now left|].
  right. exists t, n. split; [exact Hn|]. destruct He as [(N & K & sp & p & Hsp & Ep & E)| -> ].
  - right. exists sp, p. assert (E' : e_pretty (match n with Some s => with_template_name e0 s | None => e0 end) = Some p).
    { destruct n; [|exact E]. unfold with_template_name. now rewrite N. }
    split; [exact E'|]. split; [now apply pretty_in_range in Ep|]. split; [now apply pretty_line in Ep|].
    split; [now apply pretty_width|]. split; [now apply pretty_shown|]. intros Hw Hp. now apply narrow_place.
  - left. destruct n; auto.
Qed.
(** C27.  What [shown] says: there is one place it allows, and it is the right one
    exactly when the lines before take as many columns as they have bytes and the line is
    wide enough.  So the error shows the right place exactly then. *)
Theorem C27_shown_exact s m ln col text : shown s m ln col text ->
  (forall ln' col' text', shown s m ln' col' text' -> ln' = ln /\ col' = col /\ text' = text) /\
  (forall before text' after col', line_at s before text' after -> m = length before + col' -> col' <= length text' -> ~ past_last_line s m ->
    (ln = newlines before /\ col = col' <-> columns before (length before) /\ col' <= display_width text')).
Proof.
  intros Sh. split.
  - intros ln' col' text' Sh'. destruct (shown_unique _ _ _ _ _ _ _ _ Sh Sh') as (-> & -> & ->). auto.
  - intros b t' a c' Hl Em Hc Hp. now apply (shown_right s m ln col text b t' a c').
Qed.
(** C27.  More precisely, only the widths of the lines before matter, and that the
    line is at least as wide as the column. *)
Theorem C27_location_partial s sp p before text after col :
  line_at s before text after -> text ++ after <> [] ->
  (forall b l a, line_at s b l a -> length b < length before -> display_width l = length l) ->
  sp_m sp = length before + col -> col <= display_width text ->
  build_pretty s sp = Ok p -> p_ln p = newlines before /\ p_col p = col /\ p_text p = text.
Proof. apply build_pretty_place. Qed.
(** C27.  The message shows line and column, counted from 1, after the name. *)
Theorem C27_message e reason p : e_reason e = Some reason -> e_pretty e = Some p ->
  exists post pad, (forall b, In b pad -> b = x20) /\
  display_error_alt e = kind_msg (e_kind e) ++ [x0a; x0a] ++ pad ++ s2b "--> " ++ match e_name e with Some n => n | None => s2b "<anonymous>" end
    ++ s2b ":" ++ show_nat (p_ln p + 1) ++ s2b ":" ++ show_nat (p_col p + 1) ++ [x0a] ++ post.
Proof.
  intros Hr Hp. unfold display_error_alt. rewrite Hr, Hp. unfold fmt_with_reason, nl, spaces. eexists.
  exists (s2b " " ++ repeat x20 (display_width (show_nat (p_ln p + 1)))). split.
  - intros b Hb. apply in_app_or in Hb as [[<-|[]]|Hb]; [reflexivity|now apply repeat_spec in Hb].
  - rewrite <- !app_assoc. reflexivity.
Qed.
End C27.
Print Assumptions C27_places.
Print Assumptions C27_syntax_errors_partial.
Print Assumptions C27_render_errors_partial.
Print Assumptions C27_shown_exact.
Print Assumptions C27_location_partial.
Print Assumptions C27_message.

(** ** Examples *)
Local Existing Instance ascii_ext.
Lemma chars_ascii_cons x t : (byte_N x <? 128)%N = true -> asciib t = true -> chars (x :: t) = byte_N x :: chars t.
Proof.
  intros H1 H2. apply N.ltb_lt in H1. pose proof (chars_encode (byte_N x) t ltac:(unfold scalar; lia) (asciib_valid _ H2)) as E.
  rewrite LexProof.encode_ascii in E by exact H1. replace (byte_of (byte_N x)) with x in E; [exact E|].
  unfold byte_of, byte_N. now rewrite Byte.of_to_N.
Qed.
Lemma ascii_narrow s : asciib s = true -> narrow s.
Proof.
  intros H t (b & a & [E _ _ _]). cbn [display_width ascii_ext]. subst s. rewrite !TokStream.asciib_app in H.
  apply andb_prop in H as [_ H]. apply andb_prop in H as [H _]. clear - H.
  induction t as [|x t IH]; [reflexivity|]. unfold asciib in H. cbn [forallb] in H. apply andb_prop in H as [H1 H2].
  rewrite (chars_ascii_cons x t H1 H2). cbn [length]. now rewrite IH.
Qed.
(** Beside C25: a history on a new engine with every kind of call. *)
Definition plain_engine : engine := match engine_new with Ok e => e | _ => mkengine [] fmt_default [] [] 0 end.
Definition history : list op :=
  [AddTemplate (s2b "a") (s2b "x{{ y }}"); AddTemplate (s2b "a") (s2b "{{"); AddFilter (s2b "f") upper; AddFormatter (s2b "f") fmt_default;
   RemoveTemplate (s2b "b"); RemoveFunction (s2b "f"); RemoveFunction (s2b "f"); GetTemplate (s2b "b"); RemoveTemplate (s2b "a")].
Example history_hypothesis : engine_with_syntax default_syntax = Ok plain_engine.
Proof. vm_compute. reflexivity. Qed.
Definition brief (r : reply) : option (option engine_fn_kind) * option bool * option (option str) :=
  match r with
  | Replaced k => (Some k, None, None) | Removed b => (None, Some b, None)
  | Added (Ok _) => (None, None, Some None) | Added (Err e) => (None, None, Some (e_name e))
  | Found o => (None, Some (match o with Some _ => true | None => false end), None)
  | _ => (None, None, None)
  end.
Example history_replies : map brief (snd (call_all history plain_engine)) =
  [(None, None, Some None); (None, None, Some (Some (s2b "a"))); (Some None, None, None); (Some (Some FnFilter), None, None);
   (None, Some false, None); (Some (Some FnFormatter), None, None); (Some None, None, None); (None, Some false, None); (None, Some true, None)].
Proof. vm_compute. reflexivity. Qed.
Example history_undone : fst (call_all history plain_engine) = plain_engine.
Proof. vm_compute. reflexivity. Qed.

(** Beside C27: an error on the second line of an ASCII text. *)
Definition bad_source : str := s2b "first" ++ [x0a] ++ s2b "  {{ a. }}" ++ [x0a] ++ s2b "last".
Example bad_source_error : exists p, engine_compile bad_source plain_engine =
    Err (mkerror KSyntax None (Some (s2b "expected identifier or index, found end expression")) (Some p)) /\
  narrow bad_source /\ p_ln p = 1 /\ p_col p = 8 /\ p_width p = 2 /\ p_text p = s2b "  {{ a. }}".
Proof. eexists. split; [vm_compute; reflexivity|]. split; [apply ascii_narrow; vm_compute; reflexivity|]. cbn. auto. Qed.

(** Beside [C27_shown_exact]: the first line has 4 bytes and 2 columns, so that an error
    at the start of the second shows its column 2. *)
Example C27_shown_case : forall before, line_at ([xc3; xa9; xc3; xa9; x0a] ++ s2b "ab") before (s2b "ab") [] ->
  columns before 3 /\ length before = 5 /\ shown ([xc3; xa9; xc3; xa9; x0a] ++ s2b "ab") 5 1 2 (s2b "ab").
Proof.
  intros before H. assert (E : before = [xc3; xa9; xc3; xa9; x0a]).
  { destruct H as [H _ _ _]. rewrite app_nil_r in H. now apply app_inv_tail in H. }
  subst before.
  assert (C : columns [xc3; xa9; xc3; xa9; x0a] 3).
  { change [xc3; xa9; xc3; xa9; x0a] with ([] ++ [xc3; xa9; xc3; xa9] ++ [x0a]).
    change 3 with (0 + display_width [xc3; xa9; xc3; xa9] + 1). apply columns_line; [constructor|].
    intros K. repeat destruct K as [K|K]; try discriminate K. destruct K. }
  split; [exact C|]. split; [reflexivity|]. exists [xc3; xa9; xc3; xa9; x0a], [], 3. split; [exact H|]. split; [discriminate|].
  split; [exact C|]. left. split; [reflexivity|]. split; [reflexivity|]. vm_compute. lia.
Qed.

(** Beside C28. *)
Example C28_case : exists err, snd (add_template (s2b "page") bad_source plain_engine) = Err err /\ e_name err = Some (s2b "page").
Proof. eexists. split; [vm_compute; reflexivity|reflexivity]. Qed.

(** C27 as stated is false of the code.  (1) An error at the end of a source that
    ends with a line break shows a place that does not exist.  (2) Lines with
    characters of several bytes move the place: the only tag of this source is on
    line 1, the error shown is on line 3. *)
Definition open_comment : str := s2b "{# a" ++ [x0a].
Definition accents : str := [xc3; xa9; xc3; xa9; xc3; xa9; xc3; xa9; x0a] ++ s2b "{{ }}" ++ [x0a; x0a; x0a; x0a].
Theorem C27_refuted :
  (exists reason p, engine_compile open_comment plain_engine = Err (mkerror KSyntax None (Some reason) (Some p)) /\
     forall m, ~ at_line_column open_comment m (p_ln p) (p_col p) (p_text p)) /\
  (exists reason p, valid_utf8 accents /\ engine_compile accents plain_engine = Err (mkerror KSyntax None (Some reason) (Some p)) /\
     p_ln p = 3 /\ forall m ln col text, at_line_column accents m ln col text -> In x7d text -> ln = 1).
Proof.
  split.
  - eexists. eexists. split; [vm_compute; reflexivity|]. cbn [p_ln p_col p_text]. intros m (b & a & Hl & E & -> & Hc).
    apply (line_of_cons (s2b "{# a") []) in Hl as [(-> & _ & _)|(b' & -> & Hl)].
    + discriminate E.
    + apply line_of_text in Hl as (_ & El & _); [discriminate El|auto].
    + intros K. repeat destruct K as [K|K]; try discriminate K. destruct K.
  - eexists. eexists. split; [|split; [vm_compute; reflexivity|]].
    { change accents with (flat_map encode ([233; 233; 233; 233; 10; 123; 123; 32; 125; 125; 10; 10; 10; 10]%N)). 
      eexists. split; [|reflexivity]. repeat (apply Forall_cons; [unfold scalar; lia|]). apply Forall_nil. }
    split; [reflexivity|]. intros m ln col text (b & a & Hl & -> & _ & _) Hi.
    assert (N0 : forall t, t = [xc3; xa9; xc3; xa9; xc3; xa9; xc3; xa9] \/ t = s2b "{{ }}" \/ t = [] -> ~ In x0a t).
    { intros t [->|[->| -> ]] K; repeat destruct K as [K|K]; try discriminate K; destruct K. }
    unfold accents in Hl.
    apply (line_of_cons [xc3; xa9; xc3; xa9; xc3; xa9; xc3; xa9] (s2b "{{ }}" ++ [x0a; x0a; x0a; x0a])) in Hl as [(-> & -> & _)|(b' & -> & Hl)]; [|..|auto].
    { repeat destruct Hi as [Hi|Hi]; try discriminate Hi; destruct Hi. }
    apply (line_of_cons (s2b "{{ }}") [x0a; x0a; x0a]) in Hl as [(-> & -> & _)|(b1 & -> & Hl)]; [reflexivity| |auto].
    exfalso. assert (G : text = []); [|subst text; destruct Hi].
    apply (line_of_cons [] [x0a; x0a]) in Hl as [(_ & E & _)|(b2 & _ & Hl)]; [exact E| |auto].
    apply (line_of_cons [] [x0a]) in Hl as [(_ & E & _)|(b3 & _ & Hl)]; [exact E| |auto].
    apply (line_of_cons [] []) in Hl as [(_ & E & _)|(b4 & _ & Hl)]; [exact E| |auto].
    now apply line_of_text in Hl as (_ & E & _); [|auto].
Qed.
Print Assumptions C27_refuted.
