(** Properties C34, C35, C36: where output comes from, what of an engine matters,
    serialized contexts. *)
From Verif Require Import Base Utf8 Ext Errors Syntax AhoCorasick SearchSpec SyntaxSpec Value Ast Lexer LexSpec Wp
  GrammarSpec Parser AstOk Compiler CompileProof ParseMain Fmt Stack Filters Render Engine EngineSpec CompileFacts
  RenderSpec RenderProof RenderErr MapFacts RenderMain WriteSpec RenderObs Serde SerdeSpec SerdeProof
  OriginSpec OriginProof UseSpec UseProof Props2 Demo Props3 Props10.

(** ** C34 *)
Section C34.
Context `{X : Ext}.
(** C34.  The output of a successful rendering is a sequence of texts each of
    which is raw text of a template or what a formatter (the default one, or a
    registered one that a template names) says about one value. *)
Theorem C34_output_origin inner origin ast_of g out :
  statements inner origin ast_of -> renders inner g (Ok out) ->
  exists parts, out = concat parts /\ Forall (fun s => raw_text inner ast_of s \/ formatted_text inner ast_of s) parts.
Proof.
  intros Ha Hr. destruct (initial_stack g) as [st|e| |] eqn:Hg.
  - destruct (C11_compiled_means_source inner origin ast_of g st Ha Hg) as (R & _).
    pose proof (renders_fun _ _ _ _ Hr R) as E. rewrite string_result_of in E.
    destruct (ending (s_render inner ast_of st)) as [[]| | |] eqn:En; try discriminate E. injection E as ->.
    exact (proj1 (wrote_render inner ast_of st) tt En).
  - destruct Hr as (_ & n & Hn). specialize (Hn n (le_n n)). unfold to_string in Hn. rewrite Hg in Hn. discriminate Hn.
  - destruct Hr as (_ & n & Hn). specialize (Hn n (le_n n)). unfold to_string in Hn. rewrite Hg in Hn. discriminate Hn.
  - destruct Hr as (_ & n & Hn). specialize (Hn n (le_n n)). unfold to_string in Hn. rewrite Hg in Hn. discriminate Hn.
Qed.
(** C34.  Also if rendering fails, and whatever the writer does: each write is raw
    text or a write of such a formatter, so any condition on the state of the
    writer that those writes keep, holds in the end. *)
Theorem C34_writer inner origin ast_of g k w p (I : sk_state k -> Prop) :
  statements inner origin ast_of -> writes inner g k w p ->
  (forall w s, raw_text inner ast_of s \/ formatter_write inner ast_of s -> I w -> I (fst (sk_write k w s))) ->
  I w -> I (fst p).
Proof.
  intros Ha Hw Hk Hi. destruct (initial_stack g) as [st|e| |] eqn:Hg.
  2-4: destruct Hw as (_ & n & Hn); rewrite <- (Hn n (le_n n)); unfold to_writer; rewrite Hg; exact Hi.
  destruct (C11_compiled_means_source inner origin ast_of g st Ha Hg) as (_ & W).
  rewrite (writes_fun _ _ _ _ _ _ Hw (W k w)).
  pose proof (run_keeps _ k I Hk _ (proj2 (wrote_render inner ast_of st)) w None Hi) as K.
  unfold writer_result. destruct (Fmt.run k w None (s_render inner ast_of st)) as [[w' [c|]] [[]| | |]]; exact K.
Qed.
(** C34.  So a byte that the templates do not contain as raw text and no such
    formatter writes, does not appear in the output, whatever the context. *)
Corollary C34_no_injection inner origin ast_of b :
  statements inner origin ast_of ->
  (forall s, raw_text inner ast_of s -> ~ In b s) ->
  (forall s, formatter_write inner ast_of s -> ~ In b s) ->
  (forall g out, renders inner g (Ok out) -> ~ In b out) /\
  (forall g p, writes inner g buffer [] p -> ~ In b (fst p)).
Proof.
  intros Ha Hr Hf. assert (W : forall g p, writes inner g buffer [] p -> ~ In b (fst p)).
  { intros g p Hp. apply (C34_writer inner origin ast_of g buffer [] p (fun w => ~ In b w) Ha Hp); [|intros []].
    intros w s Hs Hw. cbn [buffer sk_write fst]. rewrite in_app_iff. intros [H|H]; [exact (Hw H)|].
    destruct Hs as [Hs|Hs]; [exact (Hr s Hs H)|exact (Hf s Hs H)]. }
  split; [|exact W]. intros g out (_ & n & Hn). apply (W g (out, Ok tt)). split; [discriminate|]. exists n. intros fuel Hl.
  apply (proj1 (C21_buffer fuel inner g [])). exact (Hn fuel Hl).
Qed.
End C34.

(** ** C22, for formatters that go on after a failed write *)
Section C22.
Context `{X : Ext}.
(** The same writer, keeping a list of the writes and the answers. *)
Definition logging (k : sink) : sink :=
  mksink (sk_state k * list (str * option N)) (fun w s => let (w', a) := sk_write k (fst w) s in ((w', snd w ++ [(s, a)]), a)).
(** The last refusal in such a list. *)
Fixpoint last_refusal (l : list (str * option N)) : option N :=
  match l with
  | [] => None
  | (_, a) :: l' => match last_refusal l' with Some c => Some c | None => a end
  end.
Lemma last_refusal_snoc l s a : last_refusal (l ++ [(s, a)]) = match a with Some c => Some c | None => last_refusal l end.
Proof. induction l as [|[t b] l IH]; cbn; [now destruct a|]. rewrite IH. destruct a; auto. Qed.
Lemma run_logging {A} k (x : rt A) : forall w l,
  exists l', Fmt.run (logging k) (w, l) (last_refusal l) x =
    (let '(w', er, r) := Fmt.run k w (last_refusal l) x in ((w', l ++ l'), er, r)) /\
    snd (fst (Fmt.run k w (last_refusal l) x)) = last_refusal (l ++ l').
Proof.
  induction x as [r|s o IHo e IHe]; intros w l; cbn [Fmt.run].
  - exists []. rewrite app_nil_r. auto.
  - cbn [logging sk_write fst snd]. destruct (sk_write k w s) as [w' [c|]] eqn:E.
    + destruct (IHe w' (l ++ [(s, Some c)])) as (l' & H1 & H2). rewrite last_refusal_snoc in H1, H2. exists ((s, Some c) :: l').
      change ((s, Some c) :: l') with ([(s, Some c)] ++ l'). rewrite app_assoc. auto.
    + destruct (IHo w' (l ++ [(s, None)])) as (l' & H1 & H2). rewrite last_refusal_snoc in H1, H2. exists ((s, None) :: l').
      change ((s, None) :: l') with ([(s, None)] ++ l'). rewrite app_assoc. auto.
Qed.
(** C22.  Whatever the formatters do after a failed write: if [to_writer] fails
    after the writer refused something, it fails with the writer's last error; if
    nothing was refused, the result is that of [to_string]; keeping a list of the
    writes changes nothing. *)
Theorem C22_last_refusal inner origin g k w w' log r :
  well_made inner origin -> writes inner g (logging k) (w, []) ((w', log), r) ->
  writes inner g k w (w', r) /\
  (forall c, last_refusal log = Some c -> r = Ok tt \/ r = Err (mk_io_error c) \/ r = Panic) /\
  (last_refusal log = None -> forall o, renders inner g o ->
     o = match r with Ok tt => Ok (concat (map fst log)) | Err e => Err e | Panic => Panic | OutOfFuel => OutOfFuel end).
Proof.
  intros Hm Hw. destruct (initial_stack g) as [st|e| |] eqn:Hg.
  - destruct (statements_exist inner origin Hm) as (ast_of & Ha).
    destruct (C11_compiled_means_source inner origin ast_of g st Ha Hg) as (R & W). set (x := s_render inner ast_of st) in *.
    pose proof (writes_fun _ _ _ _ _ _ Hw (W (logging k) (w, []))) as E. specialize (W k w).
    destruct (run_logging k x w []) as (l' & H1 & H2). cbn [last_refusal app] in H1, H2.
    unfold writer_result in *. rewrite H1 in E. destruct (Fmt.run k w None x) as [[w1 er] r1] eqn:Ex. cbn [snd fst] in H2.
    assert (E' : w' = w1 /\ log = l' /\ r = match er, r1 with Some c, Err _ => Err (mk_io_error c) | _, r => r end).
    { destruct er as [c|], r1; injection E as -> -> ->; auto. }
    destruct E' as (-> & -> & Er). split; [|split].
    + rewrite Er. destruct er as [c|], r1; exact W.
    + intros c Hc. rewrite Hc in H2. subst er. rewrite Er. destruct r1 as [[]| | |]; auto.
      destruct Hw as (Hf & _). rewrite Er in Hf. now destruct Hf.
    + intros Hn o Ho. rewrite Hn in H2. subst er. rewrite (renders_fun _ _ _ _ Ho R), string_result_of.
      clear -H1 Er Hn.
      assert (K : forall (y : rt unit) w l w1 l1 r1, last_refusal l = None -> Fmt.run (logging k) (w, l) None y = ((w1, l1), None, r1) -> last_refusal l1 = None ->
        map fst l1 = map fst l ++ pieces y /\ r1 = ending y).
      { induction y as [r0|s o IHo e IHe]; intros w0 l w2 l2 r2 Hl; cbn [Fmt.run pieces ending].
        - intros E _. injection E as -> -> ->. now rewrite app_nil_r.
        - cbn [logging sk_write fst snd]. destruct (sk_write k w0 s) as [w' [c|]].
          + intros E Hn2. exfalso.
            assert (Ke : forall (z : rt unit) w l er, er <> None -> snd (fst (Fmt.run (logging k) (w, l) er z)) <> None).
            { induction z as [r0|s0 o0 IHo0 e0 IHe0]; intros w3 l3 er Her; cbn [Fmt.run fst snd]; auto.
              cbn [logging sk_write fst snd]. destruct (sk_write k w3 s0) as [w4 [c4|]]; [apply IHe0; discriminate|apply IHo0; exact Her]. }
            specialize (Ke e w' (l ++ [(s, Some c)]) (Some c) ltac:(discriminate)). cbn [logging] in E, Ke. rewrite E in Ke. now apply Ke.
          + intros E Hn2. apply IHo in E; [|now rewrite last_refusal_snoc|exact Hn2].
            rewrite map_app, <- app_assoc in E. exact E. }
      destruct (K x w [] w1 l' r1 eq_refl H1 Hn) as (Kp & Ke). cbn [map app] in Kp. rewrite Kp, <- Ke. rewrite Er. destruct r1 as [[]| | |]; reflexivity.
  - destruct Hw as (_ & n & Hn). specialize (Hn n (le_n n)). unfold to_writer in Hn. rewrite Hg in Hn. injection Hn as -> <- <-.
    split; [|split]; [|discriminate|].
    + split; [discriminate|]. exists 0. intros. unfold to_writer. now rewrite Hg.
    + intros _ o (_ & m & Ho). rewrite <- (Ho m (le_n m)). unfold to_string. now rewrite Hg.
  - destruct Hw as (_ & n & Hn). specialize (Hn n (le_n n)). unfold to_writer in Hn. rewrite Hg in Hn. injection Hn as -> <- <-.
    split; [|split]; [|discriminate|].
    + split; [discriminate|]. exists 0. intros. unfold to_writer. now rewrite Hg.
    + intros _ o (_ & m & Ho). rewrite <- (Ho m (le_n m)). unfold to_string. now rewrite Hg.
  - destruct Hw as (Hf & n & Hn). specialize (Hn n (le_n n)). unfold to_writer in Hn. rewrite Hg in Hn. injection Hn as -> <- <-. now destruct Hf.
Qed.
End C22.

(** ** C35 *)
Section C35.
Context `{X : Ext}.
(** The statements of a template, computed. *)
Definition canon (origin : template -> syntax) (t : template) : scope :=
  match @searcher_new error (origin t) with
  | Ok sr => match parse_template sr (t_source t) with Ok s => s | _ => [] end
  | _ => [] end.
Lemma canon_is origin t s : template_of (origin t) t -> derives (origin t) (t_source t) s -> canon origin t = s.
Proof.
  intros (Hu & Hc & Hv & e & He & Ec) D. unfold canon. pose proof (engine_searcher _ _ He) as Hs. rewrite Hs.
  now rewrite (parse_complete _ Hu _ Hs _ Hv Hc s D).
Qed.
Lemma canon_statements inner origin : well_made inner origin -> statements inner origin (canon origin).
Proof.
  intros H. destruct (statements_exist _ _ H) as (a & Ha). intros t Hp. split; [exact (H t Hp)|].
  destruct (Ha t Hp) as [Ht D]. rewrite (canon_is _ _ _ Ht D). exact D.
Qed.
Lemma resolves_provided inner name t : resolves inner name t -> provided inner t.
Proof.
  unfold resolves. intros H. right. destruct (ri_template_fn inner) as [f|] eqn:E.
  - left. destruct H as (h & H). exists f, h, name. auto.
  - right. eauto.
Qed.
Lemma nested_provided inner ast_of t n t' n' : nested inner ast_of t n t' n' -> provided inner t -> provided inner t'.
Proof. induction 1 as [t n|t n name t1 t' n' Hi Hr Hn IH]; auto. intros _. apply IH. eapply resolves_provided; eauto. Qed.
Lemma nested_same inner ast_of ast' : (forall t, provided inner t -> ast_of t = ast' t) -> forall t n t' n',
  nested inner ast' t n t' n' -> provided inner t -> nested inner ast_of t n t' n'.
Proof.
  intros H. induction 1 as [t n|t n name t1 t' n' Hi Hr Hn IH]; intros Hp; [constructor|].
  rewrite <- (H t Hp) in Hi. econstructor; eauto. apply IH. eapply resolves_provided; eauto.
Qed.

(** C35.  Two engines that agree on the default formatter, on the depth limit and,
    for each template that can be reached from the one rendered, on the functions
    and included templates it names, render it to the same result: the same text or
    error, and the same writes to any writer. *)
Theorem C35_only_what_is_used inner origin ast_of e' :
  statements inner origin ast_of -> well_made (with_engine e' inner) origin -> agree_on_use inner e' ast_of ->
  forall g, (forall r, renders inner g r <-> renders (with_engine e' inner) g r) /\
            (forall k w p, writes inner g k w p <-> writes (with_engine e' inner) g k w p).
Proof.
  intros Ha Hw Hu g. set (c := canon origin).
  assert (Hs : forall t, provided inner t -> ast_of t = c t).
  { intros t Hp. destruct (Ha t Hp) as [Ht D]. symmetry. now apply canon_is. }
  assert (Hc : statements inner origin c).
  { intros t Hp. rewrite <- (Hs t Hp). exact (Ha t Hp). }
  pose proof (canon_statements _ _ Hw) as Hc'. fold c in Hc'.
  assert (Hu' : agree_on_use inner e' c).
  { destruct Hu as (H1 & H2 & H3). split; [exact H1|]. split; [exact H2|]. intros t n Hn.
    assert (Hp : provided inner t) by (eapply nested_provided; [exact Hn|now left]).
    rewrite <- (Hs t Hp). apply (H3 t n). eapply nested_same; [|exact Hn|now left]. exact Hs. }
  destruct (initial_stack g) as [st|e| |] eqn:Hg.
  2-4: split; [intros r|intros k w p]; unfold renders, writes, to_string, to_writer; rewrite Hg; reflexivity.
  destruct (C11_compiled_means_source inner origin c g st Hc Hg) as (R & W).
  destruct (C11_compiled_means_source (with_engine e' inner) origin c g st Hc' Hg) as (R' & W').
  rewrite <- (use_render inner e' c Hu' st) in R', W'. split.
  - intros r. split; intros H; [rewrite (renders_fun _ _ _ _ H R)|rewrite (renders_fun _ _ _ _ H R')]; assumption.
  - intros k w p. split; intros H; [rewrite (writes_fun _ _ _ _ _ _ H (W k w))|rewrite (writes_fun _ _ _ _ _ _ H (W' k w))]; auto.
Qed.

(** C35.  In particular adding, replacing or removing a template that no template
    reached from the rendered one includes, or a function none of them names,
    changes nothing. *)
Corollary C35_unused_template sx e t tname depth ast_of name source :
  user_syntax sx -> closers_ok sx -> engine_for sx e -> template_of sx t -> valid_utf8 source ->
  let inner := mkinner e t tname depth None in
  statements inner (fun _ => sx) ast_of ->
  (forall t' n', nested inner ast_of t tname t' n' -> ~ In name (flat_map inc_names (ast_of t'))) ->
  forall e', e' = fst (add_template name source e) \/ e' = fst (remove_template name e) ->
  forall g, (forall r, renders inner g r <-> renders (mkinner e' t tname depth None) g r) /\
            (forall k w p, writes inner g k w p <-> writes (mkinner e' t tname depth None) g k w p).
Proof.
  intros Hu Hc He Ht Hv inner Ha Hn e' Ee.
  assert (He' : engine_for sx e') by (destruct Ee as [->| ->]; [now apply ef_template|now apply ef_remove_template]).
  apply (C35_only_what_is_used inner (fun _ => sx) ast_of e' Ha).
  - apply engine_well_made; auto. intros ? ? _. now apply LexProof.closers_trims.
  - assert (K : en_default_formatter e = en_default_formatter e' /\ en_max_include_depth e = en_max_include_depth e' /\
      en_functions e = en_functions e' /\ forall n, n <> name -> map_get n (en_templates e) = map_get n (en_templates e')).
    { destruct Ee as [->| ->].
      - unfold add_template. destruct (engine_compile source e) as [t0| | |]; cbn; repeat split; auto.
        intros n Hne. now rewrite map_get_insert_other.
      - cbn. repeat split; auto. intros n Hne. now rewrite map_get_remove_other. }
    destruct K as (K1 & K2 & K3 & K4). split; [exact K1|]. split; [unfold max_include_depth; cbn; now rewrite K2|].
    intros t' n' Hnest. split.
    + intros f _. cbn. now rewrite K3.
    + intros _ f Hf. apply K4. intros ->. exact (Hn t' n' Hnest Hf).
Qed.
Corollary C35_unused_function sx e t tname depth ast_of name :
  user_syntax sx -> closers_ok sx -> engine_for sx e -> template_of sx t ->
  let inner := mkinner e t tname depth None in
  statements inner (fun _ => sx) ast_of ->
  (forall t' n', nested inner ast_of t tname t' n' -> ~ calls (t_source t') (ast_of t') name) ->
  forall e', (exists f, e' = fst (add_filter name f e)) \/ (exists f, e' = fst (add_formatter name f e)) \/ e' = fst (remove_function name e) ->
  forall g, (forall r, renders inner g r <-> renders (mkinner e' t tname depth None) g r) /\
            (forall k w p, writes inner g k w p <-> writes (mkinner e' t tname depth None) g k w p).
Proof.
  intros Hu Hc He Ht inner Ha Hn e' Ee.
  assert (He' : engine_for sx e').
  { destruct Ee as [[f ->]|[[f ->]| ->]]; [now apply ef_filter|now apply ef_formatter|now apply ef_remove_function]. }
  apply (C35_only_what_is_used inner (fun _ => sx) ast_of e' Ha).
  - apply engine_well_made; auto. intros ? ? _. now apply LexProof.closers_trims.
  - assert (K : en_default_formatter e = en_default_formatter e' /\ en_max_include_depth e = en_max_include_depth e' /\
      en_templates e = en_templates e' /\ forall n, n <> name -> map_get n (en_functions e) = map_get n (en_functions e')).
    { destruct Ee as [[f ->]|[[f ->]| ->]]; cbn; repeat split; auto; intros n Hne; [now rewrite map_get_insert_other..|now rewrite map_get_remove_other]. }
    destruct K as (K1 & K2 & K3 & K4). split; [exact K1|]. split; [unfold max_include_depth; cbn; now rewrite K2|].
    intros t' n' Hnest. split.
    + intros f Hf. apply K4. intros ->. exact (Hn t' n' Hnest Hf).
    + intros _ f _. cbn. now rewrite K3.
Qed.
End C35.

(** ** C36 *)
Section C36.
Context `{X : Ext}.
(** C36.  [render(data)] fails with the serialization error, before anything is
    written, if [data] does not convert to a value; else it is [render_from] of the
    value the rules of C26 give. *)
Theorem C36_render_is_convert_then_render_from inner d : machine d ->
  exists r, converts d r /\
  match r with
  | inr m => renders inner (GOwned (to_value d)) (Err (mk_ser_error m)) /\
             forall k w, writes inner (GOwned (to_value d)) k w (w, Err (mk_ser_error m))
  | inl v => (forall o, renders inner (GOwned (to_value d)) o <-> renders inner (GBorrowed v) o) /\
             forall k w p, writes inner (GOwned (to_value d)) k w p <-> writes inner (GBorrowed v) k w p
  end.
Proof.
  intros Hm. destruct (C26_rules d Hm) as (r & Hr & _ & E). exists r. split; [exact Hr|]. rewrite E. destruct r as [v|m].
  - split; [intros o|intros k w p]; reflexivity.
  - split; [|intros k w]; (split; [discriminate|]); exists 0; intros fuel _; reflexivity.
Qed.
(** C36.  Rust data that converts both ways: [render(data)] is
    [render_from(&Value::from(data))]; and a [Value] is rendered as itself. *)
Theorem C36_render_is_render_from inner d : proper_data d ->
  (forall o, renders inner (GOwned (to_value (into_serialize d))) o <-> renders inner (GBorrowed (value_from d)) o) /\
  forall k w p, writes inner (GOwned (to_value (into_serialize d))) k w p <-> writes inner (GBorrowed (value_from d)) k w p.
Proof. intros Hd. rewrite (C26_from_agrees d Hd). split; reflexivity. Qed.
Theorem C36_value_as_context inner v : proper v ->
  (forall o, renders inner (GOwned (to_value (value_serialize v))) o <-> renders inner (GBorrowed v) o) /\
  forall k w p, writes inner (GOwned (to_value (value_serialize v))) k w p <-> writes inner (GBorrowed v) k w p.
Proof. intros Hd. rewrite (C26_value_to_itself v Hd). split; reflexivity. Qed.
End C36.
Print Assumptions C34_output_origin.
Print Assumptions C34_writer.
Print Assumptions C34_no_injection.
Print Assumptions C22_last_refusal.
Print Assumptions C35_only_what_is_used.
Print Assumptions C35_unused_template.
Print Assumptions C35_unused_function.
Print Assumptions C36_render_is_convert_then_render_from.
Print Assumptions C36_render_is_render_from.
Print Assumptions C36_value_as_context.

(** ** Concrete cases *)
Section Cases.
Local Existing Instance ascii_ext.
(** Beside C34: a default formatter that escapes; the output has no bracket, for
    every context. *)
Definition lt : byte := x3c.
Definition escape_text (s : str) : str := flat_map (fun b => if Byte.eqb b lt then s2b "&lt;" else [b]) s.
Definition escape : formatter := fun v => FWrite (escape_text (concat (display_chunks v))) FDone (FFail None).
Lemma escape_text_safe s : ~ In lt (escape_text s).
Proof.
  unfold escape_text. rewrite in_flat_map. intros (b & _ & H). destruct (Byte.eqb b lt) eqn:E.
  - vm_compute in H. intuition discriminate.
  - destruct H as [->|[]]. vm_compute in E. discriminate E.
Qed.
Lemma formatter_cases inner ast_of f : a_formatter inner ast_of f ->
  f = en_default_formatter (ri_engine inner) \/ exists name, map_get name (en_functions (ri_engine inner)) = Some (EFormatter f).
Proof. intros []; eauto. Qed.
Lemma may_write_one a m s : may_write (FWrite a FDone (FFail m)) s -> s = a.
Proof. intros H. inversion H as [|? ? ? ? H0|? ? ? ? H0]; subst; [reflexivity|inversion H0..]. Qed.
Definition greet : string := "Hi {{ name }}{% for x in xs %} & {{ x | upper }}{% endfor %}".
Definition safe0 : engine := set_default_formatter escape (fst (add_filter (s2b "upper") upper fresh)).
Definition safe : engine := fst (add_template (s2b "greet") (s2b greet) safe0).
Definition greeting : renderer_inner := renderer_of safe "greet".
Lemma safe_for : engine_for default_syntax safe.
Proof. apply ef_template; [apply asciib_valid; reflexivity|]. apply ef_default, ef_filter, fresh_for. Qed.
Lemma greeting_made : well_made greeting (fun _ => default_syntax).
Proof. apply renderer_well_made; [exact safe_for|]. intros E. vm_compute in E. discriminate E. Qed.
Notation ast := (canon (fun _ => default_syntax)).
Lemma greeting_provided t : provided greeting t -> t = ri_template greeting.
Proof.
  assert (K : map (fun p => (fst p, t_source (snd p))) (en_templates safe) = [(s2b "greet", s2b greet)]) by (vm_compute; reflexivity).
  intros [->|[(f & h & n & E & _)|(_ & n & E)]]; [reflexivity|vm_compute in E; discriminate E|].
  change (ri_engine greeting) with safe in E. apply map_get_In in E.
  assert (L : en_templates safe = [(s2b "greet", ri_template greeting)]) by (vm_compute; reflexivity).
  rewrite L in E. destruct E as [E|[]]. pose proof (f_equal snd E) as E'. cbn [snd] in E'. symmetry. exact E'.
Qed.
Definition greeting_body : scope := ltac:(let x := eval vm_compute in (ast (ri_template greeting)) in exact x).
Lemma greeting_ast : ast (ri_template greeting) = greeting_body.
Proof. vm_compute. reflexivity. Qed.
Lemma greeting_source : t_source (ri_template greeting) = s2b greet.
Proof. vm_compute. reflexivity. Qed.
Fixpoint raws (s : stmt) : list span :=
  match s with
  | SRaw sp => [sp]
  | SIf _ _ a b => flat_map raws a ++ match b with Some b => flat_map raws b | None => [] end
  | SFor _ _ b | SWith _ _ b => flat_map raws b
  | _ => []
  end.
Lemma raws_all l s : part_of l s -> forall sp, s = SRaw sp -> In sp (flat_map raws l).
Proof.
  induction 1 as [l s H|l n c thn els s H Hp IH|l n c thn els s H Hp IH|l v e b s H Hp IH|l e n b s H Hp IH]; intros sp E; apply in_flat_map;
    (eexists; split; [exact H|]).
  - subst s. now left.
  - apply in_or_app. left. exact (IH sp E).
  - apply in_or_app. right. exact (IH sp E).
  - exact (IH sp E).
  - exact (IH sp E).
Qed.
Example C34_case : (forall g out, renders greeting g (Ok out) -> ~ In lt out) /\ (forall g p, writes greeting g buffer [] p -> ~ In lt (fst p)).
Proof.
  apply (C34_no_injection greeting (fun _ => default_syntax) ast lt (canon_statements _ _ greeting_made)).
  - intros s (t & sp & Hp & Hs & E) Hi. apply greeting_provided in Hp. subst t. rewrite greeting_ast in Hs. rewrite greeting_source in E.
    apply (fun H => raws_all _ _ H sp eq_refl) in Hs.
    assert (K : forallb (fun sp => match @index_span error (s2b greet) sp with Ok s => negb (existsb (Byte.eqb lt) s) | _ => true end) (flat_map raws greeting_body) = true)
      by (vm_compute; reflexivity).
    rewrite forallb_forall in K. specialize (K sp Hs). cbn beta in K. rewrite E in K. apply negb_true_iff in K.
    rewrite <- Bool.not_true_iff_false in K. apply K. apply existsb_exists. exists lt. split; [exact Hi|reflexivity].
  - intros s (f & v & Hf & Hw). destruct (formatter_cases _ _ _ Hf) as [Ed|(name & E)].
    + change (en_default_formatter (ri_engine greeting)) with escape in Ed. rewrite Ed in Hw. rewrite (may_write_one _ _ _ Hw). apply escape_text_safe.
    + assert (L : en_functions (ri_engine greeting) = [(s2b "upper", EFilter upper)]) by (vm_compute; reflexivity).
      rewrite L in E. cbn [map_get] in E. destruct (str_eqb name (s2b "upper")); discriminate E.
Qed.
(** It does render, markup in the data included. *)
Example C34_case_renders : renders greeting
  (GBorrowed (VMap [(s2b "name", VStr (s2b "<b>")); (s2b "xs", VList [VStr (s2b "<i>"); VStr (s2b "j")])])) (Ok (s2b "Hi &lt;b> & &lt;I> & J")).
Proof. apply (renders_by _ 60); [vm_compute; reflexivity|discriminate]. Qed.

(** Beside C22: a formatter that tries again, a writer that refuses with a new
    code each time; the last is reported. *)
Definition stubborn : formatter := fun _ => FWrite (s2b "a") FDone (FWrite (s2b "b") FDone (FFail None)).
Definition refusing : sink := mksink N (fun n _ => (n + 1, Some n)%N).
Definition stubborn_renderer : renderer_inner := renderer_of (fst (add_template (s2b "t") (s2b "{{ x }}") (set_default_formatter stubborn fresh))) "t".
Example C22_case : well_made stubborn_renderer (fun _ => default_syntax) /\
  writes stubborn_renderer (GBorrowed (VMap [(s2b "x", VNone)])) (logging refusing) (5%N, [])
    ((7%N, [(s2b "a", Some 5%N); (s2b "b", Some 6%N)]), Err (mk_io_error 6)).
Proof.
  split.
  - apply renderer_well_made; [apply ef_template; [apply asciib_valid; reflexivity|apply ef_default, fresh_for]|]. intros E. vm_compute in E. discriminate E.
  - apply (writes_by _ 20); [vm_compute; reflexivity|discriminate].
Qed.

(** Beside C35: the template just used does not include "extra", does not call
    "lower". *)
Example C35_case_template g : (forall r, renders (mkinner safe (ri_template greeting) (Some (s2b "greet")) None None) g r <->
  renders (mkinner (fst (add_template (s2b "extra") (s2b "never {{ seen }}") safe)) (ri_template greeting) (Some (s2b "greet")) None None) g r).
Proof.
  assert (Eg : greeting = mkinner safe (ri_template greeting) (Some (s2b "greet")) None None) by (vm_compute; reflexivity).
  refine (proj1 (C35_unused_template default_syntax safe (ri_template greeting) (Some (s2b "greet")) None ast (s2b "extra") (s2b "never {{ seen }}")
    default_user_syntax default_closers_ok safe_for _ _ _ _ _ (or_introl eq_refl) g)).
  - exact (greeting_made _ (or_introl eq_refl)).
  - apply asciib_valid. reflexivity.
  - rewrite <- Eg. exact (canon_statements _ _ greeting_made).
  - intros t n Hn. rewrite <- Eg in Hn. apply (fun H => nested_provided _ _ _ _ _ _ H (or_introl eq_refl)) in Hn. apply greeting_provided in Hn. subst t.
    rewrite greeting_ast. vm_compute. intros [].
Qed.
Example C35_case_function g : (forall r, renders (mkinner safe (ri_template greeting) (Some (s2b "greet")) None None) g r <->
  renders (mkinner (fst (add_filter (s2b "lower") upper safe)) (ri_template greeting) (Some (s2b "greet")) None None) g r).
Proof.
  assert (Eg : greeting = mkinner safe (ri_template greeting) (Some (s2b "greet")) None None) by (vm_compute; reflexivity).
  refine (proj1 (C35_unused_function default_syntax safe (ri_template greeting) (Some (s2b "greet")) None ast (s2b "lower")
    default_user_syntax default_closers_ok safe_for _ _ _ _ (or_introl (ex_intro _ upper eq_refl)) g)).
  - exact (greeting_made _ (or_introl eq_refl)).
  - rewrite <- Eg. exact (canon_statements _ _ greeting_made).
  - intros t n Hn. rewrite <- Eg in Hn. apply (fun H => nested_provided _ _ _ _ _ _ H (or_introl eq_refl)) in Hn. apply greeting_provided in Hn. subst t.
    rewrite greeting_ast, greeting_source. intros (id & Hi & E).
    assert (K : Forall (fun r => r <> @Ok error _ (s2b "lower")) (map (fun i => index_span (s2b greet) (id_span i)) (flat_map UseSpec.stmt_calls greeting_body))).
    { vm_compute. constructor; [intros H; discriminate H|constructor]. }
    rewrite Forall_map, Forall_forall in K. exact (K id Hi E).
Qed.
(** Beside C36: a struct as the context; a number too big for a [Value]. *)
Example C36_case : machine (SStruct (s2b "C") [(s2b "name", SSome (SStr (s2b "Ann"))); (s2b "xs", SSeq [])]) /\
  renders greeting (GOwned (to_value (SStruct (s2b "C") [(s2b "name", SSome (SStr (s2b "Ann"))); (s2b "xs", SSeq [])]))) (Ok (s2b "Hi Ann")).
Proof.
  split; [cbn; repeat split; apply asciib_valid; reflexivity|]. apply (renders_by _ 60); [vm_compute; reflexivity|discriminate].
Qed.
Example C36_case_fails : machine (SU64 18446744073709551615) /\ converts (SU64 18446744073709551615) (inr (s2b "out of range integral type conversion attempted")).
Proof. split; [cbn; unfold unsigned; lia|constructor; vm_compute; reflexivity]. Qed.
End Cases.
