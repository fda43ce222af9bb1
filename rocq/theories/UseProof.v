(** Engines that agree on what the templates use render alike. *)
From Verif Require Import Base Utf8 Ext Errors Syntax AhoCorasick SearchSpec SyntaxSpec Value Ast Lexer LexSpec Wp
  GrammarSpec Parser AstOk Compiler CompileProof ParseMain Fmt Stack Filters Render Engine EngineSpec CompileFacts
  RenderSpec RenderProof RenderErr MapFacts RenderMain RenderObs UseSpec.

Section Use.
Context `{X : Ext}.
Variable inner : renderer_inner.
Variable e' : engine.
Notation inner' := (with_engine e' inner).
Notation en := (ri_engine inner).
Variable ast_of : template -> scope.

Section One.
Variable source : str.
Hypothesis Hdef : en_default_formatter en = en_default_formatter e'.

Definition same_calls (l : list ident) : Prop :=
  forall id name, In id l -> index_span source (id_span id) = @Ok error _ name -> map_get name (en_functions en) = map_get name (en_functions e').
Lemma same_calls_incl l l' : incl l l' -> same_calls l' -> same_calls l.
Proof. intros H H' id name Hi. apply H'. now apply H. Qed.

Lemma use_apply st name a c l : same_calls (name :: l) -> s_apply inner source st name a c = s_apply inner' source st name a c.
Proof.
  intros H. unfold s_apply. destruct (index_span source (id_span name)) as [nm| | |] eqn:E; auto. cbn [bind].
  rewrite (H name nm (or_introl eq_refl) E). reflexivity.
Qed.
Lemma use_expr st e : same_calls (expr_calls e) -> s_expr inner source st e = s_expr inner' source st e.
Proof.
  induction e as [b|name a recv IH sp]; cbn [expr_calls s_expr]; [reflexivity|]. intros H.
  rewrite IH by (eapply same_calls_incl; [|exact H]; apply incl_tl, incl_refl).
  destruct (s_expr inner' source st recv) as [c| | |]; auto. cbn [bind]. now rewrite (use_apply st name _ c _ H).
Qed.
Lemma use_default v sp : s_default inner source v sp = s_default inner' source v sp.
Proof. unfold s_default. cbn [with_engine ri_engine]. now rewrite Hdef. Qed.
Lemma use_inline st e : same_calls (expr_calls e) -> s_inline inner source st e = s_inline inner' source st e.
Proof.
  intros H. destruct e as [b|name [a|] recv sp]; cbn [s_inline].
  - rewrite (use_expr st _ H). apply rbind_ext. intros c. apply rbind_ext. intros sp. apply use_default.
  - rewrite (use_expr st _ H). apply rbind_ext. intros c. apply rbind_ext. intros sp'. apply use_default.
  - cbn [expr_calls] in H. rewrite (use_expr st recv) by (eapply same_calls_incl; [|exact H]; apply incl_tl, incl_refl).
    apply rbind_ext. intros c. destruct (index_span source (id_span name)) as [nm| | |] eqn:E; auto. cbn [lift rbind].
    rewrite (H name nm (or_introl eq_refl) E). cbn [with_engine ri_engine].
    destruct (map_get nm (en_functions e')) as [[f|f]|]; auto.
    rewrite (use_apply st name _ c _ H). destruct (s_apply inner' source st name [] c); auto. apply use_default.
Qed.

Variable tname : option str.
Variables inc inc' : option rend.
Hypothesis Hdepth : max_include_depth inner = max_include_depth inner'.

(** What is known of the includes of a statement. *)
Definition same_includes (l : list str) : Prop :=
  forall name, In name l ->
    (ri_template_fn inner = None -> map_get name (en_templates en) = map_get name (en_templates e')) /\
    forall t st h, resolves inner name t ->
      match inc, inc' with
      | Some run, Some run' => run t (Some name) st h = run' t (Some name) st h
      | None, None => True
      | _, _ => False
      end.
Lemma same_includes_incl l l' : incl l l' -> same_includes l' -> same_includes l.
Proof. intros H H' name Hi. apply H'. now apply H. Qed.
Lemma use_find name h : (ri_template_fn inner = None -> map_get (as_name name) (en_templates en) = map_get (as_name name) (en_templates e')) ->
  s_find inner source name h = s_find inner' source name h.
Proof.
  intros H. unfold s_find. cbn [with_engine ri_template_fn ri_engine]. destruct (ri_template_fn inner) as [f|]; auto. now rewrite H.
Qed.
Lemma find_resolves name h t h' : s_find inner source name h = Ok (t, h') -> resolves inner (as_name name) t.
Proof.
  unfold s_find, resolves. destruct (ri_template_fn inner) as [f|] eqn:Ef.
  - destruct (f h (as_name name)) as [t0|r] eqn:E.
    + intros H. injection H as <- _. eauto.
    + unfold err_render. destruct (build_pretty source (as_span name)); discriminate.
  - destruct (map_get (as_name name) (en_templates en)) as [t0|] eqn:E.
    + intros H. injection H as <- _. auto.
    + unfold err_render. destruct (build_pretty source (as_span name)); discriminate.
Qed.
Definition alike (s : stmt) : Prop := same_calls (stmt_calls s) -> same_includes (inc_names s) ->
  forall st h, s_stmt inner inc source tname s st h = s_stmt inner' inc' source tname s st h.
Lemma use_scope l : Forall alike l -> same_calls (flat_map stmt_calls l) -> same_includes (flat_map inc_names l) ->
  forall st h, s_scope inner inc source tname l st h = s_scope inner' inc' source tname l st h.
Proof.
  induction 1 as [|s l Hs Hl IH]; cbn [flat_map]; intros Hc Hi st h; cbn [s_scope]; [reflexivity|].
  rewrite Hs; [|eapply same_calls_incl; [|exact Hc]; apply incl_appl, incl_refl
               |eapply same_includes_incl; [|exact Hi]; apply incl_appl, incl_refl].
  apply rbind_ext. intros h'. apply IH; [eapply same_calls_incl; [|exact Hc]|eapply same_includes_incl; [|exact Hi]]; apply incl_appr, incl_refl.
Qed.
Lemma use_stmt s : alike s.
Proof.
  induction s as [sp|e sp|name g|neg c thn els IHt IHe|v e b IHb|e name b IHb] using stmt_ind'; intros Hc Hi st h;
    cbn [stmt_calls inc_names] in *; cbn [s_stmt].
  - reflexivity.
  - now rewrite (use_inline st e Hc).
  - assert (E : match g with
                | None => RRet (Ok st)
                | Some e => let% c := here tname (s_expr inner source st e) in RRet (Ok (FrScope c :: FrBoundary :: st)) end =
                match g with
                | None => RRet (Ok st)
                | Some e => let% c := here tname (s_expr inner' source st e) in RRet (Ok (FrScope c :: FrBoundary :: st)) end).
    { destruct g as [e|]; [|reflexivity]. now rewrite (use_expr st e Hc). }
    rewrite E. apply rbind_ext. intros st'. destruct (Hi (as_name name) (or_introl eq_refl)) as [Hf Hr].
    rewrite <- (use_find name h Hf). unfold here, lift.
    destruct (s_find inner source name h) as [[t h']| | |] eqn:Ef; auto. cbn [name_err rmap_err rbind].
    specialize (Hr t st' h' (find_resolves _ _ _ _ Ef)).
    destruct inc as [run|], inc' as [run'|]; try contradiction; auto. now rewrite Hdepth.
  - assert (Hcc : same_calls (expr_calls c)) by (eapply same_calls_incl; [|exact Hc]; apply incl_appl, incl_refl).
    rewrite (use_expr st c Hcc). apply rbind_ext. intros v. destruct (xorb neg _).
    + apply (use_scope thn IHt).
      * eapply same_calls_incl; [|exact Hc]. apply incl_appr, incl_appl, incl_refl.
      * eapply same_includes_incl; [|exact Hi]. apply incl_appl, incl_refl.
    + destruct els as [l|]; [|reflexivity]. apply (use_scope l IHe).
      * eapply same_calls_incl; [|exact Hc]. apply incl_appr, incl_appr, incl_refl.
      * eapply same_includes_incl; [|exact Hi]. apply incl_appr, incl_refl.
  - assert (Hcc : same_calls (expr_calls e)) by (eapply same_calls_incl; [|exact Hc]; apply incl_appl, incl_refl).
    rewrite (use_expr st e Hcc). apply rbind_ext. intros c. apply rbind_ext. intros sp. apply rbind_ext. intros frs.
    assert (Hb : forall st h, s_scope inner inc source tname b st h = s_scope inner' inc' source tname b st h).
    { apply (use_scope b IHb); auto. eapply same_calls_incl; [|exact Hc]. apply incl_appr, incl_refl. }
    change (s_each (s_scope inner inc source tname b) st frs h = s_each (s_scope inner' inc' source tname b) st frs h).
    revert h. induction frs as [|fr frs IH]; intros h; cbn [s_each]; [reflexivity|].
    rewrite Hb. apply rbind_ext. intros h'. apply IH.
  - assert (Hcc : same_calls (expr_calls e)) by (eapply same_calls_incl; [|exact Hc]; apply incl_appl, incl_refl).
    rewrite (use_expr st e Hcc). apply rbind_ext. intros c.
    apply (use_scope b IHb); auto. eapply same_calls_incl; [|exact Hc]. apply incl_appr, incl_refl.
Qed.
End One.

(** The engines agree on the default formatter, the depth limit, and for every
    template that can be reached, on the functions and templates it names. *)
Definition agree_on_use : Prop :=
  en_default_formatter en = en_default_formatter e' /\
  max_include_depth inner = max_include_depth inner' /\
  forall t n, nested inner ast_of (ri_template inner) (ri_template_name inner) t n ->
    (forall name, calls (t_source t) (ast_of t) name -> map_get name (en_functions en) = map_get name (en_functions e')) /\
    (ri_template_fn inner = None -> forall name, In name (flat_map inc_names (ast_of t)) ->
       map_get name (en_templates en) = map_get name (en_templates e')).

Hypothesis H : agree_on_use.
Lemma nested_next t n t' n' : nested inner ast_of t n t' n' -> forall name t1, In name (flat_map inc_names (ast_of t')) -> resolves inner name t1 ->
  nested inner ast_of t n t1 (Some name).
Proof.
  induction 1 as [t n|t n name0 t0 t' n' Hi Hr Hn IH]; intros name t1 Hi1 Hr1.
  - econstructor; eauto. constructor.
  - econstructor; eauto.
Qed.
Lemma use_template d : forall t n st h, nested inner ast_of (ri_template inner) (ri_template_name inner) t n ->
  s_template inner ast_of d t n st h = s_template inner' ast_of d t n st h.
Proof.
  destruct H as (Hdef & Hdep & Hreach). induction d as [|d IH]; intros t n st h Hn; cbn [s_template]; apply use_scope;
    try (apply Forall_forall; intros s _; apply use_stmt; auto).
  - intros id name Hid E. apply (Hreach t n Hn). exists id. auto.
  - intros name Hi. split; [|exact (fun _ _ _ _ => I)]. intros Ef. now apply (Hreach t n Hn).
  - intros id name Hid E. apply (Hreach t n Hn). exists id. auto.
  - intros name Hi. split; [intros Ef; now apply (Hreach t n Hn)|]. intros t1 st1 h1 Hr. apply IH. eapply nested_next; eauto.
Qed.
Lemma use_render st : s_render inner ast_of st = s_render inner' ast_of st.
Proof.
  unfold s_render. destruct H as (_ & Hdep & _). rewrite <- Hdep. rewrite use_template by constructor. reflexivity.
Qed.
End Use.
