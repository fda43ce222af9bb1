(** Properties C30-C32: contexts and template functions. *)
From Verif Require Import Base Utf8 Ext Errors Syntax AhoCorasick SearchSpec SyntaxSpec Value Ast Lexer LexSpec Wp
  GrammarSpec Parser AstOk Compiler CompileProof ParseMain Fmt Stack Filters Render Engine EngineSpec CompileFacts
  RenderSpec RenderProof RenderErr MapFacts RenderMain RenderObs StackRel Parts IncludeFacts LookupSpec LookupProof
  ContextSpec ContextProof LazyProof DepthSpec DepthProof TraceSpec TraceProof Props2 Demo Props3 Props4 Props5 Props6.
From Coq Require Import Relations.

Section Props7.
Context `{X : Ext}.

(** ** C31 *)
Lemma same_base inner origin ast_of g g' st st' :
  statements inner origin ast_of -> initial_stack g = Ok st -> initial_stack g' = Ok st' ->
  (forall t v, provided inner t -> In v (flat_map (open_vars (t_source t) []) (ast_of t)) -> lookup_var st (t_source t) v = lookup_var st' (t_source t) v) ->
  (forall r, renders inner g r <-> renders inner g' r) /\
  (forall k w p, writes inner g k w p <-> writes inner g' k w p).
Proof.
  intros H E E' Hl.
  assert (S1 : exists b, st = [b]) by (destruct (initial_stack_shape _ _ E) as [(v & ->)|(f & ->)]; eauto).
  assert (S2 : exists b, st' = [b]) by (destruct (initial_stack_shape _ _ E') as [(v & ->)|(f & ->)]; eauto).
  destruct S1 as (b & ->), S2 as (b' & ->).
  assert (K : s_render inner ast_of [b] = s_render inner ast_of [b']).
  { apply open_render. intros t Hp. split; [apply (statements_sourced inner origin ast_of H t Hp)|]. intros v Hv. now apply Hl. }
  destruct (C11_compiled_means_source inner origin ast_of g _ H E) as (R1 & W1).
  destruct (C11_compiled_means_source inner origin ast_of g' _ H E') as (R2 & W2). rewrite <- K in R2, W2. split.
  - intros r. split; intros Hr; [rewrite (renders_fun _ _ _ _ Hr R1); exact R2|rewrite (renders_fun _ _ _ _ Hr R2); exact R1].
  - intros k w p. split; intros Hr; [rewrite (writes_fun _ _ _ _ _ _ Hr (W1 k w)); apply W2|rewrite (writes_fun _ _ _ _ _ _ Hr (W2 k w)); apply W1].
Qed.
Lemma agree_initial P g g' : agree P g g' -> exists st st', initial_stack g = Ok st /\ initial_stack g' = Ok st'.
Proof. destruct 1; eauto. exists [FrValueFn f], [FrValueFn f']. auto. Qed.
Lemma open_var_ok inner origin ast_of t v : statements inner origin ast_of -> provided inner t ->
  In v (flat_map (open_vars (t_source t) []) (ast_of t)) -> var_ok (t_source t) v.
Proof.
  intros H Hp Hv. pose proof (proj2 (statements_sourced inner origin ast_of H t Hp)) as Hok.
  apply scope_vars_ok in Hok. rewrite Forall_forall in Hok. apply Hok. now apply open_scope_incl in Hv.
Qed.
(** C31.  Two contexts (values or functions) with the same entries for every name
    mentioned in the templates give the same result and the same writes. *)
Theorem C31_only_mentioned_globals inner origin ast_of g g' :
  statements inner origin ast_of ->
  agree (fun name => exists t, provided inner t /\ mentions (t_source t) (ast_of t) name) g g' ->
  (forall r, renders inner g r <-> renders inner g' r) /\
  (forall k w p, writes inner g k w p <-> writes inner g' k w p).
Proof.
  intros H Ha. destruct (agree_initial _ _ _ Ha) as (st & st' & E & E'). apply (same_base inner origin ast_of g g' st st'); auto.
  intros t v Hp Hv. apply (agree_base _ _ _ _ _ _ _ Ha E E'); [eapply open_var_ok; eauto|].
  intros first rest n -> Hn. exists t. split; [exact Hp|]. exists first, rest. split; [|exact Hn]. now apply open_scope_incl in Hv.
Qed.

(** ** C30 *)
(** C30.  A function that looks into a value against that value: if both
    renderings succeed, they give the same string, and leave every writer in the
    same state. *)
Theorem C30_lazy_and_eager_agree inner origin f v :
  well_made inner origin -> looks_into f v ->
  (forall s s', renders inner (GBorrowed v) (Ok s) -> renders inner (GFn f) (Ok s') -> s = s') /\
  (forall k w w1 w2, writes inner (GBorrowed v) k w (w1, Ok tt) -> writes inner (GFn f) k w (w2, Ok tt) -> w1 = w2).
Proof.
  intros H Hf. destruct (statements_exist inner origin H) as (ast_of & Ha).
  destruct (C11_compiled_means_source inner origin ast_of (GBorrowed v) _ Ha eq_refl) as (R1 & W1).
  destruct (C11_compiled_means_source inner origin ast_of (GFn f) _ Ha eq_refl) as (R2 & W2).
  pose proof (lz_render inner ast_of v f Hf) as L.
  set (x := s_render inner ast_of [FrScope (Borrowed v)]) in *. set (y := s_render inner ast_of [FrValueFn f]) in *. split.
  - intros s s' Hs Hs'. pose proof (renders_fun _ _ _ _ Hs R1) as E. pose proof (renders_fun _ _ _ _ Hs' R2) as E'.
    unfold string_result in E, E'. destruct (run_string [] x) as [o [[]| | |]] eqn:Ex; try discriminate E.
    destruct (run_string [] y) as [o' [[]| | |]] eqn:Ey; try discriminate E'. injection E as ->. injection E' as ->.
    exact (proj1 (lax_string eq x y L _ _ _ _ _ Ex Ey)).
  - intros k w w1 w2 Hs Hs'. pose proof (writes_fun _ _ _ _ _ _ Hs (W1 k w)) as E. pose proof (writes_fun _ _ _ _ _ _ Hs' (W2 k w)) as E'.
    unfold writer_result in E, E'. destruct (run k w None x) as [[w3 er] r] eqn:Ex. destruct (run k w None y) as [[w4 er'] r'] eqn:Ey.
    assert (r = Ok tt /\ w1 = w3) as (-> & ->). { destruct er, r as [[]| | |]; try discriminate E; injection E as ->; auto. }
    assert (r' = Ok tt /\ w2 = w4) as (-> & ->). { destruct er', r' as [[]| | |]; try discriminate E'; injection E' as ->; auto. }
    pose proof (proj1 (lax_run eq k x y L _ _ _ _ _ _ Ex Ey)) as K. now injection K as ->.
Qed.
(** C30.  Variables bound by [with] and [for] are not asked for: only the paths of
    occurrences outside the blocks binding their first name ([asks]) matter.  (An
    access with an optional member to the item of a loop is one that can reach the
    function, see C20.) *)
Theorem C30_local_variables_stay_local inner origin ast_of f f' :
  statements inner origin ast_of ->
  (forall t path, provided inner t -> asks (t_source t) (ast_of t) path -> f path = f' path) ->
  (forall r, renders inner (GFn f) r <-> renders inner (GFn f') r) /\
  (forall k w p, writes inner (GFn f) k w p <-> writes inner (GFn f') k w p).
Proof.
  intros H Hf. apply (same_base inner origin ast_of (GFn f) (GFn f') [FrValueFn f] [FrValueFn f'] H eq_refl eq_refl).
  intros t v Hp Hv. apply asked_base; [eapply open_var_ok; eauto|]. intros p Hr. apply (Hf t); auto. exists v. auto.
Qed.

(** ** C32 *)
(** C32.  With a template function the templates of the engine do not matter. *)
Theorem C32_engine_templates_unused inner f ts g fuel :
  ri_template_fn inner = Some f ->
  to_string fuel (with_templates ts inner) g = to_string fuel inner g /\
  forall k w, to_writer fuel (with_templates ts inner) g k w = to_writer fuel inner g k w.
Proof.
  intros Hf. assert (R : forall st, render (with_templates ts inner) fuel st = render inner fuel st).
  { intros st. unfold render. cbn [with_templates ri_template ri_template_name]. apply (table_loop inner ts). rewrite Hf. discriminate. }
  split; [|intros k w]; unfold to_string, to_writer; destruct (initial_stack g); auto; cbn [bind]; now rewrite R.
Qed.
(** C32.  Every include asks the function, in order: the template of an include is
    what the function answers to its name after having been asked for the names of
    all includes before, and it is not asked otherwise. *)
Theorem C32_every_include_asks inner f st l m :
  ri_template_fn inner = Some f -> journey inner (start inner st) l m ->
  mo_asked m = rev (map fst l) /\
  forall l1 name t l2, l = l1 ++ (name, t) :: l2 -> f (rev (map fst l1)) name = inl t.
Proof.
  intros Hf Hj. destruct (journey_asked inner f _ _ _ Hf Hj) as (H1 & H2). cbn [start mo_asked] in *.
  rewrite app_nil_r in H1. split; [exact H1|]. intros l1 n t l2 E. specialize (H2 l1 n t l2 E). now rewrite app_nil_r in H2.
Qed.
(** A successful rendering is such a sequence of includes. *)
Theorem C32_success inner g st out : initial_stack g = Ok st -> renders inner g (Ok out) ->
  exists l m, journey inner (start inner st) l m /\ mo_active m = [] /\ mo_written m = out.
Proof.
  intros Hg (_ & n & Hn). specialize (Hn n (le_n _)). unfold to_string in Hn. rewrite Hg in Hn. cbn [bind] in Hn.
  destruct (run_string [] (render inner n st)) as [o [[]|e| |]] eqn:E; try discriminate Hn. injection Hn as ->.
  destruct (success_leads inner n (start inner st) out E) as (st' & h & Hl). destruct (leads_journey inner _ _ Hl) as (l & Hj).
  exists l. eexists. split; [exact Hj|]. auto.
Qed.
(** C32.  When the function fails, rendering ends there; its message is the reason
    of the error, which points to the name in the including template. *)
Theorem C32_refusal inner f g st l m a rest name w a' st' out reason p :
  ri_template_fn inner = Some f -> initial_stack g = Ok st ->
  ~ renders inner g (Err (limit_error (max_include_depth inner))) ->
  journey inner (start inner st) l m -> mo_active m = a :: rest ->
  proceeds inner (mo_written m) a (mo_vars m) out (match w with None => RsInclude name | Some c => RsIncludeWith name c end) a' st' ->
  f (rev (map fst l)) (as_name name) = inr reason ->
  build_pretty (t_source (ac_template a)) (as_span name) = Ok p ->
  renders inner g (Err (mkerror KRender (ac_name a) (Some reason) (Some p))).
Proof.
  intros Hf Hg Hd Hj Hm Hp Hr Hb. pose proof (journey_leads inner _ _ _ Hj) as Hl.
  destruct (C32_every_include_asks inner f st l m Hf Hj) as (Ha & _).
  assert (D : forall m1, leads_to inner (start inner st) m1 -> length (mo_active m1) <= allowed inner).
  { intros m1 H1. destruct (le_lt_dec (length (mo_active m1)) (allowed inner)) as [Hle|Hgt]; [exact Hle|]. exfalso. apply Hd. apply (C14_too_deep inner g st Hg). eauto. }
  destruct (leads_run inner _ _ Hl D) as (n & k & Hn).
  destruct (refused_run inner a rest (mo_vars m) (mo_asked m) (mo_written m) out name w a' st' Hp (mkerror KRender None (Some reason) (Some p))) as (n2 & H2).
  { unfold get_template. rewrite Hf, Ha, Hr. unfold err_render. now rewrite Hb. }
  split; [discriminate|]. exists (k + (n + n2)). intros fuel Hfu. unfold to_string. rewrite Hg. cbn [bind].
  specialize (Hn (fuel - k) ltac:(lia)). replace (k + (fuel - k)) with fuel in Hn by lia. unfold render. cbn [start mo_written mo_active mo_vars mo_asked] in Hn.
  rewrite Hn, Hm, H2 by lia. unfold with_template_name. cbn. now destruct (ac_name a).
Qed.
End Props7.
Print Assumptions C31_only_mentioned_globals.
Print Assumptions C30_lazy_and_eager_agree.
Print Assumptions C30_local_variables_stay_local.
Print Assumptions C32_engine_templates_unused.
Print Assumptions C32_every_include_asks.
Print Assumptions C32_success.
Print Assumptions C32_refusal.

Local Existing Instance ascii_ext.
(** Beside them. *)
Example C30_case : looks_into (look demo_value) demo_value /\
  renders (demo "page") (GBorrowed demo_value) (Ok (s2b "<x>, <7> T -ANN-")) /\
  renders (demo "page") (GFn (look demo_value)) (Ok (s2b "<x>, <7> T -ANN-")).
Proof.
  split; [apply look_looks|]. split; (apply (renders_by _ 200); [vm_compute; reflexivity|discriminate]).
Qed.
(** The page mentions [items], [title], [user], [t], [name], [item] and [loop]: the
    entry [other] does not matter. *)
Definition page_ast (t : template) : scope := match parse_template (en_searcher demo_engine) (t_source t) with Ok l => l | _ => [] end.
Lemma page_statements : statements (demo "page") (fun _ => default_syntax) page_ast.
Proof.
  destruct (statements_exist _ _ page_well_made) as (ast & Ha). intros t Hp. destruct (Ha t Hp) as (Ht & D). split; [exact Ht|].
  destruct Ht as (Hu & Hc & Hv & _). pose proof D as D0.
  apply (C08_accepted_iff_grammatical _ _ _ Hu Hc demo_for Hv) in D0. unfold page_ast. rewrite D0. exact D.
Qed.
Definition page_templates : list template := map snd (en_templates demo_engine).
Lemma page_provided t : provided (demo "page") t -> In t page_templates.
Proof.
  intros [->|[(f & h & n & E & _)|(_ & n & E)]].
  - vm_compute. auto.
  - vm_compute in E. discriminate E.
  - apply map_get_In in E. apply (in_map snd) in E. exact E.
Qed.
Definition heads (t : template) : list str := map (head_word (t_source t)) (flat_map stmt_vars (page_ast t)).
Lemma mentions_heads t n : mentions (t_source t) (page_ast t) n -> In n (heads t).
Proof.
  intros (first & rest & Hi & (id & Ei & En)). apply in_map_iff. exists (first :: rest). split; [|exact Hi].
  unfold head_word, word. rewrite Ei. cbn [access_span]. now rewrite En.
Qed.
Example C31_case : agree (fun name => exists t, provided (demo "page") t /\ mentions (t_source t) (page_ast t) name)
  (GBorrowed demo_value) (GBorrowed (match demo_value with VMap m => VMap (map_insert (s2b "other") (VInt 1) m) | v => v end)).
Proof.
  eapply agree_values; [reflexivity|reflexivity|]. intros n (t & Hp & Hm).
  apply page_provided in Hp. apply mentions_heads in Hm.
  assert (K : In n (flat_map heads page_templates)) by exact (proj2 (in_flat_map heads page_templates n) (ex_intro _ t (conj Hp Hm))). clear Hp Hm.
  assert (L : exists l, flat_map heads page_templates = l /\ Forall (fun n => entry demo_value n = entry (match demo_value with VMap m => VMap (map_insert (s2b "other") (VInt 1) m) | v => v end) n) l).
  { eexists. split; [vm_compute; reflexivity|]. repeat apply Forall_cons; [..|apply Forall_nil]; vm_compute; reflexivity. }
  destruct L as (l & E & L). rewrite E in K. rewrite Forall_forall in L. exact (L n K).
Qed.
(** A function that is asked for [item], [loop] or [t] (which the page binds, but
    the included row mentions [item] and [loop]) and answers differently matters
    only for the row alone. *)
Definition scopes : string := "{% with a as t %}{{ t.b }}{% endwith %}{% for x in t %}{{ x.y }}{% endfor %}{{ loop }}".
Definition path_words (v : var) : list str := map (fun m => word (s2b scopes) (access_span (mb_access m))) v.
Example scopes_ask : map path_words (flat_map (open_vars (s2b scopes) []) (parsed scopes)) = [[s2b "a"]; [s2b "t"]; [s2b "loop"]].
Proof. vm_compute. reflexivity. Qed.

(** A template function that answers a name at most twice. *)
Definition count_occ_str (h : list str) (n : str) : nat := length (List.filter (str_eqb n) h).
Definition twice : template_fn := fun h n =>
  if 2 <=? count_occ_str h n then inr (s2b "no more of that")
  else match map_get n (en_templates demo_engine) with Some t => inl t | None => inr (s2b "unheard of") end.
Definition twice_page : renderer_inner := with_template_fn twice (with_templates [] (demo "page")).
Example C32_case : ri_template_fn twice_page = Some twice /\
  renders twice_page (GBorrowed demo_value) (Ok (s2b "<x>, <7> T -ANN-")).
Proof. split; [reflexivity|]. apply (renders_by _ 200); [vm_compute; reflexivity|discriminate]. Qed.
Definition three_items : value := VMap [(s2b "items", VList [VMap [(s2b "name", VInt 1)]; VMap [(s2b "name", VInt 2)]; VMap [(s2b "name", VInt 3)]])].
Example C32_case_refused : exists e, renders twice_page (GBorrowed three_items) (Err e) /\ e_reason e = Some (s2b "no more of that") /\ e_name e = Some (s2b "page").
Proof. eexists. split; [apply (renders_by _ 200); [vm_compute; reflexivity|discriminate]|split; reflexivity]. Qed.
(** The hypotheses of C32_refusal hold for the first include of the page. *)
Definition refuse_all : renderer_inner := with_template_fn (fun _ n => inr (s2b "no " ++ n)) (demo "page").
Example C32_refusal_case : exists m a rest name a' st' out p,
  journey refuse_all (start refuse_all [FrScope (Borrowed three_items)]) [] m /\ mo_active m = a :: rest /\
  proceeds refuse_all (mo_written m) a (mo_vars m) out (RsInclude name) a' st' /\
  build_pretty (t_source (ac_template a)) (as_span name) = Ok p /\
  ~ renders refuse_all (GBorrowed three_items) (Err (limit_error (max_include_depth refuse_all))).
Proof.
  eexists _, _, _, _, _, _, _, _. split; [apply jo_stay|]. split; [reflexivity|]. split; [|split].
  - exists 50. eexists. split; [vm_compute; reflexivity|reflexivity].
  - vm_compute. reflexivity.
  - intros (_ & n & H). specialize (H (n + 50) ltac:(lia)). assert (K : to_string 50 refuse_all (GBorrowed three_items) <> OutOfFuel) by (intros E; vm_compute in E; discriminate E).
    rewrite (to_string_mono refuse_all 50 (n + 50) _ ltac:(lia) K) in H. vm_compute in H. discriminate H.
Qed.
