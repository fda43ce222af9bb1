(** Properties C15-C17: conditionals, loops, block scoping. *)
From Verif Require Import Base Utf8 Ext Errors Syntax AhoCorasick SearchSpec SyntaxSpec Value Ast Lexer LexSpec Wp
  GrammarSpec Parser AstOk Compiler CompileProof ParseMain Fmt Stack Filters Render Engine EngineSpec CompileFacts
  RenderSpec RenderProof RenderErr MapFacts RenderMain RenderObs StackRel Parts IncludeFacts LookupSpec LookupProof
  BlockSpec BlockProof Props2 Demo.

Section Props4.
Context `{X : Ext}.
Variable inner : renderer_inner.
Variable origin : template -> syntax.
Variable source : str.
(** Every template that can be included was compiled. *)
Hypothesis Hlib : library inner origin.

(** C15.  A value counts as true unless it is one of the listed ones. *)
Theorem C15_truthiness v : as_bool v = true <-> ~ falsy v.
Proof. apply as_bool_truthy. Qed.
(** C15.  An [if .. else if .. else] chain has exactly the effect of the branch
    chosen, wherever it stands; if a condition fails, that error. *)
Theorem C15_conditionals st b more els r pre post :
  Forall (stmt_ok source) (pre ++ chain b more els :: post) ->
  selects (s_expr inner source st) (b :: more) els r ->
  match r with
  | Chosen l => forall tree, acts inner source (pre ++ chain b more els :: post) st tree <-> acts inner source (pre ++ l ++ post) st tree
  | Failed e => acts inner source (chain b more els :: post) st (RRet (Err (titled inner e)))
  | Crashed => acts inner source (chain b more els :: post) st (RRet Panic)
  end.
Proof.
  intros Hok Hs. apply Forall_app in Hok as (H1 & H2). inversion H2 as [|? ? Hc Hp]; subst.
  pose proof (chain_part source inner origin st _ _ _ Hs b more eq_refl) as K.
  destruct r as [l|e|].
  - pose proof (selects_ok source inner st _ _ _ Hs b more eq_refl Hc) as Hl. intros tree.
    assert (O1 : Forall (stmt_ok source) (pre ++ chain b more els :: post)) by (apply Forall_app; auto).
    assert (O2 : Forall (stmt_ok source) (pre ++ l ++ post)) by (apply Forall_app; split; auto; apply Forall_app; auto).
    rewrite (acts_iff inner origin Hlib _ _ _ _ O1), (acts_iff inner origin Hlib _ _ _ _ O2).
    assert (E : forall h, s_part inner (lib_ast origin) (N.to_nat (max_include_depth inner) - 1) source (ri_template_name inner) (pre ++ chain b more els :: post) st h =
      s_part inner (lib_ast origin) (N.to_nat (max_include_depth inner) - 1) source (ri_template_name inner) (pre ++ l ++ post) st h).
    { intros h. rewrite !part_app. apply rbind_ext. intros h'. rewrite part_cons, part_app, K. reflexivity. }
    now rewrite E.
  - apply (acts_iff inner origin Hlib); [auto|]. rewrite part_cons, K. reflexivity.
  - apply (acts_iff inner origin Hlib); [auto|]. rewrite part_cons, K. reflexivity.
Qed.
(** Some branch is always chosen, or a condition fails. *)
Theorem C15_always_selects st bs els : source <> [] -> Forall (fun b => expr_ok source (snd (fst b))) bs ->
  exists r, selects (s_expr inner source st) bs els r.
Proof.
  intros Hne. induction 1 as [|[[n c] body] bs Hc Hbs (r & IH)].
  - destruct els; eexists; constructor.
  - cbn [fst snd] in Hc. pose proof (fine_expr false source Hne inner st ltac:(discriminate) c Hc) as F.
    destruct (s_expr inner source st c) as [v|e| |] eqn:E; cbn in F.
    + destruct (as_bool (cow_val v)) eqn:Eb; [apply as_bool_truthy in Eb|apply as_bool_falsy in Eb]; destruct n.
      * exists r. now apply sel_skip_not with v.
      * eexists. now apply sel_if with v.
      * eexists. now apply sel_if_not with v.
      * exists r. now apply sel_skip with v.
    + eexists. apply sel_error. exact E.
    + eexists. apply sel_crash. exact E.
    + contradiction.
Qed.

(** For the remaining laws the template function, if there is one, has to answer a
    name always in the same way (the engine's own templates do). *)
Hypothesis Hsteady : steady inner.

(** C16.  A loop over a list: one iteration for every item, in order; iteration [k]
    of [n] sees the [k]-th item, [loop.index] = k, [loop.first], [loop.last], and
    otherwise the variables from outside; the loop does what the iterations do one
    after the other. *)
Theorem C16_for_over_list st item e body name c items :
  stmt_ok source (SFor (LVItem item) e body) ->
  index_span source (id_span item) = @Ok error _ name -> name <> s2b "loop" ->
  s_expr inner source st e = Ok c -> cow_val c = VList items ->
  exists frames trees,
    length frames = length items /\
    (forall k x, nth_error items k = Some x -> exists fr, nth_error frames k = Some fr /\
       forall src, list_iteration name src st fr k (length items) x) /\
    Forall2 (fun fr tree => acts inner source body (fr :: st) tree) frames trees /\
    acts inner source [SFor (LVItem item) e body] st (in_turn trees).
Proof.
  intros Hok Hi Hn He Hl. inversion Hok as [| | | | | |? ? ? Kv Ke Kb|]; subst.
  destruct (each_turns source inner origin Hlib st (list_frames (is_owned c) name 0 items) body Kb Hsteady []) as (trees & H1 & H2).
  exists (list_frames (is_owned c) name 0 items), trees. destruct (list_frames_nth (is_owned c) name items 0) as (L1 & L2).
  split; [exact L1|]. split.
  { intros k x Hk. destruct (L2 k x Hk) as (iter & E & En). exists (FrLoop (LList (is_owned c) name (S (0 + k)) iter (Some (0 + k, x)))). split; [exact E|].
    intros src. now apply list_frame_iteration. }
  split; [exact H1|]. apply (acts_iff inner origin Hlib); [auto|]. rewrite <- H2. rewrite part_one. cbn [s_stmt].
  rewrite He, here_ok. destruct (expr_span_sok source e Ke) as (sp & Es & _). rewrite Es, here_ok.
  unfold s_loop. rewrite Hl, Hi. reflexivity.
Qed.
(** C16.  A loop over a map: one iteration for every entry, in the order of the
    entries, which is the order of the keys. *)
Theorem C16_for_over_map st key value sp e body kn vn c m :
  stmt_ok source (SFor (LVKeyValue key value sp) e body) ->
  index_span source (id_span key) = @Ok error _ kn -> index_span source (id_span value) = @Ok error _ vn ->
  kn <> s2b "loop" -> vn <> s2b "loop" ->
  s_expr inner source st e = Ok c -> cow_val c = VMap m -> sorted_keys m ->
  exists frames trees,
    length frames = length m /\
    (forall k x, nth_error m k = Some x -> exists fr, nth_error frames k = Some fr /\
       forall src, map_iteration kn vn src st fr k (length m) x) /\
    (forall j k x y, j < k -> nth_error m j = Some x -> nth_error m k = Some y -> str_cmp (fst x) (fst y) = Lt) /\
    Forall2 (fun fr tree => acts inner source body (fr :: st) tree) frames trees /\
    acts inner source [SFor (LVKeyValue key value sp) e body] st (in_turn trees).
Proof.
  intros Hok Hk Hv Hkn Hvn He Hl Hs. inversion Hok as [| | | | | |? ? ? Kv Ke Kb|]; subst.
  destruct (each_turns source inner origin Hlib st (map_frames (is_owned c) kn vn 0 m) body Kb Hsteady []) as (trees & H1 & H2).
  exists (map_frames (is_owned c) kn vn 0 m), trees. destruct (map_frames_nth (is_owned c) kn vn m 0) as (L1 & L2).
  split; [exact L1|]. split.
  { intros k x Hx. destruct (L2 k x Hx) as (iter & E & En). eexists. split; [exact E|].
    intros src. now apply map_frame_iteration. }
  split.
  { clear - Hs. revert Hs. induction m as [|[k0 v0] m IH]; intros Hs [|j] [|k] x y Hjk Hx Hy; try lia; try discriminate; cbn [nth_error] in *.
    - injection Hx as <-. apply nth_error_In in Hy. destruct y as [ky vy]. exact (sorted_keys_gt _ _ _ Hs _ _ Hy).
    - destruct Hs as (_ & Hs). apply (IH Hs j k x y); auto. lia. }
  split; [exact H1|]. apply (acts_iff inner origin Hlib); [auto|]. rewrite <- H2. rewrite part_one. cbn [s_stmt].
  rewrite He, here_ok. destruct (expr_span_sok source e Ke) as (sp' & Es & _). rewrite Es, here_ok.
  unfold s_loop. rewrite Hl, Hk, Hv. reflexivity.
Qed.
(** C16.  An empty list or map: nothing. *)
Corollary C16_for_over_nothing st vars e body c :
  stmt_ok source (SFor vars e body) -> s_expr inner source st e = Ok c ->
  (exists item name, vars = LVItem item /\ cow_val c = VList [] /\ index_span source (id_span item) = @Ok error _ name) \/
  (exists key value sp kn vn, vars = LVKeyValue key value sp /\ cow_val c = VMap [] /\
     index_span source (id_span key) = @Ok error _ kn /\ index_span source (id_span value) = @Ok error _ vn) ->
  acts inner source [SFor vars e body] st (RRet (Ok tt)).
Proof.
  intros Hok He H. inversion Hok as [| | | | | |? ? ? Kv Ke Kb|]; subst. apply (acts_iff inner origin Hlib); [auto|]. rewrite part_one. cbn [s_stmt].
  rewrite He, here_ok. destruct (expr_span_sok source e Ke) as (sp' & Es & _). rewrite Es, here_ok. unfold s_loop.
  destruct H as [(i & n & -> & -> & ->)|(k & v & sp & kn & vn & -> & -> & -> & ->)]; reflexivity.
Qed.

(** C17.  What follows a block (or any statements) happens in the same variables as
    the block itself: nothing defined inside is left, nothing is lost. *)
Theorem C17_sequence st l1 l2 t1 t2 :
  Forall (stmt_ok source) (l1 ++ l2) -> acts inner source l1 st t1 -> acts inner source l2 st t2 ->
  acts inner source (l1 ++ l2) st (andthen t1 t2).
Proof.
  intros Hok H1 H2. pose proof Hok as Hok'. apply Forall_app in Hok' as (K1 & K2).
  apply (acts_iff inner origin Hlib) in H1; auto. apply (acts_iff inner origin Hlib) in H2; auto. subst.
  apply (acts_iff inner origin Hlib); auto. rewrite part_app. symmetry. now apply forget_seq.
Qed.
(** C17.  The body of a [with] block sees one more variable. *)
Theorem C17_with st e name body c tree :
  stmt_ok source (SWith e name body) -> s_expr inner source st e = Ok c ->
  (acts inner source [SWith e name body] st tree <-> acts inner source body (FrVar name c :: st) tree).
Proof.
  intros Hok He. inversion Hok; subst. rewrite !(acts_iff inner origin Hlib); auto. rewrite part_one. cbn [s_stmt]. rewrite He. reflexivity.
Qed.
End Props4.

Section Scoping.
Context `{X : Ext}.
Variable source : str.
(** C17.  That variable shadows every outer one of the same name and hides no
    other; its value, or the members of its value, are what a path finds. *)
Theorem C17_with_variable st st' id c name v :
  index_span source (id_span id) = @Ok error _ name ->
  (starts source v name -> lookup_var (FrVar id c :: st) source v = lookup_var (FrVar id c :: st') source v) /\
  (written source v [name] -> lookup_var (FrVar id c :: st) source v = Ok c) /\
  (forall other, starts source v other -> other <> name -> lookup_var (FrVar id c :: st) source v = lookup_var st source v).
Proof.
  intros Hi. split; [|split].
  - intros (m & ms & -> & (id' & Ea & Ei)). cbn [lookup_var var_first hd_error unwrap bind]. rewrite Ea. cbn [access_span].
    rewrite Ei, Hi. cbn [bind]. rewrite str_eqb_refl. reflexivity.
  - intros H. inversion H as [|m k ms ks (id' & Ea & Ei) Hr]; subst. inversion Hr; subst. cbn [lookup_var var_first hd_error unwrap bind]. rewrite Ea. cbn [access_span].
    rewrite Ei, Hi. cbn [bind]. rewrite str_eqb_refl. now destruct c.
  - intros other (m & ms & -> & (id' & Ea & Ei)) Hn. cbn [lookup_var var_first hd_error unwrap bind]. rewrite Ea. cbn [access_span].
    rewrite Ei, Hi. cbn [bind]. now rewrite (str_eqb_ne other name Hn).
Qed.
(** C17.  The same for the variables of a loop, with one exception (see C20): a
    path whose optional member is missing in the item. *)
Theorem C17_loop_variable l st st' m ms name :
  names source m name -> Forall (member_ok source) (m :: ms) ->
  (name = s2b "loop" /\ loop_position l <> None) \/
  (name <> s2b "loop" /\ loop_key l name <> None) \/
  (name <> s2b "loop" /\ exists o x, loop_item l name = Some (o, x) /\ ~ walks source x ms WAbsent) ->
  lookup_var (FrLoop l :: st) source (m :: ms) = lookup_var (FrLoop l :: st') source (m :: ms).
Proof.
  intros (id & Ea & Ei) Hok H. cbn [lookup_var]. unfold loop_lookup_var. cbn [var_first hd_error unwrap bind var_rest tl]. rewrite Ea, Ei. cbn [bind].
  destruct H as [(-> & H)|[(Hn & H)|(Hn & o & x & Hi & H)]].
  - rewrite str_eqb_refl. unfold lookup_loop. destruct (loop_position l) as [[i rem]|] eqn:E; [|congruence].
    assert (current_index_and_rem l = Some (i, rem)) as -> by (rewrite <- E; destruct l as [? ? ? ? [[? ?]|]|? ? ? ? ? [[? [? ?]]|]]; reflexivity).
    destruct ms as [|m2 ms]; [reflexivity|]. destruct (mb_access m2).
    + unfold err_render. now destruct (build_pretty _ _).
    + destruct (index_span source (id_span id0)); try reflexivity. cbn [bind]. destruct (if str_eqb _ _ then _ else _); try reflexivity. cbn [bind].
      destruct ms; [reflexivity|]. unfold err_render. now destruct (build_pretty _ _).
  - rewrite (str_eqb_ne name _ Hn). destruct l as [? ? ? ? [[? ?]|]|? ? ? ? ? [[? [? ?]]|]]; cbn [loop_key] in H; try congruence.
    destruct (str_eqb name k); [|congruence]. destruct ms; [reflexivity|]. unfold err_render. now destruct (build_pretty _ _).
  - rewrite (str_eqb_ne name _ Hn). inversion Hok as [|? ? _ Hms]; subst. destruct (walks_total source ms Hms x) as (w & Hw).
    assert (R : forall o, exists r, (let* r := resolve source x ms in Ok (option_map (mk_cow o) r)) = r /\ r <> Ok None).
    { intros o'. rewrite (resolve_walks source _ _ _ Hw). destruct w as [y| |re sp]; cbn [walk_result]; [eexists; split; [reflexivity|discriminate]|now destruct H|].
      unfold err_render. destruct (build_pretty _ _); eexists; split; try reflexivity; discriminate. }
    destruct (R o) as (r & Er & Hr). destruct l as [? ? ? ? [[? ?]|]|? ? ? ? ? [[? [? ?]]|]]; cbn [loop_item] in Hi; try congruence.
    + destruct (str_eqb name i); [|congruence]. injection Hi as -> ->. rewrite Er. destruct r as [[c|]| | |]; reflexivity || congruence.
    + destruct (str_eqb name k); [congruence|]. destruct (str_eqb name v); [|congruence]. injection Hi as -> ->. rewrite Er. destruct r as [[c|]| | |]; reflexivity || congruence.
Qed.
(** C17.  A loop hides no other variable, and the exception is this: a path to a
    missing optional member of the item means what it means outside of the loop. *)
Theorem C17_loop_hides_nothing_else l st m ms name :
  names source m name -> Forall (member_ok source) (m :: ms) ->
  (name = s2b "loop" /\ loop_position l = None) \/
  (name <> s2b "loop" /\ loop_key l name = None /\
   forall o x, loop_item l name = Some (o, x) -> walks source x ms WAbsent) ->
  lookup_var (FrLoop l :: st) source (m :: ms) = lookup_var st source (m :: ms).
Proof.
  intros (id & Ea & Ei) Hok H. cbn [lookup_var]. unfold loop_lookup_var. cbn [var_first hd_error unwrap bind var_rest tl]. rewrite Ea, Ei. cbn [bind].
  destruct H as [(-> & H)|(Hn & H1 & H2)].
  - rewrite str_eqb_refl. unfold lookup_loop.
    assert (current_index_and_rem l = None) as -> by (destruct l as [? ? ? ? [[? ?]|]|? ? ? ? ? [[? [? ?]]|]]; [discriminate H|reflexivity|discriminate H|reflexivity]).
    reflexivity.
  - rewrite (str_eqb_ne name _ Hn).
    assert (R : forall o x, walks source x ms WAbsent -> (let* r := resolve source x ms in Ok (option_map (mk_cow o) r)) = Ok None).
    { intros o x Hw. now rewrite (resolve_walks source _ _ _ Hw). }
    destruct l as [? ? ? ? [[? ?]|]|? ? ? ? ? [[? [? ?]]|]]; cbn [loop_item loop_key] in H1, H2; try reflexivity.
    + destruct (str_eqb name i); [|reflexivity]. now rewrite (R _ _ (H2 _ _ eq_refl)).
    + destruct (str_eqb name k); [discriminate H1|]. destruct (str_eqb name v); [|reflexivity]. now rewrite (R _ _ (H2 _ _ eq_refl)).
Qed.
End Scoping.
Print Assumptions C17_loop_hides_nothing_else.
Print Assumptions C15_truthiness.
Print Assumptions C15_conditionals.
Print Assumptions C15_always_selects.
Print Assumptions C16_for_over_list.
Print Assumptions C16_for_over_map.
Print Assumptions C16_for_over_nothing.
Print Assumptions C17_sequence.
Print Assumptions C17_with.
Print Assumptions C17_with_variable.
Print Assumptions C17_loop_variable.

(** Beside them: a text with all these blocks. *)
Local Existing Instance ascii_ext.
Definition blocks : string := "{% if a %}A{% else if not b %}B{% else %}C{% endif %}{% for x in xs %}{{ x }}{% endfor %}{% with b as c %}{{ c }}{% endwith %}{% for k, v in m %}{{ k }}{% endfor %}".
Definition blocks_if : stmt := chain (false, EBase (BVar (var_at 6 7)), [SRaw (mkspan 10 11)])
  [(true, EBase (BVar (var_at 26 27)), [SRaw (mkspan 30 31)])] (Some [SRaw (mkspan 41 42)]).
Definition blocks_for : stmt := SFor (LVItem (mkident (mkspan 60 61))) (EBase (BVar (var_at 65 67))) [SInline (EBase (BVar (var_at 73 74))) (mkspan 70 77)].
Definition blocks_with : stmt := SWith (EBase (BVar (var_at 97 98))) (mkident (mkspan 102 103)) [SInline (EBase (BVar (var_at 109 110))) (mkspan 106 113)].
Definition blocks_map : stmt := SFor (LVKeyValue (mkident (mkspan 133 134)) (mkident (mkspan 136 137)) (mkspan 133 137)) (EBase (BVar (var_at 141 142)))
  [SInline (EBase (BVar (var_at 148 149))) (mkspan 145 152)].
Definition blocks_value : value := VMap (map_of_list [(s2b "a", VInt 0); (s2b "b", VStr []); (s2b "xs", VList [VInt 1; VInt 2]); (s2b "m", VMap [(s2b "p", VInt 3)])]).
Definition blocks_stack : stack := [FrScope (Borrowed blocks_value)].
Example blocks_parsed : parsed blocks = [blocks_if; blocks_for; blocks_with; blocks_map].
Proof. vm_compute. reflexivity. Qed.
Example blocks_ok : Forall (stmt_ok (s2b blocks)) [blocks_if; blocks_for; blocks_with; blocks_map].
Proof. rewrite <- blocks_parsed. apply parsed_ok. vm_compute. reflexivity. Qed.
Lemma demo_library name : match engine_get_template (s2b name) demo_engine with Some _ => true | None => false end = true -> library (demo name) (fun _ => default_syntax).
Proof. intros E t Ht. apply (demo_well_made name E). now right. Qed.
Lemma demo_steady name : match engine_get_template (s2b name) demo_engine with Some _ => true | None => false end = true -> steady (demo name).
Proof.
  unfold steady, demo, renderer_of. destruct (engine_get_template (s2b name) demo_engine) as [r|]; [|discriminate 1]. intros _. exact I.
Qed.
(** C15: [a] is 0, [b] is empty: the second branch, so the text "B". *)
Example C15_case tree : acts (demo "page") (s2b blocks) [blocks_if] blocks_stack tree <-> acts (demo "page") (s2b blocks) [SRaw (mkspan 30 31)] blocks_stack tree.
Proof.
  assert (L : library (demo "page") (fun _ => default_syntax)) by (apply demo_library; vm_compute; reflexivity).
  assert (S1 : selects (s_expr (demo "page") (s2b blocks) blocks_stack) [(false, EBase (BVar (var_at 6 7)), [SRaw (mkspan 10 11)]);
    (true, EBase (BVar (var_at 26 27)), [SRaw (mkspan 30 31)])] (Some [SRaw (mkspan 41 42)]) (Chosen [SRaw (mkspan 30 31)])).
  { eapply sel_skip; [vm_compute; reflexivity|apply fa_zero|]. eapply sel_if_not; [vm_compute; reflexivity|apply fa_str]. }
  assert (O : Forall (stmt_ok (s2b blocks)) ([] ++ [blocks_if])).
  { pose proof blocks_ok as H. inversion H as [|? ? Hi _]; subst. exact (Forall_cons _ Hi (Forall_nil _)). }
  exact (C15_conditionals (demo "page") _ (s2b blocks) L blocks_stack _ _ _ _ [] [] O S1 tree).
Qed.
Lemma Forall2_len {A B} (R : A -> B -> Prop) l l' : Forall2 R l l' -> length l = length l'.
Proof. induction 1; cbn [length]; congruence. Qed.
(** C16: the loops run twice and once. *)
Example C16_case : exists t1 t2 t3,
  acts (demo "page") (s2b blocks) [blocks_for] blocks_stack (in_turn [t1; t2]) /\
  acts (demo "page") (s2b blocks) [blocks_map] blocks_stack (in_turn [t3]).
Proof.
  assert (L : library (demo "page") (fun _ => default_syntax)) by (apply demo_library; vm_compute; reflexivity).
  assert (T : steady (demo "page")) by (apply demo_steady; vm_compute; reflexivity).
  pose proof blocks_ok as H. inversion H as [|? ? _ H2]; subst. inversion H2 as [|? ? Hf H3]; subst. inversion H3 as [|? ? _ H4]; subst. inversion H4 as [|? ? Hm _]; subst.
  destruct (C16_for_over_list (demo "page") _ (s2b blocks) L T blocks_stack _ _ _ (s2b "x") (Borrowed (VList [VInt 1; VInt 2])) [VInt 1; VInt 2] Hf) as (fs & ts & E1 & _ & F1 & A1);
    [vm_compute; reflexivity|intros E; vm_compute in E; discriminate E|vm_compute; reflexivity|reflexivity|].
  destruct (C16_for_over_map (demo "page") _ (s2b blocks) L T blocks_stack _ _ _ _ _ (s2b "k") (s2b "v") (Borrowed (VMap [(s2b "p", VInt 3)])) [(s2b "p", VInt 3)] Hm) as (gs & us & E2 & _ & _ & F2 & A2);
    [vm_compute; reflexivity|vm_compute; reflexivity|intros E; vm_compute in E; discriminate E|intros E; vm_compute in E; discriminate E|vm_compute; reflexivity|reflexivity|exact (conj I I)|].
  apply Forall2_len in F1. apply Forall2_len in F2. cbn [length] in E1, E2.
  destruct ts as [|t1 [|t2 [|? ?]]]; cbn [length] in F1; try lia. destruct us as [|t3 [|? ?]]; cbn [length] in F2; try lia.
  exists t1, t2, t3. split; [exact A1|exact A2].
Qed.
Example blocks_out : renders (template_renderer (program (s2b blocks) (parsed blocks)) demo_engine) (GBorrowed blocks_value) (Ok (s2b "B12p")).
Proof. apply (renders_by _ 200); [vm_compute; reflexivity|discriminate]. Qed.
(** C17: the variable of the [with] block. *)
Example C17_case tree : acts (demo "page") (s2b blocks) [blocks_with] blocks_stack tree <->
  acts (demo "page") (s2b blocks) [SInline (EBase (BVar (var_at 109 110))) (mkspan 106 113)] (FrVar (mkident (mkspan 102 103)) (Borrowed (VStr [])) :: blocks_stack) tree.
Proof.
  assert (L : library (demo "page") (fun _ => default_syntax)) by (apply demo_library; vm_compute; reflexivity).
  pose proof blocks_ok as H. inversion H as [|? ? _ H2]; subst. inversion H2 as [|? ? _ H3]; subst. inversion H3 as [|? ? Hw _]; subst.
  apply (C17_with (demo "page") _ (s2b blocks) L blocks_stack _ _ _ (Borrowed (VStr [])) tree Hw). vm_compute. reflexivity.
Qed.
Example C17_case_names : index_span (s2b blocks) (mkspan 102 103) = @Ok error _ (s2b "c") /\ written (s2b blocks) (var_at 109 110) [s2b "c"].
Proof. split; [vm_compute; reflexivity|]. constructor; [|constructor]. exists (mkident (mkspan 109 110)). split; [reflexivity|]. vm_compute. reflexivity. Qed.
