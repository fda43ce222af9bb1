(** C66: the work of a rendering is bounded by the sizes of the templates and of the data, and by
    how deep loops are nested and how deep includes may be. *)
From Verif Require Import Base Utf8 Ext Errors Syntax SyntaxSpec Value Ast AstOk LexSpec GrammarSpec Parser ParseMain Compiler CompileProof CompileFacts
  Fmt Stack Filters Render RenderErr Engine EngineSpec RenderSpec RenderProof RenderObs RenderMain Props2 Props3 Demo SizeSpec Size Steps Props14 Props35 WorkSpec Work.

Section Lits.
Context `{X : Ext}.
Variable source : str.
Notation all_simple := (Forall simple).
Lemma number_simple s neg v : number_lit s neg v -> simple v.
Proof. destruct 1; exact I. Qed.
Lemma g_base_simple ts b : g_base source ts b -> all_simple (base_lits b).
Proof. destruct 1; cbn [base_lits]; repeat (constructor; [first [exact I|eapply number_simple; eassumption]|]); constructor. Qed.
Lemma g_args_simple ts bs : g_args source ts bs -> all_simple (flat_map base_lits bs).
Proof.
  induction 1; cbn [flat_map]; apply Forall_app; split; eauto using g_base_simple; constructor.
Qed.
Lemma g_expr_simple ts e : g_expr source ts e -> all_simple (expr_lits e).
Proof.
  induction 1; cbn [expr_lits].
  - eapply g_base_simple; eassumption.
  - apply Forall_app; split; [assumption|constructor].
  - apply Forall_app; split; [assumption|]. cbn [arg_list]. eapply g_args_simple; eassumption.
Qed.
Lemma g_cond_simple ts ng e : g_cond source ts ng e -> all_simple (expr_lits e).
Proof. destruct 1; eapply g_expr_simple; eassumption. Qed.
Lemma g_simple :
  (forall ts s, g_stmt source ts s -> all_simple (stmt_lits s)) /\
  (forall ts l, g_scope source ts l -> all_simple (flat_map stmt_lits l)) /\
  (forall ts e, g_else source ts e -> all_simple (match e with Some l => flat_map stmt_lits l | None => [] end)).
Proof.
  apply g_mind; intros; cbn [stmt_lits flat_map app]; rewrite ?app_nil_r;
    repeat (apply Forall_app; split); eauto using g_expr_simple, g_cond_simple.
Qed.
Lemma derives_simple sx s : derives sx source s -> all_simple (flat_map stmt_lits s).
Proof. intros (ts & _ & G). eapply (proj1 (proj2 g_simple)). exact G. Qed.
End Lits.

Section C66.
Context `{X : Ext}.

(** The most steps of a template, if what it includes takes [below] of them. *)
Lemma within_pow B d : within B d + 1 <= (B + 2) ^ (d + 1).
Proof.
  induction d as [|d IH]; cbn [within].
  - rewrite Nat.add_0_l, Nat.pow_1_r. lia.
  - replace (S d + 1) with (S (d + 1)) by lia. cbn [Nat.pow]. nia.
Qed.
Lemma stack_small n g st : small_globals n g -> initial_stack g = Ok st -> Forall (frame_small n) st.
Proof.
  destruct g as [[v| | |]|v|f]; cbn [small_globals initial_stack bind]; intros H E; try discriminate; injection E as <-; (constructor; [|constructor]); exact H.
Qed.
Lemma derived_costs sx t s L n k : user_syntax sx -> valid_utf8 (t_source t) -> derives sx (t_source t) s -> t_instrs t = cscope 0 s ->
  length (t_source t) <= L -> depth_of_loops s <= k -> forall T, costs T n s <= L * (n + 1) ^ k * (T + 1).
Proof.
  intros Hu Hv D E Hl Hk T. pose proof (derives_size sx Hu _ Hv s D) as Z. pose proof (csize_length (cscope 0 s)) as Cl.
  assert (C : length (cscope 0 s) <= L) by (etransitivity; [exact Cl|]; etransitivity; [exact Z|exact Hl]).
  etransitivity; [apply (costs_bound T n s k)|].
  - apply Forall_forall. intros x _ off k' Hx. now apply cost_bound.
  - exact Hk.
  - rewrite <- Nat.mul_assoc. apply Nat.mul_le_mono_r. exact C.
Qed.

(** C66.  A rendering that ends within so many steps is the rendering: the machine that counts
    steps (WorkSpec.v) is the renderer. *)
Theorem C66_counted inner steps g :
  (string_in inner steps g <> OutOfFuel -> renders inner g (string_in inner steps g)) /\
  forall k w, snd (writer_in inner steps g k w) <> OutOfFuel -> writes inner g k w (writer_in inner steps g k w).
Proof.
  split.
  - intros H. split; [exact H|]. exists (S steps). intros f Hf. unfold to_string, string_in in *. destruct (initial_stack g) as [st| | |]; cbn [bind] in *; try reflexivity.
    pose proof (less_string _ _ (whole_less inner steps f st Hf) []) as L.
    destruct (run_string [] (whole inner steps st)) as [w r] eqn:E. cbn [snd] in L. rewrite L; [reflexivity|].
    intros ->. now apply H.
  - intros k w H. split; [exact H|]. exists (S steps). intros f Hf. unfold to_writer, writer_in in *. destruct (initial_stack g) as [st| | |]; cbn [bind] in *; try reflexivity.
    pose proof (less_run k _ _ (whole_less inner steps f st Hf) w None) as L.
    destruct (run k w None (whole inner steps st)) as [[w' c] r] eqn:E. cbn [snd] in L. rewrite L; [reflexivity|].
    intros ->. destruct c; now apply H.
Qed.

(** So many steps are enough, if with more the tree is the same. *)
Lemma settled inner origin g steps : well_made inner origin -> initial_stack g <> OutOfFuel ->
  (forall st, initial_stack g = Ok st -> exists m, forall f, m <= f -> render inner f st = whole inner steps st) ->
  renders inner g (string_in inner steps g) /\ forall k w, writes inner g k w (writer_in inner steps g k w).
Proof.
  intros Hw Hg H. destruct (C12_rendering_terminates inner origin g Hw Hg) as ((r & R) & W).
  assert (M : exists m0, forall f, m0 <= f -> to_string f inner g = string_in inner steps g /\ forall k w, to_writer f inner g k w = writer_in inner steps g k w).
  { unfold to_string, string_in, to_writer, writer_in. destruct (initial_stack g) as [st| | |]; [|exists 0; split; reflexivity..].
    destruct (H st eq_refl) as (m & Hm). exists m. intros f Hf. cbn [bind]. rewrite (Hm f Hf). split; reflexivity. }
  destruct M as (m0 & M). split.
  - pose proof R as (_ & m & Hm). assert (Q : string_in inner steps g = r) by (rewrite <- (proj1 (M (m0 + m) ltac:(lia))); apply Hm; lia). rewrite Q. exact R.
  - intros k w. destruct (W k w) as (p & P). pose proof P as (_ & m & Hm).
    assert (Q : writer_in inner steps g k w = p) by (rewrite <- (proj2 (M (m0 + m) ltac:(lia))); apply Hm; lia). rewrite Q. exact P.
Qed.

(** C66.  Let no template have more than [L] bytes and loops nested deeper than [k], and let no
    list or map of the context have more than [n] items (at least 3, the size of [loop]) and the
    filters make no larger ones.  Then a rendering is complete after [(L*(n+1)^k+2)^depth] steps,
    with the depth limit of includes as [depth]: what that many steps give is what the rendering gives. *)
Theorem C66_steps inner origin ast_of L n k g steps :
  statements inner origin ast_of ->
  (forall t, provided inner t -> length (t_source t) <= L /\ depth_of_loops (ast_of t) <= k) ->
  (forall name f, map_get name (en_functions (ri_engine inner)) = Some (EFilter f) -> modest n f) ->
  3 <= n -> small_globals n g -> initial_stack g <> OutOfFuel ->
  (L * (n + 1) ^ k + 2) ^ (Nat.max 1 (N.to_nat (max_include_depth inner))) <= steps ->
  renders inner g (string_in inner steps g) /\ forall k w, writes inner g k w (writer_in inner steps g k w).
Proof.
  intros Hs Hb Hm Hn Hg Hi Hf. apply (settled inner origin); [intros t Hp; apply (Hs t Hp)|exact Hi|]. intros st Est.
  set (B := L * (n + 1) ^ k) in *. set (d := N.to_nat (max_include_depth inner) - 1).
  assert (Hc : forall t T, provided inner t -> costs T n (ast_of t) <= B * (T + 1)).
  { intros t T Hp. destruct (Hs t Hp) as ((Hu & _ & Hv & _) & D). destruct (Hb t Hp) as [Hl Hk].
    apply (derived_costs (origin t) t); auto. apply (statements_sourced _ _ _ Hs t Hp). }
  assert (Hl : forall t, provided inner t -> Forall simple (flat_map stmt_lits (ast_of t))).
  { intros t Hp. destruct (Hs t Hp) as (_ & D). eapply derives_simple; exact D. }
  destruct (statements_sourced _ _ _ Hs (ri_template inner) (or_introl eq_refl)) as (Ecode & Hok).
  pose proof (template_sim_in inner ast_of n Hn Hm False B
    (fun t _ Hnm => statements_sourced _ _ _ Hs t (or_intror Hnm))
    (fun t _ Hnm => Hl t (or_intror Hnm))
    (fun t T _ Hnm => Hc t T (or_intror Hnm))
    d (ri_template inner) (ast_of (ri_template inner)) (ri_template_name inner) false [] st st [] (fun _ => RRet (Ok tt)) 0
    Ecode Hok (Hl _ (or_introl eq_refl)) (fun F => match F with end) (stack_small n g st Hg Est) eq_refl (or_introl eq_refl) eq_refl) as Z.
  assert (L0 : forall h, oks (s_part inner ast_of d (t_source (ri_template inner)) (ri_template_name inner) (ast_of (ri_template inner)) st []) h -> loop_in inner 0 [] st h (RRet (Ok tt))).
  { intros h _ f _. destruct f; reflexivity. }
  specialize (Z L0).
  assert (Le : costs (below B d) n (ast_of (ri_template inner)) + 1 + 0 <= steps).
  { pose proof (Hc (ri_template inner) (below B d) (or_introl eq_refl)) as C. pose proof (within_pow B d) as P.
    assert (Ew : within B d = B * (below B d + 1) + 1) by (destruct d; reflexivity).
    replace (d + 1) with (Nat.max 1 (N.to_nat (max_include_depth inner))) in P by (unfold d; lia). lia. }
  destruct (render_part inner ast_of (fun t Hnm => statements_sourced _ _ _ Hs t (or_intror Hnm)) (ast_of (ri_template inner)) st Ecode Hok) as (m & R). exists m. intros f Hff. rewrite (R f Hff). symmetry. unfold whole. apply Z. exact Le.
Qed.

(** C66.  A template without includes depends on no other template: the bound is its own size
    times [(n+1)^k], for loops nested [k] deep, whatever the sizes of the others are. *)
Theorem C66_alone inner origin ast_of n k g steps :
  statements inner origin ast_of ->
  all_self_contained (ast_of (ri_template inner)) -> depth_of_loops (ast_of (ri_template inner)) <= k ->
  (forall name f, map_get name (en_functions (ri_engine inner)) = Some (EFilter f) -> modest n f) ->
  3 <= n -> small_globals n g -> initial_stack g <> OutOfFuel ->
  length (t_source (ri_template inner)) * (n + 1) ^ k + 1 <= steps ->
  renders inner g (string_in inner steps g) /\ forall k w, writes inner g k w (writer_in inner steps g k w).
Proof.
  intros Hs Ha Hk Hm Hn Hg Hi Hf. apply (settled inner origin); [intros t Hp; apply (Hs t Hp)|exact Hi|]. intros st Est.
  set (t := ri_template inner) in *. set (d := N.to_nat (max_include_depth inner) - 1).
  destruct (statements_sourced _ _ _ Hs t (or_introl eq_refl)) as (Ecode & Hok).
  destruct (Hs t (or_introl eq_refl)) as ((Hu & _ & Hv & _) & D).
  pose proof (template_sim_in inner ast_of n Hn Hm True 0
    (fun t F => match F I with end) (fun t F => match F I with end) (fun t T F => match F I with end)
    d t (ast_of t) (ri_template_name inner) false [] st st [] (fun _ => RRet (Ok tt)) 0
    Ecode Hok (derives_simple _ _ _ D) (fun _ => Ha) (stack_small n g st Hg Est) eq_refl (or_introl eq_refl) eq_refl) as Z.
  assert (L0 : forall h, oks (s_part inner ast_of d (t_source t) (ri_template_name inner) (ast_of t) st []) h -> loop_in inner 0 [] st h (RRet (Ok tt))).
  { intros h _ f _. destruct f; reflexivity. }
  specialize (Z L0).
  assert (Le : costs (below 0 d) n (ast_of t) + 1 + 0 <= steps).
  { rewrite (costs_contained _ _ _ Ha). pose proof (derived_costs (origin t) t (ast_of t) _ n k Hu Hv D Ecode (le_n _) Hk 0) as C. lia. }
  destruct (render_part inner ast_of (fun t Hnm => statements_sourced _ _ _ Hs t (or_intror Hnm)) (ast_of t) st Ecode Hok) as (m & R). exists m. intros f Hff. rewrite (R f Hff). symmetry. unfold whole. apply Z. exact Le.
Qed.
End C66.
Print Assumptions C66_counted.
Print Assumptions C66_steps.
Print Assumptions C66_alone.

(** ** Concrete cases *)
Local Existing Instance ascii_ext.
Lemma upper_modest n : modest n upper.
Proof. intros r args v _ _ E. unfold upper in E. cbn [fl_run] in E. destruct r; try discriminate E. injection E as <-. constructor. Qed.
Lemma demo_modest n name f : map_get name (en_functions demo_engine) = Some (EFilter f) -> modest n f.
Proof.
  replace (en_functions demo_engine) with [(s2b "upper", EFilter upper)] by (vm_compute; reflexivity). cbn [map_get].
  destruct (str_eqb _ _); intros E; [|discriminate E]. injection E as <-. apply upper_modest.
Qed.
Lemma statements_of_demo inner : well_made inner (fun _ => default_syntax) -> statements inner (fun _ => default_syntax) demo_ast.
Proof.
  intros W t Hp. pose proof (W t Hp) as Ht. split; [exact Ht|]. destruct Ht as (Hu & Hc & Hv & e & He & Ec). unfold demo_ast.
  pose proof (engine_searcher _ _ demo_for) as Hs. pose proof (engine_searcher _ _ He) as Hs'. assert (Es : en_searcher demo_engine = en_searcher e) by congruence.
  destruct (proj1 (proj1 (proj2 (C08_accepted_iff_grammatical _ e (t_source t) Hu Hc He Hv))) (ex_intro _ t Ec)) as (s & D).
  rewrite Es. apply (C08_accepted_iff_grammatical _ e (t_source t) Hu Hc He Hv) in D as D'. rewrite D'. exact D.
Qed.
Definition sized (L k : nat) (t : template) : bool := (length (t_source t) <=? L) && (depth_of_loops (demo_ast t) <=? k).
Lemma page_sized t : provided (demo "page") t -> length (t_source t) <= 130 /\ depth_of_loops (demo_ast t) <= 1.
Proof.
  assert (K : sized 130 1 t = true -> length (t_source t) <= 130 /\ depth_of_loops (demo_ast t) <= 1).
  { unfold sized. intros H. apply andb_prop in H as [H1 H2]. split; now apply Nat.leb_le. }
  intros [->|[(f & h & n & E & _)|(_ & n & E)]]; apply K.
  - vm_compute. reflexivity.
  - vm_compute in E. discriminate E.
  - apply MapFacts.map_get_In in E. change (In (n, t) (en_templates demo_engine)) in E.
    assert (A : forallb (fun p => sized 130 1 (snd p)) (en_templates demo_engine) = true) by (vm_compute; reflexivity).
    rewrite forallb_forall in A. exact (A _ E).
Qed.
(** The demo page, for data with at most 1000 items in every list and every map, if includes may be
    nested 3 deep; the limit of a new engine is 64. *)
Definition page3 : renderer_inner := with_max_include_depth 3 (demo "page").
Lemma page3_provided t : provided page3 t -> provided (demo "page") t.
Proof. exact (fun H => H). Qed.
Example page_steps g steps : small_globals 1000 g -> initial_stack g <> OutOfFuel -> (130 * 1001 + 2) ^ 3 <= steps ->
  renders page3 g (string_in page3 steps g).
Proof.
  intros Hg Hi Hf. refine (proj1 (C66_steps page3 (fun _ => default_syntax) demo_ast 130 1000 1 g steps _ _ _ _ Hg Hi _)).
  - apply statements_of_demo. intros t Hp. apply page_well_made, page3_provided, Hp.
  - intros t Hp. apply page_sized, page3_provided, Hp.
  - exact (demo_modest 1000).
  - apply Nat.leb_le. vm_compute. reflexivity.
  - rewrite Nat.pow_1_r. exact Hf.
Qed.
(** A loop over 50 items takes more steps than 37, one for each byte of the template (Props35.v),
    but no more than 35 * 51 + 1. *)
Definition loop_renderer : renderer_inner := template_renderer loop_template demo_engine.
Lemma loop_well_made : well_made loop_renderer (fun _ => default_syntax).
Proof.
  apply (engine_well_made default_syntax demo_engine loop_template None); [exact default_user_syntax|intros n t _; apply default_trims_ok|exact demo_for|].
  split; [exact default_user_syntax|]. split; [apply default_trims_ok|]. split; [apply asciib_valid; vm_compute; reflexivity|].
  exists demo_engine. split; [exact demo_for|]. vm_compute. reflexivity.
Qed.
Lemma long_small : small_globals 50 (GBorrowed long_list).
Proof.
  cbn [small_globals]. apply sm_map; [cbn [length]; lia|]. constructor; [|constructor]. apply sm_list.
  - apply Nat.leb_le. vm_compute. reflexivity.
  - apply Forall_forall. intros x Hx. apply repeat_spec in Hx as ->. constructor.
Qed.
Example loop_steps : renders loop_renderer (GBorrowed long_list) (string_in loop_renderer 1786 (GBorrowed long_list)) /\
  string_in loop_renderer 1786 (GBorrowed long_list) = Ok (concat (repeat (s2b "1") 50)) /\
  string_in loop_renderer 37 (GBorrowed long_list) = OutOfFuel.
Proof.
  split; [|split; vm_compute; reflexivity].
  refine (proj1 (C66_alone loop_renderer (fun _ => default_syntax) demo_ast 50 1 (GBorrowed long_list) 1786 _ _ _ _ _ _ _ _)).
  - apply statements_of_demo, loop_well_made.
  - vm_compute. repeat (split; try exact I).
  - apply Nat.leb_le. vm_compute. reflexivity.
  - exact (demo_modest 50).
  - lia.
  - exact long_small.
  - discriminate.
  - apply Nat.leb_le. vm_compute. reflexivity.
Qed.
(** Without the assumption about filters there is no bound: this filter makes a list of 200 items
    of anything. *)
Definition many : filter := mkfilter TyValue [] (fun _ _ => inl (VList (repeat (VInt 1) 200))).
Definition many_engine : engine := fst (add_filter (s2b "many") many demo_engine).
Definition many_template : template :=
  match engine_compile (s2b "{% for x in l | many %}{{ x }}{% endfor %}") many_engine with Ok t => t | _ => mktemplate [] [] end.
Definition few : value := VMap [(s2b "l", VList [VInt 1; VInt 2; VInt 3])].
Example many_steps : small 3 few /\ length (t_source many_template) = 42 /\
  string_in (template_renderer many_template many_engine) (42 * (3 + 1) + 1) (GBorrowed few) = OutOfFuel /\
  string_in (template_renderer many_template many_engine) 1000 (GBorrowed few) = Ok (concat (repeat (s2b "1") 200)).
Proof.
  split; [|split; [|split]]; try (vm_compute; reflexivity).
  apply sm_map; [cbn [length]; lia|]. constructor; [|constructor]. apply sm_list; [cbn [length]; lia|]. repeat (constructor; [constructor|]). constructor.
Qed.
