(** Properties C23, C24: filter calls and pipelines. *)
From Verif Require Import Base Utf8 Ext Errors Syntax AhoCorasick SearchSpec SyntaxSpec Value Ast Lexer LexSpec Wp
  GrammarSpec Parser AstOk Compiler CompileProof ParseMain Fmt Stack Filters Render Engine EngineSpec CompileFacts
  RenderSpec RenderProof RenderErr MapFacts RenderMain RenderObs StackRel Parts IncludeFacts LookupSpec LookupProof
  BlockSpec BlockProof FilterSpec FilterProof FilterProof2 Props2 Demo Props3.

(** ** C23 *)
Section C23.
Context `{X : Ext}.

(** C23.  A filter call follows the rules [calls]: they give exactly one answer.
    Either the filter is run with values of its declared types, as many as
    declared, or an error is returned that blames the name of the filter or the
    first bad argument.  ([fits]: an integer is passed as an integer type only if
    it is in its range, and then unchanged.) *)
Theorem C23_filter_calls f source name st c l :
  source <> [] -> span_ok source (id_span name) -> Forall (base_ok source) l -> vars_here source st ->
  exists r, calls source f name st c l r /\ (forall r', calls source f name st c l r' -> r' = r) /\
    match r with
    | inl (a, avs) => call_filter f source name st c l = match fl_run f a avs with inl v => Ok v | inr m => Err (mkerror KFilter None (Some m) None) end
    | inr (m, sp) => exists p, build_pretty source sp = Ok p /\ call_filter f source name st c l = Err (mkerror KRender None (Some m) (Some p))
    end.
Proof.
  intros Hne Hn Hok Hv. destruct (calls_total source f name st c l Hok Hv) as (r & Hr). exists r. split; [exact Hr|]. split.
  - intros r' Hr'. exact (calls_fun source f name st c l _ _ Hok Hr' Hr).
  - pose proof (calls_sound source Hne f name st c l r Hok Hr) as E.
    pose proof (call_filter_spec true source Hne f name st c l (fun _ => Hv) Hn Hok) as F.
    destruct r as [[a avs]|[m sp]]; [exact E|]. rewrite E in F. unfold err_render in E, F.
    pose proof (build_pretty_no_err source sp) as N.
    destruct (build_pretty source sp) as [p|e| |]; cbn in F; try contradiction; try discriminate F; [|now destruct (N e)].
    exists p. split; [reflexivity|exact E].
Qed.
(** C23.  The declared types: what a filter is run with. *)
Theorem C23_declared_types f source name st c l a avs : calls source f name st c l (inl (a, avs)) ->
  length avs = length (fl_args f) /\ length l = length (fl_args f) /\ well_typed f a avs /\
  (forall it, fl_recv f = TyInt it -> exists z, cow_val c = VInt z /\ int_range it z /\ a = AvInt z) /\
  (forall i it b, nth_error (fl_args f) i = Some (TyInt it) -> nth_error l i = Some b ->
     exists k z, stands_for source st b (AnValue k) /\ cow_val k = VInt z /\ int_range it z /\ nth_error avs i = Some (AvInt z)).
Proof.
  intros H. inversion H as [a0 avs0 El Hf Hg| | |]; subst.
  assert (G : length avs = length (fl_args f) /\ Forall2 typed (fl_args f) avs /\
    (forall i it b, nth_error (fl_args f) i = Some (TyInt it) -> nth_error l i = Some b ->
     exists k z, stands_for source st b (AnValue k) /\ cow_val k = VInt z /\ int_range it z /\ nth_error avs i = Some (AvInt z))).
  { clear - Hg. remember (inl avs) as r eqn:Er. revert avs Er. induction Hg as [|t tys b l c a avs Hs Hp Hg IH| | |]; intros avs' Er; try discriminate Er.
    - injection Er as <-. split; [reflexivity|]. split; [constructor|]. intros [|i]; discriminate.
    - injection Er as <-. destruct (IH avs eq_refl) as (I1 & I2 & I3). split; [cbn; now rewrite I1|]. destruct Hp as (Hp & Hr). split; [constructor; [now exists (cow_val c)|exact I2]|].
      intros [|i] it b'; cbn [nth_error].
      + intros E1 E2. injection E1 as ->. injection E2 as <-. inversion Hp as [| |? z Hz| | | | | | | | | |]; subst. exists c, z. auto.
      + intros E1 E2. exact (I3 i it b' E1 E2). }
  destruct G as (G1 & G2 & G3). split; [exact G1|]. split; [exact El|]. split; [split; [now exists (cow_val c)|exact G2]|]. split; [|exact G3].
  intros it E. rewrite E in Hf. inversion Hf as [| |? z Hz| | | | | | | | | |]; subst. exists z. auto.
Qed.
(** C23.  So a filter is never run on anything but arguments of its declared
    types: replacing filters by others that agree on such arguments changes
    nothing, in any template, context or writer. *)
Theorem C23_only_declared_types inner l g :
  same_fns (en_functions (ri_engine inner)) l ->
  let inner' := with_engine inner (with_functions (ri_engine inner) l) in
  (forall r, renders inner' g r <-> renders inner g r) /\
  (forall k w r, writes inner' g k w r <-> writes inner g k w r).
Proof.
  intros Hs inner'.
  assert (E1 : forall fuel, to_string fuel inner' g = to_string fuel inner g).
  { intros fuel. unfold to_string. destruct (initial_stack g); cbn [bind]; auto. now rewrite (same_render inner l Hs). }
  assert (E2 : forall fuel k w, to_writer fuel inner' g k w = to_writer fuel inner g k w).
  { intros fuel k w. unfold to_writer. destruct (initial_stack g); auto. now rewrite (same_render inner l Hs). }
  split.
  - intros r. unfold renders. split; intros (H & n & Hn); (split; [exact H|exists n; intros m Hm]); [rewrite <- E1|rewrite E1]; auto.
  - intros k w r. unfold writes. split; intros (H & n & Hn); (split; [exact H|exists n; intros m Hm]); [rewrite <- E2|rewrite E2]; auto.
Qed.
End C23.
Print Assumptions C23_filter_calls.
Print Assumptions C23_declared_types.
Print Assumptions C23_only_declared_types.

(** ** C24 *)
Section C24.
Context `{X : Ext}.
Variable inner : renderer_inner.
Variable origin : template -> syntax.
Hypothesis Hlib : library inner origin.
Notation functions := (en_functions (ri_engine inner)).
Notation default := (en_default_formatter (ri_engine inner)).

Lemma forget_unit (x : rt unit) h : forget (let% _ := x in RRet (Ok (h : list str))) = x.
Proof. unfold forget. induction x as [[[]| | |]|s o IHo e IHe]; cbn [rbind]; auto. f_equal; [exact IHo|exact IHe]. Qed.
Lemma fine_fails {A} source k m sp : source <> [] -> rp true source (fails source k m sp : res A) (fun _ => True) -> exists p, build_pretty source sp = Ok p /\ (fails source k m sp : res A) = Err (mkerror k None (Some m) (Some p)).
Proof.
  intros Hne F. unfold fails, located_error in *. pose proof (build_pretty_no_err source sp) as N.
  destruct (build_pretty source sp) as [p|e| |]; cbn in F; try contradiction; try discriminate F; [|now destruct (N e)]. exists p. split; reflexivity.
Qed.
(** C24.  The value of an expression, wherever it stands: the rules [evaluates]
    (filters from left to right) give exactly one answer, and it is what the code
    computes. *)
Theorem C24_expression source st e : source <> [] -> expr_ok source e -> vars_here source st ->
  exists r, evaluates source functions st e r /\ (forall r', evaluates source functions st e r' -> r' = r) /\
    match r with
    | EvValue c => s_expr inner source st e = Ok c
    | EvError k m sp => exists p, build_pretty source sp = Ok p /\ s_expr inner source st e = Err (mkerror k None (Some m) (Some p))
    end.
Proof.
  intros Hne Hok Hv. destruct (evaluates_total source inner st e Hok Hv) as (r & Hr). exists r. split; [exact Hr|]. split.
  - intros r' Hr'. exact (evaluates_fun source functions st e _ Hr' Hok _ Hr).
  - pose proof (evaluates_sound source Hne inner st e r Hok Hr) as E. destruct r as [c|k m sp]; [exact E|].
    pose proof (fine_expr true source Hne inner st (fun _ => Hv) e Hok) as F. rewrite E in F. cbn [evaluated_result] in E, F.
    destruct (fine_fails source k m sp Hne F) as (p & Ep & Ef). exists p. split; [exact Ep|]. now rewrite E.
Qed.
(** C24.  [{{ e }}]: the rules [emits] give exactly one answer, and that is what
    happens: a formatter runs on the value (the default one, unless the last
    function is a formatter without arguments), or rendering fails. *)
Theorem C24_emitted_expression source st e sp :
  source <> [] -> expr_ok source e -> span_ok source sp -> vars_here source st ->
  exists r, emits source functions default st e r /\ (forall r', emits source functions default st e r' -> r' = r) /\
    match r with
    | EmFormat f v fsp => acts inner source [SInline e sp] st
        (name_err (ri_template_name inner) (run_fmt (f v) (fun m => err_format m source fsp)))
    | EmError k m esp => exists p, build_pretty source esp = Ok p /\
        acts inner source [SInline e sp] st (RRet (Err (titled inner (mkerror k None (Some m) (Some p)))))
    end.
Proof.
  intros Hne Hok Hsp Hv. destruct (emits_total source inner st e Hok Hv) as (r & Hr). exists r. split; [exact Hr|]. split.
  - intros r' Hr'. exact (emits_fun source functions default st e _ _ Hok Hr' Hr).
  - pose proof (emits_sound source Hne inner st e r Hok Hr) as E.
    assert (Hs : Forall (stmt_ok source) [SInline e sp]) by (constructor; [constructor; auto|constructor]).
    assert (A : acts inner source [SInline e sp] st (name_err (ri_template_name inner) (emitted_result source r))).
    { apply (acts_iff inner origin Hlib); auto. rewrite part_one. cbn [s_stmt]. rewrite E. symmetry. apply forget_unit. }
    destruct r as [f v fsp|k m esp]; [exact A|].
    pose proof (fine_inline true source Hne inner st e (fun _ => Hv) Hok) as F. rewrite E in F. cbn [emitted_result lift] in F, A.
    destruct (fine_fails source k m esp Hne F) as (p & Ep & Ef). exists p. split; [exact Ep|]. rewrite Ef in A. exact A.
Qed.
(** C24.  Everywhere else (conditions, iterated values, [with], includes) the
    expression is only evaluated: a formatter there, like any other error, is the
    result of the rendering. *)
Definition uses (e : expr) (s : stmt) : Prop :=
  (exists neg thn els, s = SIf neg e thn els) \/ (exists vars body, s = SFor vars e body) \/
  (exists name body, s = SWith e name body) \/ (exists name, s = SInclude name (Some e)).
Theorem C24_elsewhere source st e s k m esp :
  source <> [] -> stmt_ok source s -> uses e s -> vars_here source st ->
  evaluates source functions st e (EvError k m esp) ->
  exists p, build_pretty source esp = Ok p /\ acts inner source [s] st (RRet (Err (titled inner (mkerror k None (Some m) (Some p))))).
Proof.
  intros Hne Hok Hu Hv Hr.
  assert (He : expr_ok source e).
  { destruct Hu as [(a & b & c & ->)|[(a & b & ->)|[(a & b & ->)|(a & ->)]]]; inversion Hok; subst; auto. }
  pose proof (evaluates_sound source Hne inner st e _ He Hr) as E.
  pose proof (fine_expr true source Hne inner st (fun _ => Hv) e He) as F. rewrite E in F. cbn [evaluated_result] in E, F.
  destruct (fine_fails source k m esp Hne F) as (p & Ep & Ef). exists p. split; [exact Ep|]. rewrite Ef in E.
  apply (acts_iff inner origin Hlib); [constructor; [exact Hok|constructor]|]. rewrite part_one.
  destruct Hu as [(a & b & c & ->)|[(a & b & ->)|[(a & b & ->)|(a & ->)]]]; cbn [s_stmt]; rewrite E; reflexivity.
Qed.
End C24.
Print Assumptions C24_expression.
Print Assumptions C24_emitted_expression.
Print Assumptions C24_elsewhere.

(** ** Concrete cases *)
Section Cases.
Local Existing Instance ascii_ext.
Definition add_i8 : filter := mkfilter (TyInt I64) [TyInt I8] (fun a l => match a, l with AvInt x, [AvInt y] => inl (VInt (x + y)) | _, _ => inr [] end).
(** Different from [add_i8] on numbers out of range. *)
Definition add_i8' : filter := mkfilter (TyInt I64) [TyInt I8]
  (fun a l => match a, l with AvInt x, [AvInt y] => if (y <? 128)%Z then inl (VInt (x + y)) else inl (VStr (s2b "oops")) | _, _ => inl VNone end).
Definition shout : formatter := fun v => match v with VStr s => FWrite (map upper1 s ++ s2b "!") FDone (FFail None) | _ => FFail (Some (s2b "not a string")) end.
Definition math : engine := fst (add_formatter (s2b "shout") shout (fst (add_filter (s2b "add") add_i8 demo_engine))).
Definition math_renderer (s : string) : renderer_inner := template_renderer (program (s2b s) (parsed s)) math.
Definition math_value : globals := GBorrowed (VMap [(s2b "n", VInt 1); (s2b "s", VStr (s2b "hi")); (s2b "w", VInt 300)]).
Lemma math_library s : library (math_renderer s) (fun _ => default_syntax).
Proof.
  unfold library, named. intros t [(f & h & n & E & _)|(_ & n & E)]; [discriminate E|].
  exact (engine_templates _ _ default_user_syntax demo_for n _ (MapFacts.map_get_In _ _ _ E) (default_trims_ok _)).
Qed.
(** Filters from left to right, a formatter at the end, and what goes wrong. *)
Definition reason_of (r : res str) : option str := match r with Err e => e_reason e | _ => None end.
Example pipelines :
  to_string 50 (math_renderer "{{ n | add: 2 | add: n }} {{ s | upper }} {{ s | shout }} {{ s | upper | shout }}") math_value = Ok (s2b "4 HI HI! HI!") /\
  reason_of (to_string 50 (math_renderer "{{ n | add: w }}") math_value) = Some (s2b "filter expected i8 argument, but `300` is out of range") /\
  reason_of (to_string 50 (math_renderer "{{ n | add: 1, 2 }}") math_value) = Some (s2b "filter expected 1 arguments") /\
  reason_of (to_string 50 (math_renderer "{{ s | add: 1 }}") math_value) = Some (s2b "filter expected i64 value, found string") /\
  reason_of (to_string 50 (math_renderer "{{ s | shout | upper }}") math_value) = Some (s2b "expected filter, found formatter") /\
  reason_of (to_string 50 (math_renderer "{{ s | shout: 1 }}") math_value) = Some (s2b "expected filter, found formatter") /\
  reason_of (to_string 50 (math_renderer "{% if s | shout %}{% endif %}") math_value) = Some (s2b "expected filter, found formatter") /\
  reason_of (to_string 50 (math_renderer "{{ s | what }}") math_value) = Some (s2b "unknown filter or formatter").
Proof. vm_compute. repeat split. Qed.

Definition wide : string := "{{ n | add: w }}".
Definition wide_n : var := var_at 3 4.
Definition wide_w : var := var_at 12 13.
Definition wide_add : ident := mkident (mkspan 7 10).
Definition wide_stack : stack := [FrScope (Borrowed (VMap [(s2b "n", VInt 1); (s2b "s", VStr (s2b "hi")); (s2b "w", VInt 300)]))].
Definition wide_expr : expr := ECall wide_add (Some (mkargs [BVar wide_w] (mkspan 10 13))) (EBase (BVar wide_n)) (mkspan 3 13).
Example wide_parsed : parsed wide = [SInline wide_expr (mkspan 0 16)].
Proof. vm_compute. reflexivity. Qed.
Lemma wide_both : expr_ok (s2b wide) wide_expr /\ span_ok (s2b wide) (mkspan 0 16).
Proof.
  pose proof (parsed_ok wide ltac:(vm_compute; reflexivity)) as H. rewrite wide_parsed in H.
  inversion H as [|? ? H1 _]; subst. inversion H1; subst. split; assumption.
Qed.
Definition wide_ok := proj1 wide_both.
(** [w] is 300, which is not an [i8]: the error blames it. *)
Example C23_case : s2b wide <> [] /\ span_ok (s2b wide) (id_span wide_add) /\ Forall (base_ok (s2b wide)) [BVar wide_w] /\ vars_here (s2b wide) wide_stack /\
  calls (s2b wide) add_i8 wide_add wide_stack (Owned (VInt 1)) [BVar wide_w]
    (inr (s2b "filter expected i8 argument, but `300` is out of range", mkspan 12 13)).
Proof.
  pose proof wide_ok as (H1 & H2 & _). split; [discriminate|]. split; [exact H1|]. split; [apply H2|]. split; [apply Forall_cons; [exact I|apply Forall_nil]|].
  apply ca_argument with (AvInt 1); [reflexivity| |].
  - apply fit_int. cbn. lia.
  - apply gi_refused with (Borrowed (VInt 300)).
    + apply sf_var with (s2b "w"); [exists (mkident (mkspan 12 13)); split; reflexivity|].
      apply lk_scope with (VInt 300) (WFound (VInt 300)); [reflexivity|apply w_end|exact (an_found false _)].
    + apply re_unfit. refine (un_range (s2b "argument") (TyInt I8) (VInt 300) I8 300%Z eq_refl eq_refl _). unfold int_range. cbn. lia.
Qed.
Example C24_case : exists p, build_pretty (s2b wide) (mkspan 12 13) = Ok p /\
  acts (math_renderer wide) (s2b wide) [SInline wide_expr (mkspan 0 16)] wide_stack
    (RRet (Err (mkerror KRender None (Some (s2b "filter expected i8 argument, but `300` is out of range")) (Some p)))).
Proof.
  destruct C23_case as (Q1 & Q2 & Q3 & Q4 & Q5).
  destruct (C24_emitted_expression (math_renderer wide) (fun _ => default_syntax) (math_library wide) (s2b wide) wide_stack wide_expr (mkspan 0 16) Q1 wide_ok
    (proj2 wide_both) Q4) as (r & Hr & Hu & H).
  assert (E : r = EmError KRender (s2b "filter expected i8 argument, but `300` is out of range") (mkspan 12 13)).
  { symmetry. apply Hu. apply em_error; [reflexivity|].
    apply ev_not_callable with (Borrowed (VInt 1)) add_i8.
    - apply ev_var. apply sf_var with (s2b "n"); [exists (mkident (mkspan 3 4)); split; reflexivity|].
      apply lk_scope with (VInt 1) (WFound (VInt 1)); [reflexivity|apply w_end|exact (an_found false _)].
    - exists (s2b "add"). split; vm_compute; reflexivity.
    - inversion Q5 as [| | |a e A1 A2 A3]; subst. apply ca_argument with a; [exact A1|exact A2|exact A3]. }
  rewrite E in H. exact H.
Qed.
(** [add_i8] and [add_i8'] agree on numbers in range, so nobody can tell. *)
Example C23_case_same g r :
  renders (with_engine (math_renderer wide) (fst (add_filter (s2b "add") add_i8' math))) g r <-> renders (math_renderer wide) g r.
Proof.
  assert (Hs : same_filter add_i8 add_i8').
  { split; [reflexivity|]. split; [reflexivity|]. intros a avs ((v & Hv) & H2). cbn in H2. inversion H2 as [|? b ? rest (v' & Hb) Hr]; subst. inversion Hr; subst.
    inversion Hv; subst. inversion Hb as [| |? y Hy| | | | | | | | | |]; subst. cbn. cbn in Hy. assert (y <? 128 = true)%Z as -> by (apply Z.ltb_lt; lia). reflexivity. }
  pose (l := en_functions (fst (add_filter (s2b "add") add_i8' math))).
  refine (proj1 (C23_only_declared_types (math_renderer wide) l g _) r).
  assert (El : l = [(s2b "add", EFilter add_i8'); (s2b "shout", EFormatter shout); (s2b "upper", EFilter upper)]) by (vm_compute; reflexivity).
  assert (Em : en_functions (ri_engine (math_renderer wide)) = [(s2b "add", EFilter add_i8); (s2b "shout", EFormatter shout); (s2b "upper", EFilter upper)]) by (vm_compute; reflexivity).
  unfold same_fns. rewrite El, Em. apply Forall2_cons; [split; [reflexivity|apply sm_filter; exact Hs]|].
  apply Forall2_cons; [split; [reflexivity|apply sm_formatter]|]. apply Forall2_cons; [split; [reflexivity|apply sm_filter]|apply Forall2_nil].
  split; [reflexivity|]. split; reflexivity.
Qed.
End Cases.
