(** Rendering follows the meaning of templates (Meaning.v). *)
From Verif Require Import Base Utf8 Ext Errors Syntax Value Ast Wp AstOk Compiler CompileProof Fmt Stack Filters Render RenderSpec
  RenderProof RenderErr LookupSpec LookupProof FilterSpec FilterProof Meaning.

(** [env_rel source st en]: the visible variables of the stack [st] in a template
    with the given source. *)
Inductive env_rel (source : str) : stack -> env -> Prop :=
| er_nil : env_rel source [] []
| er_boundary st : env_rel source (FrBoundary :: st) []
| er_fn f st : env_rel source (FrValueFn f :: st) [BFunction f]
| er_scope c st en : env_rel source st en -> env_rel source (FrScope c :: st) (BScope c :: en)
| er_var id c st en : span_ok source (id_span id) -> env_rel source st en ->
    env_rel source (FrVar id c :: st) (BName (word source (id_span id)) c :: en)
| er_item o n k x next l st en : env_rel source st en ->
    env_rel source (FrLoop (LList o n next l (Some (k, x))) :: st) (BItem n o x k (length l) :: en)
| er_entry o kn vn k key x next l st en : env_rel source st en ->
    env_rel source (FrLoop (LMap o kn vn next l (Some (k, (key, x)))) :: st) (BEntry kn vn o key x k (length l) :: en).

Section MeaningProof.
Context `{X : Ext}.

Lemma env_vars source st en : env_rel source st en -> vars_here source st.
Proof. unfold vars_here. induction 1; cbn [visible]; repeat (constructor; auto). Qed.
(** Without [with] variables the source does not matter. *)
Lemma env_move source source' st en : env_rel source st en -> no_vars st -> env_rel source' st en.
Proof.
  unfold no_vars. induction 1; cbn [visible]; intros H'; try (inversion H' as [|? ? K1 K2]; subst; try contradiction); constructor; auto.
Qed.

Lemma word_of source sp k : @index_span error source sp = Ok k -> word source sp = k.
Proof. unfold index_span, slice, word. destruct (_ && _); [|discriminate]. now injection 1. Qed.
Lemma word_ok source sp : span_ok source sp -> @index_span error source sp = Ok (word source sp).
Proof. intros H. rewrite index_span_ok by exact H. reflexivity. Qed.

Section Source.
Variable source : str.
Hypothesis Hne : source <> [].
Notation sok := (span_ok source).
Notation bstep := (bare_step source).

Lemma step_name m k : names source m k -> bstep m = mkpstep (match mb_op m with Optional => true | Direct => false end) (KName k).
Proof. intros (id & E & Ei). unfold bare_step. rewrite E. now rewrite (word_of _ _ _ Ei). Qed.
Lemma step_index m i : indexes m i -> bstep m = mkpstep (match mb_op m with Optional => true | Direct => false end) (KIndex i).
Proof. intros (sp & E). unfold bare_step. now rewrite E. Qed.

(** ** Variables *)
Definition followed_of (w : walked) : followed := match w with WFound v => Found v | WAbsent => Absent | WStuck r _ => Stuck r end.
Lemma walks_follow v ms w : walks source v ms w -> follow v (map bstep ms) = followed_of w.
Proof.
  induction 1; cbn [map follow]; [reflexivity| | | | | | | |];
    try match goal with H : indexes ?m ?i |- _ => rewrite (step_index m i H) end;
    try match goal with H : names source ?m ?k |- _ => rewrite (step_name m k H) end;
    cbn [ps_key ps_optional].
  - now rewrite H0.
  - now rewrite H0.
  - now rewrite H0, H1.
  - now rewrite H0, H1.
  - now rewrite H0, H1.
  - now rewrite H0, H1.
  - destruct v; try reflexivity. now destruct (H0 l).
  - destruct v; try reflexivity. now destruct (H0 m0).
Qed.
Definition got_answer (a : answer) : got := match a with AnValue c => inl c | AnError r _ => inr r end.
Lemma answers_got o w a : answers o w a -> got_of o (followed_of w) = got_answer a.
Proof. now destruct 1. Qed.
Lemma loop_map_get i rem k : match loop_map i rem with VMap m => map_get k m | _ => None end = loop_field i rem k.
Proof.
  unfold loop_map, loop_field. cbn [map_get].
  assert (C : forall w, str_eqb w k = str_eqb k w).
  { intros w. destruct (str_eqb k w) eqn:E. { apply str_eqb_eq in E. subst. apply str_eqb_refl. }
    apply str_eqb_ne. intros ->. rewrite str_eqb_refl in E. discriminate. }
  destruct (str_eqb k (s2b "index")) eqn:E1; [apply str_eqb_eq in E1; subst; reflexivity|].
  destruct (str_eqb k (s2b "first")) eqn:E2; [apply str_eqb_eq in E2; subst; reflexivity|].
  destruct (str_eqb k (s2b "last")) eqn:E3; [apply str_eqb_eq in E3; subst; reflexivity|].
  rewrite ?C, ?E1, ?E2, ?E3. reflexivity.
Qed.
Lemma loop_got i rem ms a : loop_answers source i rem ms a -> loop_path i rem (map bstep ms) = got_answer a.
Proof.
  destruct 1; cbn [map loop_path]; [reflexivity|..];
    try match goal with H : indexes ?m ?i |- _ => rewrite (step_index m i H) end;
    try match goal with H : names source ?m ?k |- _ => rewrite (step_name m k H) end;
    cbn [ps_key ps_optional]; rewrite ?loop_map_get; try rewrite H0; try rewrite H1; reflexivity.
Qed.
Lemma reads_path ms path : Forall2 (reads source) ms path -> path = map vstep (map bstep ms).
Proof.
  induction 1 as [|m vm ms path Hr _ IH]; [reflexivity|]. cbn [map]. f_equal; [|exact IH].
  destruct Hr as [(k & Hn & ->)|(i & Hi & ->)]; [rewrite (step_name _ _ Hn)|rewrite (step_index _ _ Hi)]; unfold vstep; cbn [ps_key ps_optional]; now destruct (mb_op m).
Qed.

Lemma looks_find first name rest st a : mb_op first = Direct -> names source first name -> looks source first name rest st a ->
  forall en, env_rel source st en -> m_find en name (map bstep rest) = got_answer a.
Proof.
  intros Hop Hn H. induction H; intros en He; inversion He; subst; cbn [m_find ask]; auto.
  - rewrite (word_of _ _ _ H), str_eqb_refl. rewrite (walks_follow _ _ _ H0). now apply answers_got.
  - rewrite (word_of _ _ _ H), str_eqb_ne by congruence. auto.
  - unfold entry in H. destruct (cow_val c); try discriminate. rewrite H, (walks_follow _ _ _ H0). now apply answers_got.
  - unfold entry in H. destruct (cow_val c); auto. rewrite H. auto.
  - cbn [loop_position] in H0. injection H0 as <- <-. rewrite str_eqb_refl. now apply loop_got.
  - cbn [loop_position] in H0. injection H0 as <- <-. rewrite str_eqb_refl. now apply loop_got.
  - cbn [loop_item] in H0. destruct (str_eqb name n) eqn:E; [|discriminate]. injection H0 as -> ->.
    rewrite (str_eqb_ne name) by assumption. unfold item_path. rewrite (walks_follow _ _ _ H1). rewrite <- (answers_got _ _ _ H3). now destruct w.
  - cbn [loop_item] in H0. destruct (str_eqb name kn) eqn:Ek; [discriminate|]. destruct (str_eqb name vn) eqn:E; [|discriminate]. injection H0 as -> ->.
    rewrite (str_eqb_ne name (s2b "loop")) by assumption. unfold item_path. rewrite (walks_follow _ _ _ H1). rewrite <- (answers_got _ _ _ H3). now destruct w.
  - cbn [loop_item] in H0. destruct (str_eqb name n) eqn:E; [|discriminate]. injection H0 as -> ->.
    rewrite (str_eqb_ne name) by assumption. unfold item_path. rewrite (walks_follow _ _ _ H1). cbn [followed_of]. auto.
  - cbn [loop_item] in H0. destruct (str_eqb name kn) eqn:Ek; [discriminate|]. destruct (str_eqb name vn) eqn:E; [|discriminate]. injection H0 as -> ->.
    rewrite (str_eqb_ne name (s2b "loop")) by assumption. unfold item_path. rewrite (walks_follow _ _ _ H1). cbn [followed_of]. auto.
  - discriminate H0.
  - cbn [loop_key] in H0. destruct (str_eqb name kn) eqn:Ek; [|discriminate]. injection H0 as ->.
    rewrite (str_eqb_ne name (s2b "loop")) by assumption. reflexivity.
  - discriminate H0.
  - cbn [loop_key] in H0. destruct (str_eqb name kn) eqn:Ek; [|discriminate]. injection H0 as ->.
    rewrite (str_eqb_ne name (s2b "loop")) by assumption. reflexivity.
  - destruct (str_eqb name (s2b "loop")); [discriminate H|]. destruct H as (H & _). cbn [loop_item] in H. destruct (str_eqb name n); [discriminate|]. auto.
  - destruct (str_eqb name (s2b "loop")); [discriminate H|]. destruct H as (H & H'). cbn [loop_item loop_key] in H, H'.
    destruct (str_eqb name kn); [discriminate|]. destruct (str_eqb name vn); [discriminate|]. auto.
  - rewrite (reads_path _ _ H) in H0. cbn [map] in H0. rewrite (step_name _ _ Hn), Hop in H0. unfold vstep at 1 in H0. cbn [ps_key ps_optional] in H0. now rewrite H0.
  - rewrite (reads_path _ _ H) in H0. cbn [map] in H0. rewrite (step_name _ _ Hn), Hop in H0. unfold vstep at 1 in H0. cbn [ps_key ps_optional] in H0. now rewrite H0.
Qed.

(** ** Expressions *)

(** The result of the code, and the meaning. *)
Definition agrees {A} (x : res A) (g : A + trouble) : Prop :=
  match g with
  | inl a => x = Ok a
  | inr (k, r) => exists p, x = Err (mkerror k None (Some r) (Some p))
  end.
Lemma agrees_render {A} r sp : sok sp -> @agrees A (err_render r source sp) (inr (KRender, r)).
Proof. intros H. destruct (build_pretty_ok source sp Hne H) as (p & E). exists p. unfold err_render. now rewrite E. Qed.
Definition with_kind {A} (g : A + str) : A + trouble := match g with inl a => inl a | inr r => inr (KRender, r) end.

Lemma rp_pretty {A} np k r sp : rp np source (@fails X source A k r sp) (fun _ => True) -> np = true -> exists p, @fails X source A k r sp = Err (mkerror k None (Some r) (Some p)).
Proof.
  unfold fails, located_error. pose proof (build_pretty_no_err source sp) as K. destruct (build_pretty source sp) as [p|e| |]; cbn; intros H E; eauto.
  - now destruct (K e).
  - congruence.
  - contradiction.
Qed.
Lemma fails_render {A} r sp : @err_render X A r source sp = fails source KRender r sp.
Proof. unfold err_render, fails, located_error. now destruct (build_pretty source sp). Qed.

Variable w : world.
Variable inner : renderer_inner.
Hypothesis Hfun : forall n, w_function w n = map_get n (en_functions (ri_engine inner)).
Hypothesis Hdef : w_default w = en_default_formatter (ri_engine inner).
Variable st : stack.
Variable en : env.
Hypothesis Henv : env_rel source st en.
Notation functions := (en_functions (ri_engine inner)).
Let Hvars : vars_here source st := env_vars _ _ _ Henv.

Lemma stands_atom b a : base_ok source b -> stands_for source st b a ->
  match bare_base source b with PLit v => inl (Borrowed v) | PVar first rest => m_find en first rest end = got_answer a.
Proof.
  intros Hok H. destruct H as [v sp|first name rest a Hn Hl]; [reflexivity|]. cbn [bare_base].
  destruct Hok as (id & sp & ms & E & _). injection E as -> ->.
  assert (E : word source (access_span (mb_access (mkmember Direct (AKey id) sp))) = name).
  { destruct Hn as (id' & E & Ei). cbn in E. injection E as <-. cbn [mb_access access_span]. now apply word_of. }
  rewrite E. refine (looks_find (mkmember Direct (AKey id) sp) _ _ _ _ eq_refl Hn Hl _ Henv).
Qed.
Lemma convert_eq t c : (if is_owned c then from_value t (cow_val c) else from_value_ref t (cow_val c)) = convert t c.
Proof. now destruct c. Qed.
Lemma bad_complaint what e : bad_value what e = complaint what e.
Proof. reflexivity. Qed.
Lemma given_args tys l r : Forall (base_ok source) l -> given source st tys l r ->
  m_args en tys (map (bare_base source) l) = match r with inl avs => inl avs | inr (m, _) => inr m end.
Proof.
  intros Hok H. induction H as [|t tys b l c a avs Hs Hp Hg IH|t tys b l c a [m sp] Hs Hp Hg IH|t tys b l c m Hs Hr|t tys b l m sp Hs]; cbn [map m_args];
    [reflexivity|inversion Hok as [|? ? O1 O2]; subst..]; unfold m_arg; rewrite (stands_atom _ _ O1 Hs); cbn [got_answer]; rewrite ?convert_eq.
  - now rewrite (convert_pass _ _ _ Hp), (IH O2).
  - now rewrite (convert_pass _ _ _ Hp), (IH O2).
  - destruct (convert_refused _ _ _ Hr) as (e & -> & <-). now rewrite bad_complaint.
  - reflexivity.
Qed.
Lemma calls_call f name c l r : Forall (base_ok source) l -> calls source f name st c l r ->
  m_call en f (cow_val c) (map (bare_base source) l) =
  match r with
  | inl (a, avs) => match fl_run f a avs with inl v => inl v | inr m => inr (KFilter, m) end
  | inr (m, _) => inr (KRender, m)
  end.
Proof.
  intros Hok H. unfold m_call. rewrite map_length.
  assert (R : forall a, fits (fl_recv f) (cow_val c) a -> from_value_ref (fl_recv f) (cow_val c) = inl a).
  { intros a Ha. exact (convert_pass (fl_recv f) (Borrowed (cow_val c)) a (conj Ha (fun _ => eq_refl))). }
  destruct H as [a avs El Hf Hg|El|m El Hu|a [m sp] El Hf Hg].
  - rewrite El, Nat.eqb_refl, (R a Hf), (given_args _ _ _ Hok Hg). reflexivity.
  - apply Nat.eqb_neq in El. now rewrite El.
  - rewrite El, Nat.eqb_refl. pose proof (ref_fits (s2b "value") (fl_recv f) (cow_val c)) as K.
    destruct (from_value_ref _ _) as [a|e]; [exfalso; eapply fits_not_unfit; eauto|]. destruct K as (K & _).
    now rewrite (unfit_fun _ _ _ _ _ Hu K), bad_complaint.
  - rewrite El, Nat.eqb_refl, (R a Hf), (given_args _ _ _ Hok Hg). reflexivity.
Qed.
Lemma function_at name o : function_is source functions name o -> w_function w (word source (id_span name)) = o.
Proof. intros (n & E & Em). rewrite (word_of _ _ _ E), Hfun. exact Em. Qed.
Lemma args_bare a : match (match a with Some a => Some (map (bare_base source) (a_values a)) | None => None end) with Some l => l | None => [] end =
  map (bare_base source) (match a with Some a => a_values a | None => [] end).
Proof. now destruct a. Qed.

Definition meant (r : evaluated) : cow + trouble := match r with EvValue c => inl c | EvError k m _ => inr (k, m) end.
Lemma evaluates_meaning e r : expr_ok source e -> evaluates source functions st e r -> m_expr w en (bare_expr source e) = meant r.
Proof.
  intros Hok H. induction H as [v sp|v c Hs|v m sp Hs|name a recv sp c f av avs v He IH Hf Hc Hr|name a recv sp c f av avs m He IH Hf Hc Hr|
    name a recv sp c f m esp He IH Hf Hc|name a recv sp c f He IH Hf|name a recv sp c He IH Hf|name a recv sp k m esp He IH]; cbn [bare_expr m_expr meant].
  - reflexivity.
  - pose proof (stands_atom _ _ Hok Hs) as K. destruct (bare_base source (BVar v)) eqn:E; cbn [got_answer] in K; [now rewrite K|].
    destruct v; discriminate E.
  - pose proof (stands_atom _ _ Hok Hs) as K. destruct (bare_base source (BVar v)) eqn:E; cbn [got_answer] in K; [now rewrite K|].
    destruct v; discriminate E.
  - destruct Hok as (O1 & O2 & O3 & O4). rewrite (IH O3). cbn [meant]. unfold m_apply. rewrite (function_at _ _ Hf), args_bare, (calls_call _ _ _ _ _ (args_base_ok _ _ O2) Hc). now rewrite Hr.
  - destruct Hok as (O1 & O2 & O3 & O4). rewrite (IH O3). cbn [meant]. unfold m_apply. rewrite (function_at _ _ Hf), args_bare, (calls_call _ _ _ _ _ (args_base_ok _ _ O2) Hc). now rewrite Hr.
  - destruct Hok as (O1 & O2 & O3 & O4). rewrite (IH O3). cbn [meant]. unfold m_apply. rewrite (function_at _ _ Hf), args_bare, (calls_call _ _ _ _ _ (args_base_ok _ _ O2) Hc). reflexivity.
  - destruct Hok as (O1 & O2 & O3 & O4). rewrite (IH O3). cbn [meant]. unfold m_apply. now rewrite (function_at _ _ Hf).
  - destruct Hok as (O1 & O2 & O3 & O4). rewrite (IH O3). cbn [meant]. unfold m_apply. now rewrite (function_at _ _ Hf).
  - destruct Hok as (O1 & O2 & O3 & O4). now rewrite (IH O3).
Qed.
Lemma expr_agrees e : expr_ok source e -> agrees (s_expr inner source st e) (m_expr w en (bare_expr source e)).
Proof.
  intros Hok. destruct (evaluates_total source inner st e Hok Hvars) as (r & Hr). rewrite (evaluates_meaning e r Hok Hr).
  pose proof (fine_expr true source Hne inner st (fun _ => Hvars) e Hok) as K.
  rewrite (evaluates_sound source Hne inner st e r Hok Hr) in *. destruct r as [c|k m sp]; [reflexivity|]. cbn [evaluated_result meant agrees] in *.
  now apply rp_pretty with true.
Qed.

Definition shown (r : emitted) : (formatter * value) + trouble := match r with EmFormat f v _ => inl (f, v) | EmError k m _ => inr (k, m) end.
Lemma emits_meaning e r : expr_ok source e -> emits source functions (en_default_formatter (ri_engine inner)) st e r ->
  m_show w en (bare_expr source e) = shown r.
Proof.
  intros Hok H.
  assert (D : bare_call e = false -> m_show w en (bare_expr source e) = match m_expr w en (bare_expr source e) with inl c => inl (w_default w, cow_val c) | inr t => inr t end).
  { destruct e as [b|name [a|] recv sp]; try reflexivity. discriminate. }
  destruct H as [e c Hb He|e k m sp Hb He|name recv sp c f Hr Hf|name recv sp f c Hf He|name recv sp f k m esp c Hf Hr He|name recv sp c Hr Hf|name recv sp k m esp Hr].
  - rewrite (D Hb), (evaluates_meaning _ _ Hok He). cbn [meant shown]. now rewrite Hdef.
  - now rewrite (D Hb), (evaluates_meaning _ _ Hok He).
  - destruct Hok as (O1 & O2 & O3 & O4). cbn [bare_expr m_show]. rewrite (evaluates_meaning _ _ O3 Hr). cbn [meant]. now rewrite (function_at _ _ Hf).
  - pose proof (evaluates_meaning _ _ Hok He) as E. destruct Hok as (O1 & O2 & O3 & O4). cbn [bare_expr m_show m_expr meant] in *. unfold m_apply in E. rewrite (function_at _ _ Hf) in *.
    destruct (m_expr w en (bare_expr source recv)) as [c0|]; [|discriminate E]. destruct (m_call en f (cow_val c0) []) as [v|]; [|discriminate E]. injection E as <-. cbn [shown cow_val]. now rewrite Hdef.
  - pose proof (evaluates_meaning _ _ Hok He) as E. destruct Hok as (O1 & O2 & O3 & O4). cbn [bare_expr m_show m_expr meant] in *. unfold m_apply in E. rewrite (function_at _ _ Hf) in *.
    rewrite (evaluates_meaning _ _ O3 Hr) in *. cbn [meant] in *. destruct (m_call en f (cow_val c) []) as [v|]; [discriminate E|]. injection E as ->. reflexivity.
  - destruct Hok as (O1 & O2 & O3 & O4). cbn [bare_expr m_show]. rewrite (evaluates_meaning _ _ O3 Hr). cbn [meant]. now rewrite (function_at _ _ Hf).
  - destruct Hok as (O1 & O2 & O3 & O4). cbn [bare_expr m_show]. now rewrite (evaluates_meaning _ _ O3 Hr).
Qed.
End Source.

(** ** Statements *)
Lemma unplaced_bind {A B} (x : rt A) (f : A -> rt B) : rmap_err unplaced (rbind x f) = rbind (rmap_err unplaced x) (fun a => rmap_err unplaced (f a)).
Proof. induction x as [[]|s o IHo e IHe]; cbn [rbind rmap_err]; try reflexivity. now rewrite IHo, IHe. Qed.
Lemma rbind_ext {A B} (x : rt A) (f g : A -> rt B) : (forall a, f a = g a) -> rbind x f = rbind x g.
Proof. intros H. induction x as [[]|s o IHo e IHe]; cbn [rbind]; auto. now rewrite IHo, IHe. Qed.
Lemma here_agrees {A} n (x : res A) g : agrees x g -> rmap_err unplaced (here n x) = match g with inl a => RRet (Ok a) | inr t => m_fail n t end.
Proof.
  destruct g as [a|[k r]]; cbn [agrees]; [intros ->; reflexivity|]. intros (p & ->). now destruct n.
Qed.
Lemma unplaced_fmt n source (p : fmt_prog) sp : source <> [] -> span_ok source sp ->
  rmap_err unplaced (name_err n (run_fmt p (fun m => err_format m source sp))) = run_fmt p (fun m => Err (mkerror KFormat n m None)).
Proof.
  intros Hne Hsp. destruct (build_pretty_ok source sp Hne Hsp) as (q & E).
  induction p as [|m|s o IHo e IHe]; cbn [run_fmt]; unfold name_err in *; cbn [rmap_err]; [reflexivity| |now rewrite IHo, IHe].
  unfold err_format. rewrite E. cbn [bind rmap_err]. now destruct n.
Qed.
Lemma emits_span source functions default st e f v sp : expr_ok source e -> emits source functions default st e (EmFormat f v sp) -> span_ok source sp.
Proof.
  intros Hok H. inversion H; subst.
  - destruct (expr_span_sok source e Hok) as (sp & E & Hs). rewrite (expr_place_ok source e Hok) in E. injection E as ->. exact Hs.
  - destruct Hok as (O1 & _). exact O1.
  - destruct Hok as (_ & _ & _ & O). exact O.
Qed.

Definition frame_rel (fr : frame) (b : binding) : Prop := (exists l, fr = FrLoop l) /\ forall source st en, env_rel source st en -> env_rel source (fr :: st) (b :: en).
Lemma list_frames_rel o n l : forall k, Forall2 frame_rel (list_frames o n k l) (item_rounds n o k l).
Proof. induction l as [|x l IH]; intros k; cbn [list_frames item_rounds]; constructor; auto. split; [eauto|]. intros source st en H. now constructor. Qed.
Lemma map_frames_rel o kn vn l : forall k, Forall2 frame_rel (map_frames o kn vn k l) (entry_rounds kn vn o k l).
Proof. induction l as [|[key x] l IH]; intros k; cbn [map_frames entry_rounds]; constructor; auto. split; [eauto|]. intros source st en H. now constructor. Qed.

Variable inner : renderer_inner.
Variable ast_of : template -> scope.
Variable w : world.
Hypothesis Hfun : forall n, w_function w n = map_get n (en_functions (ri_engine inner)).
Hypothesis Hdef : w_default w = en_default_formatter (ri_engine inner).
Hypothesis Hlim : w_limit w = max_include_depth inner.
Hypothesis Hfind : forall asked name, w_find w asked name =
  match ri_template_fn inner with
  | Some f => match f asked name with inl t => inl (bare (t_source t) (ast_of t), name :: asked) | inr r => inr r end
  | None => match map_get name (en_templates (ri_engine inner)) with
            | Some t => inl (bare (t_source t) (ast_of t), asked)
            | None => inr (s2b "unknown template")
            end
  end.

Section Stmts.
Variable source : str.
Hypothesis Hne : source <> [].
Variable n : option str.
Variable inc : option rend.
Variable minc : option meaning.
Definition inc_rel : Prop :=
  match inc, minc with
  | None, None => True
  | Some run, Some mrun => forall t name st en hist, named inner t -> env_rel (t_source t) st en -> no_vars st ->
      rmap_err unplaced (run t (Some name) st hist) = mrun (bare (t_source t) (ast_of t)) (Some name) en hist
  | _, _ => False
  end.
Hypothesis Hinc : inc_rel.

Notation s_stmt := (s_stmt inner inc source n).
Notation s_scope := (s_scope inner inc source n).
Notation m_stmt := (m_stmt w minc n).
Notation m_scope := (m_scope w minc n).

Lemma s_stmt_if' neg c thn els st hist : s_stmt (SIf neg c thn els) st hist =
    (let% v := here n (s_expr inner source st c) in
    if xorb neg (as_bool (cow_val v)) then s_scope thn st hist
    else match els with Some l => s_scope l st hist | None => RRet (Ok hist) end).
Proof. reflexivity. Qed.
Lemma s_stmt_for' vars e body st hist : s_stmt (SFor vars e body) st hist =
    (let% c := here n (s_expr inner source st e) in
    let% sp := here n (expr_span e) in
    let% frs := here n (s_loop source vars c sp) in
    s_each (s_scope body) st frs hist).
Proof. reflexivity. Qed.
Lemma s_stmt_with' e name body st hist : s_stmt (SWith e name body) st hist =
    (let% c := here n (s_expr inner source st e) in
    s_scope body (FrVar name c :: st) hist).
Proof. reflexivity. Qed.
Lemma m_stmt_if neg c thn els en hist : m_stmt (PIf neg c thn els) en hist =
  match m_expr w en c with
  | inr t => m_fail n t
  | inl v => if xorb neg (as_bool (cow_val v)) then m_scope thn en hist
             else match els with Some l => m_scope l en hist | None => RRet (Ok hist) end
  end.
Proof. reflexivity. Qed.
Lemma m_stmt_for item e body en hist : m_stmt (PFor item e body) en hist =
  match m_expr w en e with
  | inr t => m_fail n t
  | inl c =>
    match cow_val c with
    | VList l => m_each (m_scope body) en (item_rounds item (is_owned c) 0 l) hist
    | v => m_fail n (KRender, no_iteration v)
    end
  end.
Proof. reflexivity. Qed.
Lemma m_stmt_entries kn vn e body en hist : m_stmt (PForEntries kn vn e body) en hist =
  match m_expr w en e with
  | inr t => m_fail n t
  | inl c =>
    match cow_val c with
    | VMap m => m_each (m_scope body) en (entry_rounds kn vn (is_owned c) 0 m) hist
    | v => m_fail n (KRender, no_iteration v)
    end
  end.
Proof. reflexivity. Qed.
Lemma m_stmt_with e name body en hist : m_stmt (PWith e name body) en hist =
  match m_expr w en e with inr t => m_fail n t | inl c => m_scope body (BName name c :: en) hist end.
Proof. reflexivity. Qed.

Definition stmt_means (s : stmt) : Prop := stmt_ok source s -> forall inside st en hist, env_rel source st en -> (inside = false -> no_vars st) ->
  sharing_ok inside s -> rmap_err unplaced (s_stmt s st hist) = m_stmt (bare_stmt source s) en hist.
Lemma scope_means l : Forall stmt_means l -> Forall (stmt_ok source) l -> forall inside st en hist, env_rel source st en ->
  (inside = false -> no_vars st) -> sharing_all inside l -> rmap_err unplaced (s_scope l st hist) = m_scope (map (bare_stmt source) l) en hist.
Proof.
  induction 1 as [|s l Hs _ IH]; intros Hok inside st en hist He Hv Hsh; cbn [RenderSpec.s_scope Meaning.m_scope map]; [reflexivity|].
  inversion Hok as [|? ? O1 O2]; subst. destruct Hsh as (S1 & S2). rewrite unplaced_bind, (Hs O1 inside st en hist He Hv S1).
  apply rbind_ext. intros h. eapply IH; eauto.
Qed.

Lemma find_means name hist : span_ok source (as_span name) ->
  match w_find w hist (as_name name) with
  | inl (body, asked) => exists t, s_find inner source name hist = Ok (t, asked) /\ named inner t /\ body = bare (t_source t) (ast_of t)
  | inr r => agrees (s_find inner source name hist) (inr (KRender, r))
  end.
Proof.
  intros Hsp. rewrite Hfind. unfold s_find. destruct (ri_template_fn inner) as [f|] eqn:Ef.
  - destruct (f hist (as_name name)) as [t|r] eqn:E; [|now apply agrees_render]. exists t. split; [reflexivity|]. split; [|reflexivity]. left. eauto 6.
  - destruct (map_get _ _) as [t|] eqn:E; [|now apply agrees_render]. exists t. split; [reflexivity|]. split; [|reflexivity]. right. eauto.
Qed.
Lemma loop_means v e c body : expr_ok source e -> loop_vars_ok source v -> forall sp, @expr_span error e = Ok sp ->
  match bare_stmt source (SFor v e body), cow_val c with
  | PFor item _ _, VList l => exists frs, s_loop source v c sp = Ok frs /\ Forall2 frame_rel frs (item_rounds item (is_owned c) 0 l)
  | PForEntries kn vn _ _, VMap m => exists frs, s_loop source v c sp = Ok frs /\ Forall2 frame_rel frs (entry_rounds kn vn (is_owned c) 0 m)
  | _, x => agrees (s_loop source v c sp) (inr (KRender, no_iteration x))
  end.
Proof.
  intros Hok Hv sp Es. assert (Hsp : span_ok source sp).
  { destruct (expr_span_sok source e Hok) as (sp' & E & Hs). rewrite Es in E. injection E as ->. exact Hs. }
  unfold s_loop. destruct v as [i|k x vsp]; cbn [bare_stmt loop_vars_ok] in *.
  - destruct (cow_val c); cbn [no_iteration]; try (apply agrees_render; auto).
    rewrite (word_ok _ _ Hv). cbn [bind]. eexists. split; [reflexivity|]. apply list_frames_rel.
  - destruct Hv as (V1 & V2 & V3). destruct (cow_val c); cbn [no_iteration]; try (apply agrees_render; auto).
    rewrite (word_ok _ _ V1), (word_ok _ _ V2). cbn [bind]. eexists. split; [reflexivity|]. apply map_frames_rel.
Qed.

Lemma each_means (body : stack -> list str -> rt (list str)) (mbody : env -> list str -> rt (list str)) st en frs bs :
  Forall2 frame_rel frs bs -> env_rel source st en ->
  (forall fr b h, (exists l, fr = FrLoop l) -> env_rel source (fr :: st) (b :: en) -> rmap_err unplaced (body (fr :: st) h) = mbody (b :: en) h) ->
  forall hist, rmap_err unplaced (s_each body st frs hist) = m_each mbody en bs hist.
Proof.
  induction 1 as [|fr b frs bs Hf _ IH]; intros He Hb hist; cbn [s_each m_each]; [reflexivity|].
  rewrite unplaced_bind, (Hb fr b hist); [|apply Hf|now apply Hf]. apply rbind_ext. intros h. apply IH; auto.
Qed.

Lemma stmt_means_all s : stmt_means s.
Proof.
  induction s as [sp|e sp|nm g|neg c thn els Ht He|v e b Hb|e nm b Hb] using stmt_ind'; intros Hok inside st en hist Henv Hv Hsh;
  inversion Hok; subst; cbn [bare_stmt].
  - cbn [RenderSpec.s_stmt Meaning.m_stmt]. rewrite (word_ok _ sp) by assumption. cbn [here name_err lift rmap_err rbind]. now destruct n.
  - cbn [RenderSpec.s_stmt Meaning.m_stmt]. rewrite unplaced_bind.
    destruct (emits_total source inner st e ltac:(assumption) (env_vars _ _ _ Henv)) as (r & Hr).
    rewrite (emits_sound source Hne inner st e r ltac:(assumption) Hr).
    pose proof (fine_inline true source Hne inner st e (fun _ => env_vars _ _ _ Henv) ltac:(assumption)) as K.
    rewrite (emits_sound source Hne inner st e r ltac:(assumption) Hr) in K.
    rewrite (emits_meaning source w inner Hfun Hdef st en Henv e r ltac:(assumption) Hr).
    destruct r as [f x fsp|k m esp]; cbn [emitted_result shown].
    + rewrite (unplaced_fmt n source (f x) fsp Hne (emits_span _ _ _ _ _ _ _ _ ltac:(eassumption) Hr)). apply rbind_ext. reflexivity.
    + cbn [emitted_result lift rall] in K. destruct (rp_pretty source true k m esp K eq_refl) as (p & E). rewrite E. cbn. now destruct n.
  - cbn [RenderSpec.s_stmt Meaning.m_stmt rbind]. rewrite unplaced_bind. pose proof (find_means nm hist ltac:(assumption)) as K.
    destruct (w_find w hist (as_name nm)) as [[body asked]|r].
    + destruct K as (t & -> & Hn & ->). cbn [here name_err lift rmap_err rbind]. unfold inc_rel in Hinc.
      destruct inc as [run|], minc as [mrun|]; try contradiction; [|rewrite Hlim; reflexivity].
      apply Hinc; auto. apply env_move with source; auto.
    + now rewrite (here_agrees n _ _ K).
  - cbn [RenderSpec.s_stmt Meaning.m_stmt]. rewrite unplaced_bind.
    pose proof (expr_agrees source Hne w inner Hfun st en Henv e ltac:(assumption)) as Ke.
    rewrite unplaced_bind, (here_agrees n _ _ Ke). destruct (m_expr w en (bare_expr source e)) as [c|[k r]]; [|reflexivity].
    cbn [rbind rmap_err]. rewrite unplaced_bind. pose proof (find_means nm hist ltac:(assumption)) as K.
    destruct (w_find w hist (as_name nm)) as [[body asked]|r].
    + destruct K as (t & -> & Hn & ->). cbn [here name_err lift rmap_err rbind]. unfold inc_rel in Hinc.
      destruct inc as [run|], minc as [mrun|]; try contradiction; [|rewrite Hlim; reflexivity].
      apply Hinc; auto; [repeat constructor|]. unfold no_vars. cbn [visible]. repeat constructor.
    + now rewrite (here_agrees n _ _ K).
  - rewrite s_stmt_if', m_stmt_if, unplaced_bind.
    pose proof (expr_agrees source Hne w inner Hfun st en Henv c ltac:(assumption)) as Ke. rewrite (here_agrees n _ _ Ke).
    destruct (m_expr w en (bare_expr source c)) as [x|[k r]]; [|reflexivity]. cbn [rbind]. destruct (xorb _ _); [|reflexivity].
    eapply scope_means; eauto. apply Hsh.
  - rewrite s_stmt_if', m_stmt_if, unplaced_bind.
    pose proof (expr_agrees source Hne w inner Hfun st en Henv c ltac:(assumption)) as Ke. rewrite (here_agrees n _ _ Ke).
    destruct (m_expr w en (bare_expr source c)) as [x|[k r]]; [|reflexivity]. cbn [rbind]. destruct (xorb _ _); eapply scope_means; eauto; apply Hsh.
  - rewrite s_stmt_for', unplaced_bind.
    pose proof (expr_agrees source Hne w inner Hfun st en Henv e ltac:(assumption)) as Ke. rewrite (here_agrees n _ _ Ke).
    destruct (expr_span_sok source e ltac:(assumption)) as (sp & Es & _).
    change (match v with
      | LVItem i => PFor (word source (id_span i)) (bare_expr source e) (map (bare_stmt source) b)
      | LVKeyValue k v _ => PForEntries (word source (id_span k)) (word source (id_span v)) (bare_expr source e) (map (bare_stmt source) b)
      end) with (bare_stmt source (SFor v e b)).
    pose proof (fun c => loop_means v e c b ltac:(assumption) ltac:(assumption) sp Es) as KL.
    assert (Body : forall fr bi h, (exists l, fr = FrLoop l) -> env_rel source (fr :: st) (bi :: en) ->
      rmap_err unplaced (s_scope b (fr :: st) h) = m_scope (map (bare_stmt source) b) (bi :: en) h).
    { intros fr bi h (l & ->) Hrel. eapply scope_means with (inside := inside); eauto.
      intros Ei. unfold no_vars. cbn [visible]. constructor; [exact I|]. now apply Hv. }
    destruct (m_expr w en (bare_expr source e)) as [c|tr] eqn:Em.
    + specialize (KL c). cbn [rbind]. rewrite Es. change (here n (Ok sp)) with (@RRet span (Ok sp)). cbn [rbind]. rewrite unplaced_bind. destruct v as [i|kk xx vsp]; cbn [bare_stmt] in *; [rewrite m_stmt_for|rewrite m_stmt_entries]; rewrite Em;
      destruct (cow_val c) eqn:Ec; try (rewrite (here_agrees n _ _ KL); reflexivity).
      * destruct KL as (frs & E & F). rewrite E. cbn [here name_err lift rmap_err rbind].
        apply each_means; auto.
      * destruct KL as (frs & E & F). rewrite E. cbn [here name_err lift rmap_err rbind].
        apply each_means; auto.
    + destruct v as [i|k' x vsp]; cbn [bare_stmt]; [rewrite m_stmt_for|rewrite m_stmt_entries]; rewrite Em; reflexivity.
  - rewrite s_stmt_with', m_stmt_with, unplaced_bind.
    pose proof (expr_agrees source Hne w inner Hfun st en Henv e ltac:(assumption)) as Ke. rewrite (here_agrees n _ _ Ke).
    destruct (m_expr w en (bare_expr source e)) as [x|[k r]]; [|reflexivity]. cbn [rbind].
    apply scope_means with (inside := true); auto; [now constructor|discriminate].
Qed.
End Stmts.

Hypothesis Hast : forall t, provided inner t -> Forall (stmt_ok (t_source t)) (ast_of t) /\ (ast_of t <> [] -> t_source t <> []) /\
  sharing_all false (ast_of t).

Lemma template_means d : forall t n st en hist, provided inner t -> env_rel (t_source t) st en -> no_vars st ->
  rmap_err unplaced (s_template inner ast_of d t n st hist) = m_template w d (bare (t_source t) (ast_of t)) n en hist.
Proof.
  induction d as [|d IH]; intros t n st en hist Hp He Hv; cbn [s_template m_template]; destruct (Hast t Hp) as (H1 & H2 & H3); unfold bare.
  - destruct (ast_of t) as [|s l] eqn:E; [reflexivity|]. rewrite <- E in *. assert (Hne : t_source t <> []) by (apply H2; rewrite E; discriminate).
    apply scope_means with (inside := false); auto. apply Forall_forall. intros x _. now apply stmt_means_all.
  - destruct (ast_of t) as [|s l] eqn:E; [reflexivity|]. rewrite <- E in *. assert (Hne : t_source t <> []) by (apply H2; rewrite E; discriminate).
    apply scope_means with (inside := false); auto. apply Forall_forall. intros x _. apply stmt_means_all; auto.
    intros t' name st' en' hist' Hn. apply IH. now right.
Qed.
Theorem render_means st en : env_rel (t_source (ri_template inner)) st en -> no_vars st ->
  rmap_err unplaced (s_render inner ast_of st) = m_render w (bare (t_source (ri_template inner)) (ast_of (ri_template inner))) (ri_template_name inner) en.
Proof.
  intros He Hv. unfold s_render, m_render. rewrite unplaced_bind, Hlim, (template_means _ _ _ _ en); auto. now left.
Qed.
End MeaningProof.
