(** The virtual machine makes the calls of the interpreter of template structure
    (CallSpec.v); the proof follows RenderProof.v. *)
From Verif Require Import Base Utf8 Ext Errors Syntax Value Ast Wp AstOk Compiler CompileProof Fmt Stack Filters Render RenderSpec
  RenderProof Calls CallSpec.

Section CallProof.
Context `{X : Ext}.
Context {S : Type}.
Variable ev : env S.
Variable inner : renderer_inner.
Variable ast_of : template -> scope.
Notation maxd := (max_include_depth inner).

Lemma efx_assoc {A B C} (p : S * res A) (f : A -> eff S B) (g : B -> eff S C) : efx (efx p f) g = efx p (fun a => ebind (f a) g).
Proof. now destruct p as [s [a|e| |]]. Qed.
Lemma ebind_assoc {A B C} (x : eff S A) (f : A -> eff S B) (g : B -> eff S C) s : ebind (ebind x f) g s = ebind x (fun a => ebind (f a) g) s.
Proof. unfold ebind. now rewrite efx_assoc. Qed.
Lemma efx_ext {A B} (p : S * res A) (f g : A -> eff S B) : (forall a s, f a s = g a s) -> efx p f = efx p g.
Proof. intros H. destruct p as [s [a|e| |]]; cbn; auto. Qed.
Notation named_err n := (fun e => match n with Some s => with_template_name e s | None => e end).
Lemma catch_efx {A B} f (x : eff S A) (g : A -> eff S B) s :
  ecatch (fun e => Err (f e)) (ebind x g) s = efx (ecatch (fun e => Err (f e)) x s) (fun a => ecatch (fun e => Err (f e)) (g a)).
Proof. unfold ecatch, ebind. now destruct (x s) as [s' [a|e| |]]. Qed.

(** The rest of an iteration of [x_render_loop], after [x_render_one]. *)
Lemma x_get_arg_spec ty source st a s : x_get_arg ev ty source st a s = c_arg ev source st ty a s.
Proof.
  destruct a as [v|x sp]; unfold c_arg, x_get_arg, ebind, eret; cbn [base_span].
  - destruct (x_lookup_var ev st source v s) as [s' [c|e| |]]; cbn [efx]; reflexivity.
  - cbn [efx]. destruct (from_value_ref ty x); reflexivity.
Qed.
Lemma x_get_args_spec source st : forall tys l s, length l = length tys -> x_get_args ev tys source st l s = c_args ev source st (combine tys l) s.
Proof.
  induction tys as [|ty tys IH]; intros [|a l] s E; try discriminate; cbn [x_get_args combine c_args]; [reflexivity|].
  unfold ebind at 1 3. rewrite x_get_arg_spec. destruct (c_arg ev source st ty a s) as [s1 [av|e| |]]; cbn [efx]; try reflexivity.
  unfold ebind. rewrite IH by (cbn in E; lia). reflexivity.
Qed.
Lemma x_call_filter_is f nm source name st c l s : x_call_filter ev f nm source name st c l s = c_call ev f nm source name st c l s.
Proof.
  unfold x_call_filter, c_call, check_args. destruct (length l =? length (fl_args f)) eqn:El.
  - apply Nat.eqb_eq in El. unfold ebind, eret. cbn [efx]. destruct (from_cow_mut (fl_recv f) c) as [v|e]; cbn [efx].
    + now rewrite x_get_args_spec.
    + unfold err_expected_val, err_render. destruct e; cbn [efx]; try reflexivity; destruct (build_pretty source (id_span name)); reflexivity.
  - unfold ebind, eret, err_render. destruct (build_pretty source (id_span name)); reflexivity.
Qed.
Lemma c_apply_x source st name args c s : c_apply ev inner source st name args c s =
  (let! nm := eret (index_span source (id_span name)) in
   match map_get nm (en_functions (ri_engine inner)) with
   | Some (EFilter f) => ecatch (fun e => err_enrich e source (id_span name)) (x_call_filter ev f nm source name st c args)
   | Some (EFormatter _) => eret (err_render (s2b "expected filter, found formatter") source (id_span name))
   | None => eret (err_render (s2b "unknown filter") source (id_span name))
   end) s.
Proof.
  unfold c_apply, ebind, eret. destruct (index_span source (id_span name)) as [nm| | |]; cbn [efx]; try reflexivity.
  destruct (map_get nm _) as [[f|f]|]; try reflexivity. unfold ecatch. now rewrite x_call_filter_is.
Qed.
Definition cont (f : nat) (t : template) (tname : option str) (hs : bool) (rest : list activation)
  (x : render_state * nat * stack) : eff S unit :=
  let '(rs, pc, st) := x in
      let a := mkact t tname pc hs in
      let! (ts, st) :=
        match rs with
        | RsDone =>
          if ac_has_scope a then
            let! st := eret (pop_scope st) in
            let! st := eret (pop_boundary st) in
            eret (Ok (rest, st))
          else eret (Ok (rest, st))
        | RsInclude name =>
          let! t' := x_name_err tname (x_get_template ev inner (t_source t) name) in
          eret (Ok (mkact t' (Some (as_name name)) 0 false :: a :: rest, st))
        | RsIncludeWith name globals =>
          let! t' := x_name_err tname (x_get_template ev inner (t_source t) name) in
          eret (Ok (mkact t' (Some (as_name name)) 0 true :: a :: rest, FrScope globals :: FrBoundary :: st))
        end in
      if (maxd <? N.of_nat (length ts))%N
      then eret (err_max_include_depth maxd)
      else x_render_loop ev inner f ts st.

Lemma x_render_loop_S f a rest st s :
  x_render_loop ev inner (Datatypes.S f) (a :: rest) st s =
  efx (x_name_err (ac_name a) (x_render_one ev inner f (ac_template a) (ac_pc a) st None) s)
      (cont f (ac_template a) (ac_name a) (ac_has_scope a) rest).
Proof. cbn [x_render_loop]. unfold ebind at 1. apply efx_ext. intros [[rs pc] st'] s'. reflexivity. Qed.

Definition loop_runs (ts : list activation) (st : stack) (s : S) (out : S * res unit) : Prop :=
  exists n, forall f, n <= f -> x_render_loop ev inner f ts st s = out.

(** ** Running one template *)
Section One.
Variable t : template.
Variable tname : option str.
Variable hs : bool.
Variable rest : list activation.
Notation source := (t_source t).

Definition mid (f g pc : nat) (st : stack) (ex : option cow) (s : S) : S * res unit :=
  efx (x_name_err tname (x_render_one ev inner g t pc st ex) s) (cont f t tname hs rest).
Definition runs (pc : nat) (st : stack) (ex : option cow) (s : S) (out : S * res unit) : Prop :=
  exists n, forall f g, n <= f -> n <= g -> mid f g pc st ex s = out.
Definition stops_with (rs : render_state) (pc : nat) (st : stack) (s : S) (out : S * res unit) : Prop :=
  exists n, forall f, n <= f -> cont f t tname hs rest (rs, pc, st) s = out.
Definition after (nx : next) (s : S) (out : S * res unit) : Prop :=
  match nx with
  | NGo pc st ex => runs pc st ex s out
  | NStop rs pc st => stops_with rs pc st s out
  end.

(** What an instruction does decides how the run goes on. *)
Lemma runs_instr pc st ex s i out : nth_error (t_instrs t) pc = Some i ->
  match x_exec_instr ev inner t i pc st ex s with
  | (s', Ok nx) => after nx s' out
  | (s', Err e) => out = (s', Err (match tname with Some n => with_template_name e n | None => e end))
  | (s', Panic) => out = (s', Panic)
  | (s', OutOfFuel) => out = (s', OutOfFuel)
  end -> runs pc st ex s out.
Proof.
  intros E H.
  assert (M : forall f g, mid f (Datatypes.S g) pc st ex s = match x_exec_instr ev inner t i pc st ex s with
    | (s', Ok (NGo pc st ex)) => mid f g pc st ex s'
    | (s', Ok (NStop rs pc st)) => cont f t tname hs rest (rs, pc, st) s'
    | (s', Err e) => (s', Err (match tname with Some n => with_template_name e n | None => e end))
    | (s', Panic) => (s', Panic)
    | (s', OutOfFuel) => (s', OutOfFuel)
    end).
  { intros f g. unfold mid. cbn [x_render_one]. rewrite E. unfold x_name_err, ecatch, ebind.
    destruct (x_exec_instr ev inner t i pc st ex s) as [s' [[pc' st' ex'|rs pc' st']|e| |]]; reflexivity. }
  destruct (x_exec_instr ev inner t i pc st ex s) as [s' [[pc' st' ex'|rs pc' st']|e| |]].
  1-2: destruct H as (n & Hn); exists (Datatypes.S n); intros f [|g] Hf Hg; [lia|]; rewrite M; apply Hn; lia.
  all: exists 1; intros f [|g] Hf Hg; [lia|]; rewrite M; now symmetry.
Qed.
Lemma runs_go pc st ex s i nx out :
  nth_error (t_instrs t) pc = Some i -> x_exec_instr ev inner t i pc st ex s = (s, Ok nx) ->
  after nx s out -> runs pc st ex s out.
Proof. intros E Hx H. apply (runs_instr pc st ex s i out E). now rewrite Hx. Qed.
(** An instruction that computes a result and goes on. *)
Lemma runs_lift {A} pc st ex s i (x : eff S A) (nx : A -> next) K :
  nth_error (t_instrs t) pc = Some i ->
  (forall s, x_exec_instr ev inner t i pc st ex s = ebind x (fun a => eret (Ok (nx a))) s) ->
  (forall a s', x s = (s', Ok a) -> after (nx a) s' (K a s')) ->
  runs pc st ex s (efx (c_here tname x s) K).
Proof.
  intros E Hx H. apply (runs_instr pc st ex s i _ E). rewrite Hx. unfold ebind, c_here, ecatch.
  destruct (x s) as [s' [a|e| |]]; cbn [efx eret]; auto.
Qed.

(** ** Code in place *)
Notation code_at := (RenderProof.code_at t).

Lemma here_efx {A B C} (x : eff S A) (g : A -> eff S B) (K : B -> eff S C) s :
  efx (c_here tname (ebind x g) s) K = efx (c_here tname x s) (fun a s' => efx (c_here tname (g a) s') K).
Proof. unfold c_here. rewrite catch_efx, efx_assoc. reflexivity. Qed.
Lemma here_ret {A B} (a : A) (K : A -> eff S B) s : efx (c_here tname (eret (Ok a)) s) K = K a s.
Proof. reflexivity. Qed.

Lemma runs_expr e : forall pc st s K, code_at pc (cexpr e) ->
  (forall c s', c_expr ev inner source st e s = (s', Ok c) -> runs (pc + length (cexpr e)) st (Some c) s' (K c s')) ->
  runs pc st None s (efx (c_here tname (c_expr ev inner source st e) s) K).
Proof.
  induction e as [b|name a recv IH sp]; intros pc st s K Hc H.
  - apply code_at_cons in Hc as [E _]. destruct b as [v|v l]; cbn [cbase c_expr] in *.
    + eapply runs_lift with (nx := fun c => NGo (pc + 1) st (Some c)); [exact E|reflexivity|]. exact H.
    + rewrite here_ret. eapply runs_go; [exact E|reflexivity|]. now apply H.
  - cbn [cexpr] in *. apply code_at_app in Hc as [Hr Hc]. apply code_at_cons in Hc as [E _].
    cbn [c_expr] in *. rewrite here_efx. apply IH; auto. intros c s1 Ec.
    rewrite here_efx.
    eapply runs_lift with (nx := fun v => NGo (pc + length (cexpr recv) + 1) st (Some (Owned v))); [exact E| |].
    + intros s2. cbn [x_exec_instr]. unfold ebind, eret. rewrite c_apply_x. unfold ebind, eret. destruct (index_span source (id_span name)) as [nm| | |]; cbn [efx]; auto.
      destruct (map_get nm (en_functions (ri_engine inner))) as [[f|f]|]; cbn [unwrap efx].
      * unfold err_render; now destruct (build_pretty _ _).
      * reflexivity.
      * unfold err_render; now destruct (build_pretty _ _).
    + intros v s2 Ev. rewrite here_ret. cbn [after].
      specialize (H (Owned v) s2). unfold ebind at 1 in H. rewrite Ec in H. cbn [efx] in H. unfold ebind in H. rewrite Ev in H. cbn [efx eret] in H.
      rewrite app_length in H. cbn [length] in H. rewrite Nat.add_assoc in H. now apply H.
Qed.

Lemma runs_inline e : expr_ok source e -> forall pc st s K, code_at pc (cinline e) ->
  (forall s', c_inline ev inner source st e s = (s', Ok tt) -> runs (pc + length (cinline e)) st None s' (K tt s')) ->
  runs pc st None s (efx (c_here tname (c_inline ev inner source st e) s) K).
Proof.
  intros Hok. destruct (expr_span_total (E := error) source e Hok) as (sp & Es).
  assert (Eo : span_or e = sp) by (unfold span_or; now rewrite Es).
  assert (Hdef : forall pc st s K, code_at pc (cexpr e ++ [IEmit (span_or e)]) ->
    (forall s', (let! c := c_expr ev inner source st e in
      let! sp := eret (expr_span e) in
      c_format ev None (cow_val c) source sp) s = (s', Ok tt) -> runs (pc + length (cexpr e ++ [IEmit (span_or e)])) st None s' (K tt s')) ->
    runs pc st None s (efx (c_here tname (
      let! c := c_expr ev inner source st e in
      let! sp := eret (expr_span e) in
      c_format ev None (cow_val c) source sp) s) K)).
  { intros pc st s K Hc H. apply code_at_app in Hc as [Hr Hc]. apply code_at_cons in Hc as [E _].
    rewrite here_efx. apply runs_expr; auto. intros c s1 Ec. rewrite Es in *. rewrite here_efx, here_ret.
    eapply runs_lift with (nx := fun _ => NGo (pc + length (cexpr e) + 1) st None); [exact E| |].
    - intros s2. cbn [x_exec_instr unwrap]. rewrite Eo. unfold ebind, eret. cbn [efx]. reflexivity.
    - intros [] s2 Ho. cbn [after]. rewrite app_length in H. cbn [length] in H. rewrite Nat.add_assoc in H. apply H.
      unfold ebind. rewrite Ec. cbn [efx eret]. exact Ho. }
  destruct e as [b|name [a|] recv sp0]; [exact Hdef|exact Hdef|]. clear Hdef.
  intros pc st s K Hc H. cbn [cinline] in *. rewrite Eo in *. cbn [expr_span] in Es. injection Es as <-.
  apply code_at_app in Hc as [Hr Hc]. apply code_at_cons in Hc as [E _].
  cbn [c_inline] in *. rewrite here_efx. apply runs_expr; auto. intros c s1 Ec.
  rewrite app_length in H. cbn [length] in H. rewrite Nat.add_assoc in H.
  eapply runs_lift with (nx := fun _ => NGo (pc + length (cexpr recv) + 1) st None); [exact E| |].
  - intros s2. cbn [x_exec_instr]. unfold ebind, eret. destruct (index_span source (id_span name)) as [nm| | |] eqn:En; cbn [efx]; auto.
    destruct (map_get nm (en_functions (ri_engine inner))) as [[f|f]|] eqn:Em; cbn [unwrap efx].
    + reflexivity.
    + rewrite efx_assoc, c_apply_x. unfold ebind, eret. rewrite En. cbn [efx]. rewrite Em. apply efx_ext. reflexivity.
    + unfold err_render; now destruct (build_pretty _ _).
  - intros [] s2 Ho. cbn [after]. apply H. unfold ebind at 1. rewrite Ec. exact Ho.
Qed.

(** ** Statements *)
Section Stmts.
Variable inc : option (@c_rend S).
Hypothesis Hinc :
  match inc with
  | None => (maxd < N.of_nat (2 + length rest))%N
  | Some run => (N.of_nat (2 + length rest) <= maxd)%N /\
     forall t' nm pc hs' st0 st s K,
     c_named ev inner t' ->
     st = (if hs' : bool then match st with c :: _ => c :: FrBoundary :: st0 | [] => [] end else st0) ->
     (hs' = true -> exists c, st = FrScope c :: FrBoundary :: st0) ->
     (forall s', run t' nm st s = (s', Ok tt) -> runs pc st0 None s' (K tt s')) ->
     loop_runs (mkact t' nm 0 hs' :: mkact t tname pc hs :: rest) st s (efx (run t' nm st s) K)
  end.

Notation c_stmt := (c_stmt ev inner inc source tname).
Notation c_scope := (c_scope ev inner inc source tname).
Notation c_here := (c_here tname).

Definition stmt_sim (s : stmt) : Prop := stmt_ok source s -> forall off st w K, code_at off (cstmt off s) ->
  (forall w', c_stmt s st w = (w', Ok tt) -> runs (off + length (cstmt off s)) st None w' (K tt w')) ->
  runs off st None w (efx (c_stmt s st w) K).

Lemma runs_scope l : Forall stmt_sim l -> Forall (stmt_ok source) l -> forall off st w K, code_at off (cscope off l) ->
  (forall w', c_scope l st w = (w', Ok tt) -> runs (off + length (cscope off l)) st None w' (K tt w')) ->
  runs off st None w (efx (c_scope l st w) K).
Proof.
  induction 1 as [|s l Hs Hl IH]; intros Hok off st w K Hc H.
  - cbn [CallSpec.c_scope eret efx]. cbn [cscope length] in H. rewrite Nat.add_0_r in H. now apply H.
  - inversion Hok; subst. cbn [cscope] in *. apply code_at_app in Hc as [Hc1 Hc2].
    cbn [CallSpec.c_scope] in *. unfold ebind in *. rewrite efx_assoc. apply Hs; auto. intros w1 Hw.
    apply IH; auto. intros w' Hw'. rewrite app_length, Nat.add_assoc in H. apply H. rewrite Hw. exact Hw'.
Qed.
Lemma c_stmt_if n c thn els st : c_stmt (SIf n c thn els) st =
    (let! v := c_here (c_expr ev inner source st c) in
    if xorb n (as_bool (cow_val v)) then c_scope thn st
    else match els with Some l => c_scope l st | None => eret (Ok tt) end).
Proof. reflexivity. Qed.
Lemma c_stmt_for vars e body st : c_stmt (SFor vars e body) st =
    (let! c := c_here (c_expr ev inner source st e) in
    let! sp := c_here (eret (expr_span e)) in
    let! frs := c_here (eret (s_loop source vars c sp)) in
    c_each (c_scope body) st frs).
Proof. reflexivity. Qed.
Lemma c_stmt_with e name body st : c_stmt (SWith e name body) st =
    (let! c := c_here (c_expr ev inner source st e) in c_scope body (FrVar name c :: st)).
Proof. reflexivity. Qed.

Lemma runs_each body j off st :
  (forall fr st w K, code_at off (cscope off body) ->
     (forall w', c_scope body (fr :: st) w = (w', Ok tt) -> runs (off + length (cscope off body)) (fr :: st) None w' (K tt w')) ->
     runs off (fr :: st) None w (efx (c_scope body (fr :: st) w) K)) ->
  off = j + 1 ->
  code_at j (ILoopNext (Some (off + length (cscope off body) + 1)) :: cscope off body ++ [IJump (Some j)]) ->
  forall l frs, frs = rem_frames l -> forall w K,
  (forall w', c_each (c_scope body) st frs w = (w', Ok tt) -> runs (off + length (cscope off body) + 1) st None w' (K tt w')) ->
  runs j (FrLoop l :: st) None w (efx (c_each (c_scope body) st frs w) K).
Proof.
  intros Hbody Eoff Hcode l frs. pose proof Hcode as Hcode'.
  apply code_at_cons in Hcode' as [E Hc]. apply code_at_app in Hc as [Hcb Hcj]. apply code_at_cons in Hcj as [Ej _].
  rewrite <- Eoff in *. revert l. induction frs as [|fr frs IH]; intros l El w K H.
  - cbn [c_each eret efx]. eapply runs_go; [exact E| |].
    + cbn [x_exec_instr last_loop_state]. destruct l as [o i n [|x iter] cur|o k v n [|x iter] cur]; try discriminate; reflexivity.
    + cbn [after]. now apply H.
  - assert (exists l', iterate l = Some l' /\ fr = FrLoop l' /\ frs = rem_frames l') as (l' & Hi & -> & ->).
    { destruct l as [o i n [|x iter] cur|o k v n [|x iter] cur]; try discriminate; cbn [rem_frames list_frames map_frames] in El;
      injection El as -> ->; eexists; cbn [iterate]; repeat split. }
    eapply runs_go; [exact E| |].
    { cbn [x_exec_instr last_loop_state]. unfold ebind, eret. cbn [efx]. rewrite Hi. cbn [tl]. reflexivity. }
    cbn [after]. rewrite <- Eoff. cbn [c_each] in *. unfold ebind in *. rewrite efx_assoc. apply Hbody; auto. intros w1 Hw.
    eapply runs_go; [exact Ej|reflexivity|]. cbn [after]. apply IH; auto.
    intros w2 Hw2. apply H. rewrite Hw. exact Hw2.
Qed.

Lemma named_find name w w' t' : c_find ev inner source name w = (w', Ok t') -> c_named ev inner t'.
Proof.
  unfold c_find, c_named. destruct (ri_template_fn inner) as [f|] eqn:Ef.
  - unfold eask. destruct (ev_template ev w (as_name name)) as [s' [t0|r| |]] eqn:E; try (intros H; discriminate H).
    + intros H. injection H as <- <-. left. split; [discriminate|eauto].
    + unfold err_render. destruct (build_pretty _ _); cbn; intros H; discriminate H.
  - destruct (map_get _ _) as [t0|] eqn:E; [|unfold eret, err_render; destruct (build_pretty _ _); cbn; intros H; discriminate H].
    unfold eret. intros H. injection H as <- <-. right. eauto.
Qed.

Definition include (name : ast_string) (st : stack) : eff S unit :=
  let! t' := c_here (c_find ev inner source name) in
    match inc with
    | None => eret (err_max_include_depth maxd)
    | Some run => run t' (Some (as_name name)) st
    end.
Lemma stops_include name pc st0 g (st : stack) w K :
  st = match g with Some c => FrScope c :: FrBoundary :: st0 | None => st0 end ->
  (forall w', include name st w = (w', Ok tt) -> runs pc st0 None w' (K tt w')) ->
  stops_with (match g with Some c => RsIncludeWith name c | None => RsInclude name end) pc st0 w (efx (include name st w) K).
Proof.
  intros Est H. unfold stops_with.
  assert (Ec : forall f, cont f t tname hs rest (match g with Some c => RsIncludeWith name c | None => RsInclude name end, pc, st0) w =
    efx (c_here (c_find ev inner source name) w) (fun t' =>
     if (maxd <? N.of_nat (length (mkact t' (Some (as_name name)) 0 (match g with Some _ => true | None => false end) :: mkact t tname pc hs :: rest)))%N
      then eret (err_max_include_depth maxd)
      else x_render_loop ev inner f (mkact t' (Some (as_name name)) 0 (match g with Some _ => true | None => false end) :: mkact t tname pc hs :: rest) st)).
  { intros f. rewrite Est. unfold cont. change (x_get_template ev inner source name) with (c_find ev inner source name).
    unfold x_name_err, CallSpec.c_here. destruct g; unfold ebind; rewrite efx_assoc; apply efx_ext; reflexivity. }
  unfold include, ebind in H |- *. unfold CallSpec.c_here, ecatch in H, Ec |- *.
  destruct (c_find ev inner source name w) as [w1 [t'|er| |]] eqn:Ef.
  2-4: exists 0; intros f _; rewrite Ec; reflexivity.
  assert (Hp := named_find _ _ _ _ Ef).
  set (hw := match g with Some _ => true | None => false end) in *.
  cbn [efx] in H, Ec |- *.
  destruct inc as [run|].
  - destruct Hinc as (Hle & Hrun).
    destruct (Hrun t' (Some (as_name name)) pc hw st0 st w1 K Hp) as (n & Hn).
    { unfold hw. destruct g; subst st; reflexivity. }
    { unfold hw. destruct g; intros; [eauto|discriminate]. }
    { exact H. }
    exists n. intros f Hf. rewrite Ec. cbn [length] in *.
    replace (maxd <? N.of_nat (Datatypes.S (Datatypes.S (length rest))))%N with false by (symmetry; apply N.ltb_ge; lia).
    now apply Hn.
  - exists 0. intros f _. rewrite Ec. cbn [length] in *.
    replace (maxd <? N.of_nat (Datatypes.S (Datatypes.S (length rest))))%N with true by (symmetry; apply N.ltb_lt; lia).
    reflexivity.
Qed.

Lemma sim s : stmt_sim s.
Proof.
  induction s as [sp|e sp|n g|n c thn els Ht He|v e b Hb|e n b Hb] using stmt_ind'; intros Hok off st w K Hc H.
  - cbn [cstmt length] in *. apply code_at_cons in Hc as [E _]. cbn [CallSpec.c_stmt] in *.
    unfold ebind in *. rewrite efx_assoc. apply (runs_instr off st None w (IEmitRaw sp) _ E).
    cbn [x_exec_instr]. unfold CallSpec.c_here, ecatch, ebind, eret, eask in *.
    destruct (index_span source sp) as [raw|er| |]; cbn [efx] in H |- *; try reflexivity.
    destruct (ev_write ev w raw) as [w1 [[]|u| |]]; cbn [efx] in H |- *; try reflexivity. cbn [after]. now apply H.
  - cbn [cstmt] in *. cbn [CallSpec.c_stmt] in *. inversion Hok; subst.
    apply runs_inline; auto. intros w1 Ho. apply H. unfold CallSpec.c_here, ecatch. now rewrite Ho.
  - destruct g as [g|]; cbn [cstmt CallSpec.c_stmt] in *.
    + apply code_at_app in Hc as [Hc1 Hc2]. apply code_at_cons in Hc2 as [E _]. inversion Hok; subst.
      unfold ebind at 1 2 in H. unfold ebind at 1 2. rewrite !efx_assoc. unfold ebind at 1. rewrite !efx_assoc in H. unfold ebind at 1 in H.
      apply runs_expr; auto. intros c w1 Ec. unfold ebind, eret in H |- *. cbn [efx] in H |- *.
      eapply runs_go; [exact E|reflexivity|]. cbn [after].
      apply (stops_include n _ st (Some c) (FrScope c :: FrBoundary :: st) w1 K); auto. intros w2 Hw2. rewrite app_length in H. cbn [length] in H. rewrite Nat.add_assoc in H.
      apply H. unfold CallSpec.c_here at 1, ecatch at 1. rewrite Ec. cbn [efx]. exact Hw2.
    + apply code_at_cons in Hc as [E _].
      eapply runs_go; [exact E|reflexivity|]. cbn [after]. apply (stops_include n _ st None st w K); auto.
  - rewrite c_stmt_if in *. unfold ebind in H |- *. rewrite efx_assoc.
    assert (Hsc : forall l, Forall stmt_sim l -> Forall (stmt_ok source) l -> forall o h k, code_at o (cscope o l) ->
      (forall h', c_scope l st h = (h', Ok tt) -> runs (o + length (cscope o l)) st None h' (k tt h')) ->
      runs o st None h (efx (c_scope l st h) k)) by (intros; now apply runs_scope).
    destruct els as [els|].
    + rewrite cstmt_if_else in *. cbv zeta in *.
      inversion Hok as [| | | | |? ? ? ? K1 K2 K3| |]; subst.
      apply code_at_app in Hc as [Hc1 Hc]. apply code_at_cons in Hc as [E Hc].
      apply code_at_app in Hc as [Hct Hc]. apply code_at_cons in Hc as [Ej Hce].
      apply runs_expr; auto. intros c' w1 Ec.
      set (o1 := off + length (cexpr c) + 1) in *. set (ct := cscope o1 thn) in *.
      set (ce := cscope (o1 + length ct + 1) els) in *.
      assert (Hend : off + length (cexpr c ++ (if n then IJumpIfTrue (Some (o1 + length ct + 1)) else IJumpIfFalse (Some (o1 + length ct + 1)))
         :: ct ++ IJump (Some (o1 + length ct + 1 + length ce)) :: ce) = o1 + length ct + 1 + length ce).
      { unfold o1. rewrite !app_length. cbn [length]. rewrite app_length. cbn [length]. lia. }
      rewrite Hend in H. unfold CallSpec.c_here, ecatch in H. rewrite Ec in H. cbn [efx] in H. unfold ebind.
      destruct (xorb n (as_bool (cow_val c'))) eqn:Ex.
      * eapply runs_go; [exact E| |].
        { destruct n; cbn [x_exec_instr unwrap]; unfold ebind, eret; cbn [efx]; destruct (as_bool (cow_val c')); try discriminate; reflexivity. }
        cbn [after]. apply Hsc; auto. intros h Hh. eapply runs_go; [exact Ej|reflexivity|]. cbn [after]. now apply H.
      * eapply runs_go; [exact E| |].
        { destruct n; cbn [x_exec_instr unwrap]; unfold ebind, eret; cbn [efx]; destruct (as_bool (cow_val c')); try discriminate; reflexivity. }
        cbn [after]. apply Hsc; auto.
    + rewrite cstmt_if in *. cbv zeta in *.
      inversion Hok as [| | | |? ? ? K1 K2| | |]; subst.
      apply code_at_app in Hc as [Hc1 Hc]. apply code_at_cons in Hc as [E Hct].
      apply runs_expr; auto. intros c' w1 Ec.
      set (o1 := off + length (cexpr c) + 1) in *. set (ct := cscope o1 thn) in *.
      assert (Hend : off + length (cexpr c ++ (if n then IJumpIfTrue (Some (o1 + length ct)) else IJumpIfFalse (Some (o1 + length ct)))
         :: ct) = o1 + length ct).
      { unfold o1. rewrite !app_length. cbn [length]. lia. }
      rewrite Hend in H. unfold CallSpec.c_here, ecatch in H. rewrite Ec in H. cbn [efx] in H. unfold ebind.
      destruct (xorb n (as_bool (cow_val c'))) eqn:Ex.
      * eapply runs_go; [exact E| |].
        { destruct n; cbn [x_exec_instr unwrap]; unfold ebind, eret; cbn [efx]; destruct (as_bool (cow_val c')); try discriminate; reflexivity. }
        cbn [after]. apply Hsc; auto.
      * eapply runs_go; [exact E| |].
        { destruct n; cbn [x_exec_instr unwrap]; unfold ebind, eret; cbn [efx]; destruct (as_bool (cow_val c')); try discriminate; reflexivity. }
        cbn [after]. unfold eret. cbn [efx]. apply H. reflexivity.
  - rewrite c_stmt_for in *. rewrite cstmt_for in *. cbv zeta in *.
    inversion Hok as [| | | | | |? ? ? K1 K2 K3|]; subst. destruct (expr_span_total (E := error) source e K2) as (sp & Es).
    assert (Eo : span_or e = sp) by (unfold span_or; now rewrite Es). rewrite Es, Eo in *.
    apply code_at_app in Hc as [Hc1 Hc]. apply code_at_cons in Hc as [E Hc].
    unfold ebind in H |- *. rewrite efx_assoc. apply runs_expr; auto. intros c w1 Ec.
    unfold CallSpec.c_here at 1, ecatch at 1 in H. rewrite Ec in H. cbn [efx] in H.
    unfold ebind. rewrite here_ret in H |- *. rewrite efx_assoc. rewrite s_loop_new in *.
    assert (EL : forall A B (f : A -> res B) (r : res A) (k : B -> eff S unit) w,
      efx (c_here (eret (let* x := r in f x)) w) k = efx (c_here (eret r) w) (fun a w' => efx (c_here (eret (f a)) w') k)).
    { intros A B f r k w0. unfold CallSpec.c_here, ecatch, eret. now destruct r. }
    rewrite EL in H |- *.
    eapply runs_lift with (nx := fun l => NGo (off + length (cexpr e) + 1) (FrLoop l :: st) None); [exact E| |].
    { intros w2. reflexivity. }
    intros l w2 El. unfold eret in El. injection El as <- El. rewrite El in H. rewrite here_ret in H.
    rewrite here_ret in H |- *. unfold ebind.
    cbn [after].
    apply (runs_each b (off + length (cexpr e) + 1) (off + length (cexpr e) + 1 + 1) st).
    + intros fr st' h k Hcb Hk. apply runs_scope; auto.
    + reflexivity.
    + exact Hc.
    + destruct l; reflexivity.
    + intros h Hh. specialize (H h Hh). rewrite app_length in H. cbn [length] in H. rewrite app_length in H. cbn [length] in H.
      match goal with HH : runs ?x _ _ _ _ |- runs ?y _ _ _ _ => replace y with x by lia; exact HH end.
  - rewrite c_stmt_with in *. rewrite cstmt_with in *. cbv zeta in *.
    inversion Hok as [| | | | | | |? ? ? K1 K2 K3]; subst.
    apply code_at_app in Hc as [Hc1 Hc]. apply code_at_cons in Hc as [E Hc]. apply code_at_app in Hc as [Hcb Hc].
    apply code_at_cons in Hc as [Ee _].
    unfold ebind in H |- *. rewrite efx_assoc. apply runs_expr; auto. intros c w1 Ec.
    unfold CallSpec.c_here, ecatch in H. rewrite Ec in H. cbn [efx] in H. unfold ebind.
    eapply runs_go; [exact E|reflexivity|]. cbn [after]. apply runs_scope; auto. intros h Hh.
    eapply runs_go; [exact Ee|reflexivity|]. cbn [after].
    specialize (H h Hh). rewrite app_length in H. cbn [length] in H. rewrite app_length in H. cbn [length] in H.
    match goal with HH : runs ?x _ _ _ _ |- runs ?y _ _ _ _ => replace y with x by lia; exact HH end.
Qed.
End Stmts.
End One.

(** ** Whole templates *)
Lemma done t tname hs rest st0 st w out :
  rest = [] \/ (N.of_nat (1 + length rest) <= maxd)%N ->
  (if hs : bool then exists c, st = FrScope c :: FrBoundary :: st0 else st = st0) ->
  loop_runs rest st0 w out -> runs t tname hs rest (length (t_instrs t)) st None w out.
Proof.
  intros Hrest Hst (n & Hn). exists (Datatypes.S n). intros f g Hf Hg. destruct g as [|g]; [lia|].
  unfold mid. cbn [x_render_one].
  replace (nth_error (t_instrs t) (length (t_instrs t))) with (@None instr) by (symmetry; apply nth_error_None; lia).
  rewrite Nat.eqb_refl. unfold x_name_err, ecatch, eret. cbn [efx cont ac_has_scope].
  assert (Hm : (maxd <? N.of_nat (length rest))%N = false) by (apply N.ltb_ge; destruct Hrest as [->|]; cbn [length] in *; lia).
  destruct hs.
  - destruct Hst as (c & ->). cbn [pop_scope pop_boundary]. unfold ebind, eret. cbn [efx pop_boundary length] in *. rewrite Hm. apply Hn. lia.
  - subst st0. unfold ebind, eret. cbn [efx]. rewrite Hm. apply Hn. lia.
Qed.
Hypothesis Hsourced : forall t, c_named ev inner t -> sourced ast_of t.

Lemma loop_of_runs t tname hs rest pc st w out :
  runs t tname hs rest pc st None w out -> loop_runs (mkact t tname pc hs :: rest) st w out.
Proof.
  intros (n & Hn). exists (Datatypes.S n). intros f Hf. destruct f as [|f]; [lia|]. rewrite x_render_loop_S. apply Hn; lia.
Qed.
Lemma template_sim d : forall t tname hs rest st0 st w K,
  sourced ast_of t ->
  d = N.to_nat maxd - (1 + length rest) ->
  rest = [] \/ (N.of_nat (1 + length rest) <= maxd)%N ->
  (if hs : bool then exists c, st = FrScope c :: FrBoundary :: st0 else st = st0) ->
  (forall w', c_template ev inner ast_of d t tname st w = (w', Ok tt) -> loop_runs rest st0 w' (K tt w')) ->
  loop_runs (mkact t tname 0 hs :: rest) st w (efx (c_template ev inner ast_of d t tname st w) K).
Proof.
  induction d as [|d IH]; intros t tname hs rest st0 st w K (Ecode & Hok) Hd Hrest Hst H; apply loop_of_runs.
  - cbn [c_template] in *. apply (runs_scope t tname hs rest None (ast_of t)); auto.
    + apply Forall_forall. intros s _. apply sim. lia.
    + exists [], []. rewrite Ecode. cbn [app]. now rewrite app_nil_r.
    + intros w' Hw. rewrite <- Ecode. apply (done t tname hs rest st0); auto.
  - cbn [c_template] in *. apply (runs_scope t tname hs rest (Some (c_template ev inner ast_of d)) (ast_of t)); auto.
    + apply Forall_forall. intros s _. apply sim. split; [lia|].
      intros t' nm pc hs' st1 st' w' K' Hp' Hst1 Hst2 HK.
      apply (IH t' nm hs' (mkact t tname pc hs :: rest) st1); auto.
      * cbn [length]. lia.
      * right. cbn [length]. lia.
      * destruct hs'; auto.
      * intros w2 Hw2. apply loop_of_runs. now apply HK.
    + exists [], []. rewrite Ecode. cbn [app]. now rewrite app_nil_r.
    + intros w' Hw. rewrite <- Ecode. apply (done t tname hs rest st0); auto.
Qed.
Theorem x_render_spec st w : sourced ast_of (ri_template inner) ->
  exists n, forall fuel, n <= fuel -> x_render ev inner fuel st w = c_render ev inner ast_of st w.
Proof.
  intros Hs. destruct (template_sim (N.to_nat maxd - 1) (ri_template inner) (ri_template_name inner) false [] st st w (fun _ => eret (Ok tt)) Hs) as (n & Hn); auto.
  - intros w' _. exists 0. intros [|f] _; reflexivity.
  - exists n. intros fuel Hf. unfold x_render, c_render. rewrite (Hn fuel Hf).
    destruct (c_template ev inner ast_of _ _ _ st w) as [w' [[]|e| |]]; reflexivity.
Qed.
End CallProof.
