(** The virtual machine running compiled code agrees with the interpreter of
    template structure (RenderSpec.v). *)
From Verif Require Import Base Utf8 Ext Errors Syntax Value Ast Wp AstOk Compiler CompileProof Fmt Stack Filters Render RenderSpec.

(** ** Trees *)

Lemma rbind_assoc {A B C} (x : rt A) (f : A -> rt B) (g : B -> rt C) :
  rbind (rbind x f) g = rbind x (fun a => rbind (f a) g).
Proof. induction x as [r|s o IHo e IHe]; [now destruct r|]. cbn [rbind]. now rewrite IHo, IHe. Qed.
Lemma rbind_ext {A B} (x : rt A) (f g : A -> rt B) : (forall a, f a = g a) -> rbind x f = rbind x g.
Proof. intros H. induction x as [r|s o IHo e IHe]; [destruct r; cbn; auto|]. cbn [rbind]. now rewrite IHo, IHe. Qed.
Lemma name_err_bind {A B} n (x : rt A) (f : A -> rt B) :
  name_err n (rbind x f) = rbind (name_err n x) (fun a => name_err n (f a)).
Proof.
  unfold name_err. induction x as [r|s o IHo e IHe]; [destruct r; cbn; auto|].
  cbn [rbind rmap_err]. now rewrite IHo, IHe.
Qed.

(** The values a tree can end with. *)
Fixpoint oks {A} (x : rt A) (a : A) : Prop :=
  match x with
  | RRet (Ok b) => b = a
  | RRet _ => False
  | RWrite _ o e => oks o a \/ oks e a
  end.
Lemma oks_name_err {A} n (x : rt A) a : oks (name_err n x) a <-> oks x a.
Proof.
  unfold name_err. induction x as [r|s o IHo e IHe]; [destruct r; cbn; tauto|]. cbn [rmap_err oks]. tauto.
Qed.
Lemma oks_rbind {A B} (x : rt A) (f : A -> rt B) b : oks (rbind x f) b <-> exists a, oks x a /\ oks (f a) b.
Proof.
  induction x as [r|s o IHo e IHe].
  - destruct r as [a|e| |]; cbn [rbind oks].
    + split; [intros H; exists a; auto|intros (? & -> & H); auto].
    + split; [intros []|intros (? & [] & _)].
    + split; [intros []|intros (? & [] & _)].
    + split; [intros []|intros (? & [] & _)].
  - cbn [rbind oks]. rewrite IHo, IHe. split.
    + intros [(a & H1 & H2)|(a & H1 & H2)]; eauto.
    + intros (a & [H1|H1] & H2); eauto.
Qed.

Lemma rbind_eventually {A B} (x : rt A) (F : nat -> nat -> A -> rt B) (K : A -> rt B) :
  (forall a, oks x a -> exists n, forall f g, n <= f -> n <= g -> F f g a = K a) ->
  exists n, forall f g, n <= f -> n <= g -> rbind x (F f g) = rbind x K.
Proof.
  induction x as [r|s o IHo e IHe]; intros H.
  - destruct r as [a|er| |]; cbn [rbind]; try (exists 0; reflexivity). exact (H a eq_refl).
  - destruct IHo as (n1 & H1). { intros a Ha. apply H. now left. }
    destruct IHe as (n2 & H2). { intros a Ha. apply H. now right. }
    exists (Nat.max n1 n2). intros f g Hf Hg. cbn [rbind]. rewrite H1, H2 by lia. reflexivity.
Qed.

Section RenderProof.
Context `{X : Ext}.
Variable inner : renderer_inner.
Variable ast_of : template -> scope.

(** [t]'s instructions are the code of its statements. *)
Definition sourced (t : template) : Prop :=
  t_instrs t = cscope 0 (ast_of t) /\ Forall (stmt_ok (t_source t)) (ast_of t).

Notation maxd := (max_include_depth inner).

(** The rest of an iteration of [render_loop], after [render_one]. *)
Definition cont (f : nat) (t : template) (tname : option str) (hs : bool) (rest : list activation) (hist : list str)
  (x : render_state * nat * stack) : rt unit :=
  let '(rs, pc, st) := x in
      let a := mkact t tname pc hs in
      let% (ts, st, hist) :=
        match rs with
        | RsDone =>
          if ac_has_scope a then
            let% st := lift (pop_scope st) in
            let% st := lift (pop_boundary st) in
            RRet (Ok (rest, st, hist))
          else RRet (Ok (rest, st, hist))
        | RsInclude name =>
          let% (t', hist) := name_err tname (lift (get_template inner (t_source t) name hist)) in
          RRet (Ok (mkact t' (Some (as_name name)) 0 false :: a :: rest, st, hist))
        | RsIncludeWith name globals =>
          let% (t', hist) := name_err tname (lift (get_template inner (t_source t) name hist)) in
          RRet (Ok (mkact t' (Some (as_name name)) 0 true :: a :: rest,
                    FrScope globals :: FrBoundary :: st, hist))
        end in
      if (maxd <? N.of_nat (length ts))%N
      then lift (err_max_include_depth maxd)
      else render_loop inner f ts st hist.

Lemma render_loop_S f a rest st hist :
  render_loop inner (S f) (a :: rest) st hist =
  rbind (name_err (ac_name a) (render_one inner f (ac_template a) (ac_pc a) st None))
        (cont f (ac_template a) (ac_name a) (ac_has_scope a) rest hist).
Proof. cbn [render_loop]. apply rbind_ext. intros [[rs pc] st']. reflexivity. Qed.

(** [render_loop] eventually (with enough fuel) is the tree. *)
Definition loop_runs (ts : list activation) (st : stack) (hist : list str) (tree : rt unit) : Prop :=
  exists n, forall f, n <= f -> render_loop inner f ts st hist = tree.

(** ** Running one template *)
Section One.
Variable t : template.
Variable tname : option str.
Variable hs : bool.
Variable rest : list activation.
Notation source := (t_source t).

Definition mid (f g pc : nat) (st : stack) (ex : option cow) (hist : list str) : rt unit :=
  rbind (name_err tname (render_one inner g t pc st ex)) (cont f t tname hs rest hist).

Definition runs (pc : nat) (st : stack) (ex : option cow) (hist : list str) (tree : rt unit) : Prop :=
  exists n, forall f g, n <= f -> n <= g -> mid f g pc st ex hist = tree.

Definition stops_with (rs : render_state) (pc : nat) (st : stack) (hist : list str) (tree : rt unit) : Prop :=
  exists n, forall f, n <= f -> cont f t tname hs rest hist (rs, pc, st) = tree.

Definition after (hist : list str) (nx : next) (tree : rt unit) : Prop :=
  match nx with
  | NGo pc st ex => runs pc st ex hist tree
  | NStop rs pc st => stops_with rs pc st hist tree
  end.

Lemma mid_step f g pc st ex hist i : nth_error (t_instrs t) pc = Some i ->
  mid f (S g) pc st ex hist =
  rbind (name_err tname (exec_instr inner t i pc st ex))
    (fun nx => match nx with
               | NGo pc st ex => mid f g pc st ex hist
               | NStop rs pc st => cont f t tname hs rest hist (rs, pc, st)
               end).
Proof.
  intros E. unfold mid. cbn [render_one]. rewrite E, name_err_bind, rbind_assoc.
  apply rbind_ext. intros [pc' st' ex'|rs pc' st']; reflexivity.
Qed.

Lemma runs_instr pc st ex hist i K : nth_error (t_instrs t) pc = Some i ->
  (forall nx, oks (exec_instr inner t i pc st ex) nx -> after hist nx (K nx)) ->
  runs pc st ex hist (rbind (name_err tname (exec_instr inner t i pc st ex)) K).
Proof.
  intros E H.
  destruct (rbind_eventually (name_err tname (exec_instr inner t i pc st ex))
    (fun f g nx => match nx with
               | NGo pc st ex => mid f g pc st ex hist
               | NStop rs pc st => cont f t tname hs rest hist (rs, pc, st)
               end) K) as (n & Hn).
  { intros nx Hnx. apply oks_name_err in Hnx. apply H in Hnx.
    destruct nx as [pc' st' ex'|rs pc' st']; destruct Hnx as (n & Hn); exists n; auto. }
  exists (S n). intros f g Hf Hg. destruct g as [|g]; [lia|]. rewrite (mid_step _ _ _ _ _ _ i E). apply Hn; lia.
Qed.

(** ** Code in place *)
Definition code_at (pc : nat) (c : list instr) : Prop := exists a b, t_instrs t = a ++ c ++ b /\ length a = pc.
Lemma code_at_app pc c1 c2 : code_at pc (c1 ++ c2) -> code_at pc c1 /\ code_at (pc + length c1) c2.
Proof.
  intros (a & b & E & L). split.
  - exists a, (c2 ++ b). now rewrite E, <- app_assoc.
  - exists (a ++ c1), b. rewrite E, <- !app_assoc, app_length. auto.
Qed.
Lemma code_at_cons pc i c : code_at pc (i :: c) -> nth_error (t_instrs t) pc = Some i /\ code_at (pc + 1) c.
Proof.
  intros (a & b & E & L). split.
  - rewrite E. subst pc. cbn [app]. apply nth_mid.
  - exists (a ++ [i]), b. rewrite E, <- !app_assoc, app_length. auto.
Qed.

(** ** Expressions *)
Notation here := (here tname).

Lemma here_ret {A B} (r : res A) (K : A -> rt B) :
  rbind (here r) K = match r with
    | Ok a => K a
    | Err e => RRet (Err (match tname with Some s => with_template_name e s | None => e end))
    | Panic => RRet Panic
    | OutOfFuel => RRet OutOfFuel
    end.
Proof. now destruct r. Qed.
Lemma here_ok {A B} (a : A) (K : A -> rt B) : rbind (here (Ok a)) K = K a.
Proof. reflexivity. Qed.
Lemma here_bind {A B C} (r : res A) (f : A -> res B) (K : B -> rt C) :
  rbind (here (let* a := r in f a)) K = rbind (here r) (fun a => rbind (here (f a)) K).
Proof. now destruct r. Qed.

(** An instruction that computes a result and goes on. *)
Lemma runs_lift {A} pc st ex hist i (r : res A) (nx : A -> next) K :
  nth_error (t_instrs t) pc = Some i ->
  exec_instr inner t i pc st ex = rbind (lift r) (fun a => RRet (Ok (nx a))) ->
  (forall a, r = Ok a -> after hist (nx a) (K a)) ->
  runs pc st ex hist (rbind (here r) K).
Proof.
  intros E Hx H. destruct r as [a|e| |].
  - pose proof (runs_instr pc st ex hist i (fun _ => K a) E) as R. rewrite Hx in R. cbn in R. apply R.
    intros nx' <-. now apply H.
  - pose proof (runs_instr pc st ex hist i (fun _ => RRet Panic) E) as R. rewrite Hx in R. cbn in R. apply R. intros ? [].
  - pose proof (runs_instr pc st ex hist i (fun _ => RRet Panic) E) as R. rewrite Hx in R. cbn in R. apply R. intros ? [].
  - pose proof (runs_instr pc st ex hist i (fun _ => RRet Panic) E) as R. rewrite Hx in R. cbn in R. apply R. intros ? [].
Qed.
Lemma runs_go pc st ex hist i nx tree :
  nth_error (t_instrs t) pc = Some i -> exec_instr inner t i pc st ex = RRet (Ok nx) ->
  after hist nx tree -> runs pc st ex hist tree.
Proof.
  intros E Hx H. pose proof (runs_instr pc st ex hist i (fun _ => tree) E) as R. rewrite Hx in R. cbn in R. apply R.
  now intros ? <-.
Qed.

Lemma runs_expr e : forall pc st hist K, code_at pc (cexpr e) ->
  (forall c, s_expr inner source st e = Ok c -> runs (pc + length (cexpr e)) st (Some c) hist (K c)) ->
  runs pc st None hist (rbind (here (s_expr inner source st e)) K).
Proof.
  induction e as [b|name a recv IH sp]; intros pc st hist K Hc H.
  - apply code_at_cons in Hc as [E _]. destruct b as [v|v s]; cbn [cbase s_expr] in *.
    + eapply runs_lift with (nx := fun c => NGo (pc + 1) st (Some c)); eauto.
    + cbn. eapply runs_go; [exact E|reflexivity|]. now apply H.
  - cbn [cexpr] in *. apply code_at_app in Hc as [Hr Hc]. apply code_at_cons in Hc as [E _].
    cbn [s_expr] in *. rewrite here_bind. apply IH; auto. intros c Ec.
    rewrite here_bind.
    eapply runs_lift with (nx := fun v => NGo (pc + length (cexpr recv) + 1) st (Some (Owned v))); [exact E| |].
    + cbn [exec_instr]. unfold s_apply. destruct (index_span source (id_span name)) as [nm| | |]; auto. cbn [lift rbind bind].
      destruct (map_get nm (en_functions (ri_engine inner))) as [[f|f]|]; cbn [unwrap rbind lift].
      * unfold err_render; now destruct (build_pretty _ _).
      * fold (arg_list a). reflexivity.
      * unfold err_render; now destruct (build_pretty _ _).
    + intros v Ev. cbn [here name_err lift rmap_err rbind]. cbn [after].
      specialize (H (Owned v)). rewrite Ec in H. cbn [bind] in H. rewrite Ev in H. cbn [bind] in H.
      rewrite app_length in H. cbn [length] in H. rewrite Nat.add_assoc in H. now apply H.
Qed.

(** A run of the formatter inside an instruction. *)
Lemma runs_fmt pc st ex hist i (x : rt unit) (nx : next) K :
  nth_error (t_instrs t) pc = Some i ->
  exec_instr inner t i pc st ex = rbind x (fun _ => RRet (Ok nx)) ->
  (oks x tt -> after hist nx K) ->
  runs pc st ex hist (rbind (name_err tname x) (fun _ => K)).
Proof.
  intros E Hx H. pose proof (runs_instr pc st ex hist i (fun _ => K) E) as R.
  rewrite Hx, name_err_bind, rbind_assoc in R. cbn in R. apply R.
  intros nx' (u & Hu & <-)%oks_rbind. destruct u. now apply H.
Qed.

Lemma runs_inline e : expr_ok source e -> forall pc st hist (K : rt unit), code_at pc (cinline e) ->
  (oks (s_inline inner source st e) tt -> runs (pc + length (cinline e)) st None hist K) ->
  runs pc st None hist (rbind (name_err tname (s_inline inner source st e)) (fun _ => K)).
Proof.
  intros Hok. destruct (expr_span_total (E := error) source e Hok) as (sp & Es).
  assert (Eo : span_or e = sp) by (unfold span_or; now rewrite Es).
  assert (Hdef : forall pc st hist K, code_at pc (cexpr e ++ [IEmit (span_or e)]) ->
    (oks (let% c := lift (s_expr inner source st e) in
      let% sp := lift (expr_span e) in
      s_default inner source (cow_val c) sp) tt -> runs (pc + length (cexpr e ++ [IEmit (span_or e)])) st None hist K) ->
    runs pc st None hist (rbind (name_err tname (
      let% c := lift (s_expr inner source st e) in
      let% sp := lift (expr_span e) in
      s_default inner source (cow_val c) sp)) (fun _ => K))).
  { intros pc st hist K Hc H. apply code_at_app in Hc as [Hr Hc]. apply code_at_cons in Hc as [E _].
    rewrite name_err_bind, rbind_assoc. change (name_err tname (lift ?x)) with (here x).
    apply runs_expr; auto. intros c Ec. rewrite Es. cbn [lift rbind].
    eapply runs_fmt with (nx := NGo (pc + length (cexpr e) + 1) st None); [exact E| |].
    - cbn [exec_instr lift unwrap rbind]. rewrite Eo. reflexivity.
    - intros Ho. cbn [after]. rewrite app_length in H. cbn [length] in H. rewrite Nat.add_assoc in H. apply H.
      rewrite Ec. cbn [lift rbind]. rewrite Es. exact Ho. }
  destruct e as [b|name [a|] recv s]; [exact Hdef|exact Hdef|]. clear Hdef.
  intros pc st hist K Hc H. cbn [cinline] in *. rewrite Eo in *. cbn [expr_span] in Es. injection Es as <-.
  apply code_at_app in Hc as [Hr Hc]. apply code_at_cons in Hc as [E _].
  cbn [s_inline]. rewrite name_err_bind, rbind_assoc. change (name_err tname (lift ?x)) with (here x).
  apply runs_expr; auto. intros c Ec.
  rewrite app_length in H. cbn [length] in H. rewrite Nat.add_assoc in H.
  eapply runs_fmt with (nx := NGo (pc + length (cexpr recv) + 1) st None); [exact E| |intros Ho; apply H; cbn [s_inline]; rewrite Ec; exact Ho].
  cbn [exec_instr]. destruct (index_span source (id_span name)) as [nm| | |] eqn:En; auto. cbn [lift rbind unwrap].
  destruct (map_get nm (en_functions (ri_engine inner))) as [[f|f]|] eqn:Em.
  - reflexivity.
  - unfold s_apply. rewrite En. cbn [bind]. rewrite Em. unfold lift.
    destruct (match call_filter f source name st c [] with Err e => _ | r => r end); reflexivity.
  - unfold err_render; now destruct (build_pretty _ _).
Qed.

(** ** Statements *)
Section Stmts.
Variable inc : option rend.
(** What is known about included templates. *)
Hypothesis Hinc :
  match inc with
  | None => (maxd < N.of_nat (2 + length rest))%N
  | Some run => (N.of_nat (2 + length rest) <= maxd)%N /\
     forall t' nm pc hs' st0 st hist K,
     named inner t' ->
     st = (if hs' : bool then match st with c :: _ => c :: FrBoundary :: st0 | [] => [] end else st0) ->
     (hs' = true -> exists c, st = FrScope c :: FrBoundary :: st0) ->
     (forall h, oks (run t' nm st hist) h -> runs pc st0 None h (K h)) ->
     loop_runs (mkact t' nm 0 hs' :: mkact t tname pc hs :: rest) st hist (rbind (run t' nm st hist) K)
  end.

Notation s_stmt := (s_stmt inner inc source tname).
Notation s_scope := (s_scope inner inc source tname).

Definition stmt_sim (s : stmt) : Prop := stmt_ok source s -> forall off st hist K, code_at off (cstmt off s) ->
  (forall h, oks (s_stmt s st hist) h -> runs (off + length (cstmt off s)) st None h (K h)) ->
  runs off st None hist (rbind (s_stmt s st hist) K).

Lemma runs_scope l : Forall stmt_sim l -> Forall (stmt_ok source) l -> forall off st hist K, code_at off (cscope off l) ->
  (forall h, oks (s_scope l st hist) h -> runs (off + length (cscope off l)) st None h (K h)) ->
  runs off st None hist (rbind (s_scope l st hist) K).
Proof.
  induction 1 as [|s l Hs Hl IH]; intros Hok off st hist K Hc H.
  - cbn [RenderSpec.s_scope rbind]. cbn [cscope length] in H. rewrite Nat.add_0_r in H. now apply H.
  - inversion Hok; subst. cbn [cscope] in *. apply code_at_app in Hc as [Hc1 Hc2].
    cbn [RenderSpec.s_scope]. rewrite rbind_assoc. apply Hs; auto. intros h Hh.
    apply IH; auto. intros h' Hh'. rewrite app_length, Nat.add_assoc in H. apply H.
    cbn [RenderSpec.s_scope]. apply oks_rbind. eauto.
Qed.

Lemma s_stmt_if n c thn els st hist : s_stmt (SIf n c thn els) st hist =
    (let% v := here (s_expr inner source st c) in
    if xorb n (as_bool (cow_val v)) then s_scope thn st hist
    else match els with Some l => s_scope l st hist | None => RRet (Ok hist) end).
Proof. reflexivity. Qed.
Lemma s_stmt_for vars e body st hist : s_stmt (SFor vars e body) st hist =
    (let% c := here (s_expr inner source st e) in
    let% sp := here (expr_span e) in
    let% frs := here (s_loop source vars c sp) in
    s_each (s_scope body) st frs hist).
Proof. reflexivity. Qed.
Lemma s_stmt_with e name body st hist : s_stmt (SWith e name body) st hist =
    (let% c := here (s_expr inner source st e) in
    s_scope body (FrVar name c :: st) hist).
Proof. reflexivity. Qed.

Lemma s_loop_new vars c sp :
  s_loop source vars c sp =
  let* l := loop_new source vars c sp in
  Ok (match l with
      | LList o i n iter _ => list_frames o i n iter
      | LMap o k v n iter _ => map_frames o k v n iter
      end).
Proof.
  unfold s_loop, loop_new. destruct (cow_val c), vars; try (unfold err_render; now destruct (build_pretty _ _)).
  - now destruct (index_span _ _).
  - destruct (index_span source (id_span key)); auto. cbn [bind]. now destruct (index_span _ _).
Qed.

(** The frames of the iterations still to come. *)
Definition rem_frames (l : loop_state) : list frame :=
  match l with
  | LList o i n iter _ => list_frames o i n iter
  | LMap o k v n iter _ => map_frames o k v n iter
  end.

Lemma runs_each body j off st :
  (forall fr st h K, code_at off (cscope off body) ->
     (forall h', oks (s_scope body (fr :: st) h) h' -> runs (off + length (cscope off body)) (fr :: st) None h' (K h')) ->
     runs off (fr :: st) None h (rbind (s_scope body (fr :: st) h) K)) ->
  off = j + 1 ->
  code_at j (ILoopNext (Some (off + length (cscope off body) + 1)) :: cscope off body ++ [IJump (Some j)]) ->
  forall l frs, frs = rem_frames l -> forall hist K,
  (forall h, oks (s_each (s_scope body) st frs hist) h -> runs (off + length (cscope off body) + 1) st None h (K h)) ->
  runs j (FrLoop l :: st) None hist (rbind (s_each (s_scope body) st frs hist) K).
Proof.
  intros Hbody Eoff Hcode l frs. pose proof Hcode as Hcode'.
  apply code_at_cons in Hcode' as [E Hc]. apply code_at_app in Hc as [Hcb Hcj]. apply code_at_cons in Hcj as [Ej _].
  rewrite <- Eoff in *. revert l. induction frs as [|fr frs IH]; intros l El hist K H.
  - cbn [s_each rbind]. eapply runs_go; [exact E| |].
    + cbn [exec_instr last_loop_state lift rbind]. destruct l as [o i n [|x iter] cur|o k v n [|x iter] cur]; try discriminate;
      cbn [iterate pop_loop_state lift rbind jump]; reflexivity.
    + cbn [after]. now apply H.
  - assert (exists l', iterate l = Some l' /\ fr = FrLoop l' /\ frs = rem_frames l') as (l' & Hi & -> & ->).
    { destruct l as [o i n [|x iter] cur|o k v n [|x iter] cur]; try discriminate; cbn [rem_frames list_frames map_frames] in El;
      injection El as -> ->; eexists; cbn [iterate]; repeat split. }
    eapply runs_go; [exact E| |].
    { cbn [exec_instr last_loop_state lift rbind]. rewrite Hi. cbn [tl]. reflexivity. }
    cbn [after]. rewrite <- Eoff. cbn [s_each] in *. rewrite rbind_assoc. apply Hbody; auto. intros h' Hh'.
    eapply runs_go; [exact Ej|reflexivity|]. cbn [after]. apply IH; auto.
    intros h2 Hh2. apply H. apply oks_rbind. eauto.
Qed.

Lemma provided_find name hist t' h' : s_find inner source name hist = Ok (t', h') -> named inner t'.
Proof.
  unfold s_find, named. destruct (ri_template_fn inner) as [f|] eqn:Ef.
  - destruct (f hist (as_name name)) as [t0|r] eqn:E; [|unfold err_render; destruct (build_pretty _ _); discriminate].
    injection 1 as <- <-. left. eauto.
  - destruct (map_get _ _) as [t0|] eqn:E; [|unfold err_render; destruct (build_pretty _ _); discriminate].
    injection 1 as <- <-. right. eauto.
Qed.

Lemma stops_include name pc st0 w (st : stack) hist K :
  st = match w with Some c => FrScope c :: FrBoundary :: st0 | None => st0 end ->
  (forall h, oks (let% (t', hist) := here (s_find inner source name hist) in
    match inc with
    | None => lift (err_max_include_depth maxd)
    | Some run => run t' (Some (as_name name)) st hist
    end) h -> runs pc st0 None h (K h)) ->
  stops_with (match w with Some c => RsIncludeWith name c | None => RsInclude name end) pc st0 hist
    (rbind (let% (t', hist) := here (s_find inner source name hist) in
    match inc with
    | None => lift (err_max_include_depth maxd)
    | Some run => run t' (Some (as_name name)) st hist
    end) K).
Proof.
  intros Est H. rewrite rbind_assoc. unfold stops_with.
  assert (Ec : forall f, cont f t tname hs rest hist (match w with Some c => RsIncludeWith name c | None => RsInclude name end, pc, st0) =
    (let% (t', hist) := here (s_find inner source name hist) in
     if (maxd <? N.of_nat (length (mkact t' (Some (as_name name)) 0 (match w with Some _ => true | None => false end) :: mkact t tname pc hs :: rest)))%N
      then lift (err_max_include_depth maxd)
      else render_loop inner f (mkact t' (Some (as_name name)) 0 (match w with Some _ => true | None => false end) :: mkact t tname pc hs :: rest) st hist)).
  { intros f. rewrite Est. unfold cont. change (s_find inner source name hist) with (get_template inner source name hist).
    unfold here, lift. destruct w; destruct (get_template inner source name hist) as [[t' h']| | |]; reflexivity. }
  destruct (s_find inner source name hist) as [[t' h']|er| |] eqn:Ef.
  2-4: exists 0; intros f _; rewrite Ec; reflexivity.
  assert (Hp := provided_find _ _ _ _ Ef).
  set (hw := match w with Some _ => true | None => false end) in *.
  cbn [here name_err lift rmap_err rbind] in H, Ec |- *.
  destruct inc as [run|].
  - destruct Hinc as (Hle & Hrun).
    destruct (Hrun t' (Some (as_name name)) pc hw st0 st h' K Hp) as (n & Hn).
    { unfold hw. destruct w; subst st; reflexivity. }
    { unfold hw. destruct w; intros; [eauto|discriminate]. }
    { exact H. }
    exists n. intros f Hf. rewrite Ec. cbn [length] in *.
    replace (maxd <? N.of_nat (S (S (length rest))))%N with false by (symmetry; apply N.ltb_ge; lia).
    now apply Hn.
  - exists 0. intros f _. rewrite Ec. cbn [length] in *.
    replace (maxd <? N.of_nat (S (S (length rest))))%N with true by (symmetry; apply N.ltb_lt; lia).
    reflexivity.
Qed.

Lemma sim s : stmt_sim s.
Proof.
  induction s as [sp|e sp|n g|n c thn els Ht He|v e b Hb|e n b Hb] using stmt_ind'; intros Hok off st hist K Hc H.
  - cbn [cstmt length] in *. apply code_at_cons in Hc as [E _]. cbn [RenderSpec.s_stmt] in *.
    rewrite rbind_assoc. cbn [rbind].
    assert (Ex : exec_instr inner t (IEmitRaw sp) off st None = rbind (lift (index_span source sp)) (fun raw =>
      RWrite raw (RRet (Ok (NGo (off + 1) st None))) (RRet (Err mk_fmt_error)))) by reflexivity.
    pose proof (runs_instr off st None hist (IEmitRaw sp) (fun _ => K hist) E) as R. rewrite Ex in R.
    unfold RenderSpec.here in *.
    destruct (index_span source sp) as [raw|er| |]; cbn in R |- *.
    + apply R. intros nx [<-|[]]. apply H. now left.
    + apply R. intros ? [].
    + apply R. intros ? [].
    + apply R. intros ? [].
  - cbn [cstmt] in *. cbn [RenderSpec.s_stmt] in *. inversion Hok; subst. rewrite rbind_assoc. cbn [rbind].
    apply runs_inline; auto. intros Ho. apply H. apply oks_rbind. exists tt. split; [now apply oks_name_err|reflexivity].
  - destruct g as [g|]; cbn [cstmt RenderSpec.s_stmt] in *.
    + apply code_at_app in Hc as [Hc1 Hc2]. apply code_at_cons in Hc2 as [E _]. inversion Hok; subst.
      rewrite !rbind_assoc. apply runs_expr; auto. intros c Ec. cbn [rbind].
      eapply runs_go; [exact E|reflexivity|]. cbn [after].
      apply (stops_include n _ st (Some c)); auto. intros h Hh. rewrite app_length in H. cbn [length] in H. rewrite Nat.add_assoc in H.
      apply H. rewrite Ec. exact Hh.
    + apply code_at_cons in Hc as [E _]. cbn [rbind] in *.
      eapply runs_go; [exact E|reflexivity|]. cbn [after]. apply (stops_include n _ st None); auto.
  - rewrite s_stmt_if in *. rewrite rbind_assoc.
    assert (Hsc : forall l, Forall stmt_sim l -> Forall (stmt_ok source) l -> forall o h k, code_at o (cscope o l) ->
      (forall h', oks (s_scope l st h) h' -> runs (o + length (cscope o l)) st None h' (k h')) ->
      runs o st None h (rbind (s_scope l st h) k)) by (intros; now apply runs_scope).
    destruct els as [els|].
    + rewrite cstmt_if_else in *. cbv zeta in *.
      inversion Hok as [| | | | |? ? ? ? K1 K2 K3| |]; subst.
      apply code_at_app in Hc as [Hc1 Hc]. apply code_at_cons in Hc as [E Hc].
      apply code_at_app in Hc as [Hct Hc]. apply code_at_cons in Hc as [Ej Hce].
      apply runs_expr; auto. intros c' Ec.
      set (o1 := off + length (cexpr c) + 1) in *. set (ct := cscope o1 thn) in *.
      set (ce := cscope (o1 + length ct + 1) els) in *.
      assert (Hend : off + length (cexpr c ++ (if n then IJumpIfTrue (Some (o1 + length ct + 1)) else IJumpIfFalse (Some (o1 + length ct + 1)))
         :: ct ++ IJump (Some (o1 + length ct + 1 + length ce)) :: ce) = o1 + length ct + 1 + length ce).
      { unfold o1. rewrite !app_length. cbn [length]. rewrite app_length. cbn [length]. lia. }
      rewrite Hend in H. rewrite Ec in H. cbn [RenderSpec.here name_err lift rmap_err rbind] in H.
      destruct (xorb n (as_bool (cow_val c'))) eqn:Ex.
      * eapply runs_go; [exact E| |].
        { destruct n; cbn [exec_instr unwrap lift rbind]; destruct (as_bool (cow_val c')); try discriminate; reflexivity. }
        cbn [after]. apply Hsc; auto. intros h Hh. eapply runs_go; [exact Ej|reflexivity|]. cbn [after]. now apply H.
      * eapply runs_go; [exact E| |].
        { destruct n; cbn [exec_instr unwrap lift rbind]; destruct (as_bool (cow_val c')); try discriminate; reflexivity. }
        cbn [after]. apply Hsc; auto.
    + rewrite cstmt_if in *. cbv zeta in *.
      inversion Hok as [| | | |? ? ? K1 K2| | |]; subst.
      apply code_at_app in Hc as [Hc1 Hc]. apply code_at_cons in Hc as [E Hct].
      apply runs_expr; auto. intros c' Ec.
      set (o1 := off + length (cexpr c) + 1) in *. set (ct := cscope o1 thn) in *.
      assert (Hend : off + length (cexpr c ++ (if n then IJumpIfTrue (Some (o1 + length ct)) else IJumpIfFalse (Some (o1 + length ct)))
         :: ct) = o1 + length ct).
      { unfold o1. rewrite !app_length. cbn [length]. lia. }
      rewrite Hend in H. rewrite Ec in H. cbn [RenderSpec.here name_err lift rmap_err rbind] in H.
      destruct (xorb n (as_bool (cow_val c'))) eqn:Ex.
      * eapply runs_go; [exact E| |].
        { destruct n; cbn [exec_instr unwrap lift rbind]; destruct (as_bool (cow_val c')); try discriminate; reflexivity. }
        cbn [after]. apply Hsc; auto.
      * eapply runs_go; [exact E| |].
        { destruct n; cbn [exec_instr unwrap lift rbind]; destruct (as_bool (cow_val c')); try discriminate; reflexivity. }
        cbn [after rbind]. apply H. reflexivity.
  - rewrite s_stmt_for in *. rewrite cstmt_for in *. cbv zeta in *.
    inversion Hok as [| | | | | |? ? ? K1 K2 K3|]; subst. destruct (expr_span_total (E := error) source e K2) as (sp & Es).
    assert (Eo : span_or e = sp) by (unfold span_or; now rewrite Es). rewrite Es, Eo in *.
    apply code_at_app in Hc as [Hc1 Hc]. apply code_at_cons in Hc as [E Hc].
    rewrite !rbind_assoc. apply runs_expr; auto. intros c Ec. rewrite Ec in H.
    rewrite !here_ok in H. rewrite rbind_assoc, here_ok. rewrite s_loop_new in *. rewrite rbind_assoc, here_bind.
    eapply runs_lift with (nx := fun l => NGo (off + length (cexpr e) + 1) (FrLoop l :: st) None); [exact E|reflexivity|].
    intros l El. rewrite El in H. cbn [bind] in H. cbn [RenderSpec.here name_err lift rmap_err rbind] in H.
    cbn [after RenderSpec.here name_err lift rmap_err rbind].
    apply (runs_each b (off + length (cexpr e) + 1) (off + length (cexpr e) + 1 + 1) st).
    + intros fr st' h k Hcb Hk. apply runs_scope; auto.
    + reflexivity.
    + exact Hc.
    + destruct l; reflexivity.
    + intros h Hh. specialize (H h Hh). rewrite app_length in H. cbn [length] in H. rewrite app_length in H. cbn [length] in H.
      match goal with HH : runs ?x _ _ _ _ |- runs ?y _ _ _ _ => replace y with x by lia; exact HH end.
  - rewrite s_stmt_with in *. rewrite cstmt_with in *. cbv zeta in *.
    inversion Hok as [| | | | | | |? ? ? K1 K2 K3]; subst.
    apply code_at_app in Hc as [Hc1 Hc]. apply code_at_cons in Hc as [E Hc]. apply code_at_app in Hc as [Hcb Hc].
    apply code_at_cons in Hc as [Ee _].
    rewrite rbind_assoc. apply runs_expr; auto. intros c Ec. rewrite Ec in H.
    cbn [RenderSpec.here name_err lift rmap_err rbind] in H |- *.
    eapply runs_go; [exact E|reflexivity|]. cbn [after]. apply runs_scope; auto. intros h Hh.
    eapply runs_go; [exact Ee|reflexivity|]. cbn [after].
    specialize (H h Hh). rewrite app_length in H. cbn [length] in H. rewrite app_length in H. cbn [length] in H.
    match goal with HH : runs ?x _ _ _ _ |- runs ?y _ _ _ _ => replace y with x by lia; exact HH end.
Qed.
End Stmts.
End One.

(** ** Whole templates *)

Lemma done t tname hs rest st0 st h tree :
  rest = [] \/ (N.of_nat (1 + length rest) <= maxd)%N ->
  (if hs : bool then exists c, st = FrScope c :: FrBoundary :: st0 else st = st0) ->
  loop_runs rest st0 h tree -> runs t tname hs rest (length (t_instrs t)) st None h tree.
Proof.
  intros Hrest Hst (n & Hn). exists (S n). intros f g Hf Hg. destruct g as [|g]; [lia|].
  unfold mid. cbn [render_one].
  replace (nth_error (t_instrs t) (length (t_instrs t))) with (@None instr) by (symmetry; apply nth_error_None; lia).
  rewrite Nat.eqb_refl. cbn [name_err rmap_err rbind cont ac_has_scope].
  assert (Hm : (maxd <? N.of_nat (length rest))%N = false) by (apply N.ltb_ge; destruct Hrest as [->|]; cbn [length] in *; lia).
  destruct hs.
  - destruct Hst as (c & ->). cbn [pop_scope pop_boundary lift rbind]. rewrite Hm. apply Hn. lia.
  - subst st0. cbn [rbind]. rewrite Hm. apply Hn. lia.
Qed.
Hypothesis Hsourced : forall t, named inner t -> sourced t.

Lemma loop_of_runs t tname hs rest pc st hist tree :
  runs t tname hs rest pc st None hist tree -> loop_runs (mkact t tname pc hs :: rest) st hist tree.
Proof.
  intros (n & Hn). exists (S n). intros f Hf. destruct f as [|f]; [lia|]. rewrite render_loop_S. apply Hn; lia.
Qed.

(** The tree of statements rendered [d] includes above the limit. *)
Definition s_part (d : nat) (source : str) (tname : option str) (l : scope) (st : stack) (hist : list str) : rt (list str) :=
  s_scope inner (match d with 0 => None | S d' => Some (s_template inner ast_of d') end) source tname l st hist.

Lemma template_sim d : forall t l tname hs rest st0 st hist K,
  t_instrs t = cscope 0 l -> Forall (stmt_ok (t_source t)) l ->
  d = N.to_nat maxd - (1 + length rest) ->
  rest = [] \/ (N.of_nat (1 + length rest) <= maxd)%N ->
  (if hs : bool then exists c, st = FrScope c :: FrBoundary :: st0 else st = st0) ->
  (forall h, oks (s_part d (t_source t) tname l st hist) h -> loop_runs rest st0 h (K h)) ->
  loop_runs (mkact t tname 0 hs :: rest) st hist (rbind (s_part d (t_source t) tname l st hist) K).
Proof.
  induction d as [|d IH]; intros t l tname hs rest st0 st hist K Ecode Hok Hd Hrest Hst H; apply loop_of_runs.
  - unfold s_part in *.
    apply (runs_scope t tname hs rest None l); auto.
    + apply Forall_forall. intros s _. apply sim. lia.
    + exists [], []. rewrite Ecode. cbn [app]. now rewrite app_nil_r.
    + intros h Hh. rewrite <- Ecode. apply (done t tname hs rest st0); auto.
  - unfold s_part in *.
    apply (runs_scope t tname hs rest (Some (s_template inner ast_of d)) l); auto.
    + apply Forall_forall. intros s _. apply sim. split; [lia|].
      intros t' nm pc hs' st1 st' hist' K' Hp' Hst1 Hst2 HK. destruct (Hsourced t' Hp') as (E' & Hok').
      replace (s_template inner ast_of d t' nm st' hist') with (s_part d (t_source t') nm (ast_of t') st' hist') in * by (now destruct d).
      apply (IH t' (ast_of t') nm hs' (mkact t tname pc hs :: rest) st1); auto.
      * cbn [length]. lia.
      * right. cbn [length]. lia.
      * destruct hs'; auto.
      * intros h Hh. apply loop_of_runs. now apply HK.
    + exists [], []. rewrite Ecode. cbn [app]. now rewrite app_nil_r.
    + intros h Hh. rewrite <- Ecode. apply (done t tname hs rest st0); auto.
Qed.

(** Rendering is the interpretation, also for a root given by its statements. *)
Theorem render_part l st : t_instrs (ri_template inner) = cscope 0 l -> Forall (stmt_ok (t_source (ri_template inner))) l ->
  exists n, forall fuel, n <= fuel -> render inner fuel st =
    (let% _ := s_part (N.to_nat maxd - 1) (t_source (ri_template inner)) (ri_template_name inner) l st [] in RRet (Ok tt)).
Proof.
  intros E Hok.
  apply (template_sim _ (ri_template inner) l (ri_template_name inner) false [] st st [] (fun _ => RRet (Ok tt))); auto.
  intros h _. exists 0. intros f _. now destruct f.
Qed.
Theorem render_spec st : sourced (ri_template inner) -> exists n, forall fuel, n <= fuel -> render inner fuel st = s_render inner ast_of st.
Proof.
  intros (E & Hok). destruct (render_part (ast_of (ri_template inner)) st E Hok) as (n & H). exists n. intros fuel Hf. rewrite H by auto.
  unfold s_render, s_part. now destruct (N.to_nat maxd - 1).
Qed.
End RenderProof.
