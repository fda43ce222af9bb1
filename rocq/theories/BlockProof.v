(** Proofs about blocks. *)
From Verif Require Import Base Utf8 Ext Errors Syntax AhoCorasick SearchSpec SyntaxSpec Value Ast Lexer LexSpec Wp
  GrammarSpec Parser AstOk Compiler CompileProof ParseMain Fmt Stack Filters Render Engine EngineSpec CompileFacts
  RenderSpec RenderProof RenderErr MapFacts RenderMain RenderObs StackRel Parts IncludeFacts LookupSpec LookupProof BlockSpec.
From Coq Require Import Floats.SpecFloat.

Lemma as_bool_falsy v : as_bool v = false <-> falsy v.
Proof.
  split.
  - destruct v as [|[]|[]|[]|[]|[]|[]]; cbn; intros H; try discriminate H; constructor.
  - now destruct 1.
Qed.
Lemma as_bool_truthy v : as_bool v = true <-> ~ falsy v.
Proof. rewrite <- as_bool_falsy. destruct (as_bool v); intuition congruence. Qed.

Section Block.
Context `{X : Ext}.
Variable source : str.

Lemma lookup_index_key item v fr : written source v [item] -> exists m id, v = [m] /\ mb_access m = AKey id /\ @index_span error source (id_span id) = Ok item /\ fr = fr :> frame.
Proof. inversion 1 as [|m k ms ks (id & E & Ek) Hr]; subst. inversion Hr; subst. eauto 8. Qed.
Lemma list_frame_iteration o item next iter k n x st : item <> s2b "loop" -> S k + length iter = n ->
  list_iteration item source st (FrLoop (LList o item next iter (Some (k, x)))) k n x.
Proof.
  intros Hi Hn.
  assert (Hl : (length iter =? 0) = (S k =? n)) by (destruct (length iter =? 0) eqn:E1, (S k =? n) eqn:E2; auto;
    [apply Nat.eqb_eq in E1; apply Nat.eqb_neq in E2; lia|apply Nat.eqb_neq in E1; apply Nat.eqb_eq in E2; lia]).
  assert (F : forall f v, written source v [s2b "loop"; f] -> exists m1 m2 i1 i2, v = [m1; m2] /\ mb_access m1 = AKey i1 /\ mb_access m2 = AKey i2 /\
    @index_span error source (id_span i1) = Ok (s2b "loop") /\ @index_span error source (id_span i2) = Ok f).
  { intros f v H. inversion H as [|m1 k1 ms ks (i1 & E1 & F1) Hr]; subst. inversion Hr as [|m2 k2 ms2 ks2 (i2 & E2 & F2) Hr2]; subst.
    inversion Hr2; subst. exists m1, m2, i1, i2. auto. }
  split; intros v.
  - intros Hv. destruct (lookup_index_key _ _ FrBoundary Hv) as (m & id & -> & Ea & Ei & _). exists (mk_cow o x). split; [|now destruct o].
    cbn [lookup_var]. unfold loop_lookup_var. cbn [var_first hd_error unwrap bind]. rewrite Ea, Ei. cbn [bind].
    rewrite (str_eqb_ne item (s2b "loop") Hi), str_eqb_refl. reflexivity.
  - intros Hv. destruct (F _ _ Hv) as (m1 & m2 & i1 & i2 & -> & E1 & E2 & F1 & F2). cbn [lookup_var]. unfold loop_lookup_var.
    cbn [var_first hd_error unwrap bind]. rewrite E1, F1. cbn [bind]. rewrite str_eqb_refl. unfold lookup_loop. cbn [current_index_and_rem].
    rewrite E2, F2. reflexivity.
  - intros Hv. destruct (F _ _ Hv) as (m1 & m2 & i1 & i2 & -> & E1 & E2 & F1 & F2). cbn [lookup_var]. unfold loop_lookup_var.
    cbn [var_first hd_error unwrap bind]. rewrite E1, F1. cbn [bind]. rewrite str_eqb_refl. unfold lookup_loop. cbn [current_index_and_rem].
    rewrite E2, F2. reflexivity.
  - intros Hv. destruct (F _ _ Hv) as (m1 & m2 & i1 & i2 & -> & E1 & E2 & F1 & F2). cbn [lookup_var]. unfold loop_lookup_var.
    cbn [var_first hd_error unwrap bind]. rewrite E1, F1. cbn [bind]. rewrite str_eqb_refl. unfold lookup_loop. cbn [current_index_and_rem].
    rewrite E2, F2. cbn [bind]. rewrite Hl. reflexivity.
  - intros name (m & ms & -> & (id & Ea & Ei)) H1 H2. cbn [lookup_var]. unfold loop_lookup_var. cbn [var_first hd_error unwrap bind].
    rewrite Ea, Ei. cbn [bind]. now rewrite (str_eqb_ne name (s2b "loop") H2), (str_eqb_ne name item H1).
Qed.
Lemma map_frame_iteration o kn vn next iter k n x st : kn <> s2b "loop" -> vn <> s2b "loop" -> S k + length iter = n ->
  map_iteration kn vn source st (FrLoop (LMap o kn vn next iter (Some (k, x)))) k n x.
Proof.
  intros Hk Hv0 Hn.
  assert (Hl : (length iter =? 0) = (S k =? n)) by (destruct (length iter =? 0) eqn:E1, (S k =? n) eqn:E2; auto;
    [apply Nat.eqb_eq in E1; apply Nat.eqb_neq in E2; lia|apply Nat.eqb_neq in E1; apply Nat.eqb_eq in E2; lia]).
  assert (F : forall f v, written source v [s2b "loop"; f] -> exists m1 m2 i1 i2, v = [m1; m2] /\ mb_access m1 = AKey i1 /\ mb_access m2 = AKey i2 /\
    @index_span error source (id_span i1) = Ok (s2b "loop") /\ @index_span error source (id_span i2) = Ok f).
  { intros f v H. inversion H as [|m1 k1 ms ks (i1 & E1 & F1) Hr]; subst. inversion Hr as [|m2 k2 ms2 ks2 (i2 & E2 & F2) Hr2]; subst.
    inversion Hr2; subst. exists m1, m2, i1, i2. auto. }
  destruct x as [key value]. cbn [fst snd].
  split; intros v.
  - intros Hv. destruct (lookup_index_key _ _ FrBoundary Hv) as (m & id & -> & Ea & Ei & _). exists (Owned (VStr key)). split; [|reflexivity].
    cbn [lookup_var]. unfold loop_lookup_var. cbn [var_first hd_error unwrap bind]. rewrite Ea, Ei. cbn [bind].
    rewrite (str_eqb_ne kn (s2b "loop") Hk), str_eqb_refl. reflexivity.
  - intros Hkv Hv. destruct (lookup_index_key _ _ FrBoundary Hv) as (m & id & -> & Ea & Ei & _). exists (mk_cow o value). split; [|now destruct o].
    cbn [lookup_var]. unfold loop_lookup_var. cbn [var_first hd_error unwrap bind]. rewrite Ea, Ei. cbn [bind].
    rewrite (str_eqb_ne vn (s2b "loop") Hv0), (str_eqb_ne vn kn), str_eqb_refl by congruence. reflexivity.
  - intros Hv. destruct (F _ _ Hv) as (m1 & m2 & i1 & i2 & -> & E1 & E2 & F1 & F2). cbn [lookup_var]. unfold loop_lookup_var.
    cbn [var_first hd_error unwrap bind]. rewrite E1, F1. cbn [bind]. rewrite str_eqb_refl. unfold lookup_loop. cbn [current_index_and_rem].
    rewrite E2, F2. reflexivity.
  - intros Hv. destruct (F _ _ Hv) as (m1 & m2 & i1 & i2 & -> & E1 & E2 & F1 & F2). cbn [lookup_var]. unfold loop_lookup_var.
    cbn [var_first hd_error unwrap bind]. rewrite E1, F1. cbn [bind]. rewrite str_eqb_refl. unfold lookup_loop. cbn [current_index_and_rem].
    rewrite E2, F2. reflexivity.
  - intros Hv. destruct (F _ _ Hv) as (m1 & m2 & i1 & i2 & -> & E1 & E2 & F1 & F2). cbn [lookup_var]. unfold loop_lookup_var.
    cbn [var_first hd_error unwrap bind]. rewrite E1, F1. cbn [bind]. rewrite str_eqb_refl. unfold lookup_loop. cbn [current_index_and_rem].
    rewrite E2, F2. cbn [bind]. rewrite Hl. reflexivity.
  - intros name (m & ms & -> & (id & Ea & Ei)) H1 H2 H3. cbn [lookup_var]. unfold loop_lookup_var. cbn [var_first hd_error unwrap bind].
    rewrite Ea, Ei. cbn [bind]. now rewrite (str_eqb_ne name (s2b "loop") H3), (str_eqb_ne name kn H1), (str_eqb_ne name vn H2).
Qed.

Lemma list_frames_nth o i l : forall j, length (list_frames o i j l) = length l /\
  forall k x, nth_error l k = Some x -> exists iter, nth_error (list_frames o i j l) k = Some (FrLoop (LList o i (S (j + k)) iter (Some (j + k, x)))) /\
    S k + length iter = length l.
Proof.
  induction l as [|y l IH]; intros j; cbn [list_frames length]; [split; auto; intros [|k] x; discriminate|].
  destruct (IH (S j)) as (H1 & H2). split; [now rewrite H1|]. intros [|k] x H; cbn [nth_error] in *.
  - injection H as ->. exists l. rewrite Nat.add_0_r. auto.
  - destruct (H2 k x H) as (iter & E & E'). exists iter. rewrite E. replace (j + S k) with (S j + k) by lia. split; auto; lia.
Qed.
Lemma map_frames_nth o kn vn l : forall j, length (map_frames o kn vn j l) = length l /\
  forall k x, nth_error l k = Some x -> exists iter, nth_error (map_frames o kn vn j l) k = Some (FrLoop (LMap o kn vn (S (j + k)) iter (Some (j + k, x)))) /\
    S k + length iter = length l.
Proof.
  induction l as [|y l IH]; intros j; cbn [map_frames length]; [split; auto; intros [|k] x; discriminate|].
  destruct (IH (S j)) as (H1 & H2). split; [now rewrite H1|]. intros [|k] x H; cbn [nth_error] in *.
  - injection H as ->. exists l. rewrite Nat.add_0_r. auto.
  - destruct (H2 k x H) as (iter & E & E'). exists iter. rewrite E. replace (j + S k) with (S j + k) by lia. split; auto; lia.
Qed.

Variable inner : renderer_inner.
Variable origin : template -> syntax.
Hypothesis Hlib : library inner origin.
Notation d0 := (N.to_nat (max_include_depth inner) - 1).
Notation part := (s_part inner (lib_ast origin) d0 source (ri_template_name inner)).

Lemma part_cons s l st h : part (s :: l) st h = rbind (part [s] st h) (fun h => part l st h).
Proof. change (s :: l) with ([s] ++ l). apply part_app. Qed.
Lemma part_one s st h : part [s] st h =
  s_stmt inner (match d0 with 0 => None | S d' => Some (s_template inner (lib_ast origin) d') end) source (ri_template_name inner) s st h.
Proof.
  unfold s_part. cbn [s_scope]. 
  assert (K : forall x : rt (list str), (let% h := x in RRet (Ok h)) = x).
  { intros x. induction x as [[]|s0 o IHo e IHe]; cbn [rbind]; auto. now rewrite IHo, IHe. }
  apply K.
Qed.

(** Errors of the rendered template carry its name. *)
Definition titled (e : error) : error := match ri_template_name inner with Some n => with_template_name e n | None => e end.

Lemma chain_eq n c body more els : chain (n, c, body) more els = SIf n c body (match more with [] => els | b' :: more' => Some [chain b' more' els] end).
Proof. now destruct more. Qed.
Lemma chain_part st bs els r : selects (s_expr inner source st) bs els r -> forall b more, bs = b :: more -> forall h,
  part [chain b more els] st h = match r with Chosen l => part l st h | Failed e => RRet (Err (titled e)) | Crashed => RRet Panic end.
Proof.
  induction 1 as [c body bs els v E F|c body bs els v E F|c body bs els v r E F Hs IH|c body bs els v r E F Hs IH|n c body bs els e E|n c body bs els E|l|];
  intros b more Eq h; try discriminate; injection Eq as <- <-; rewrite part_one, chain_eq; cbn [s_stmt]; rewrite E, ?here_ret; cbn beta iota.
  - apply as_bool_truthy in F. rewrite F. reflexivity.
  - apply as_bool_falsy in F. rewrite F. reflexivity.
  - apply as_bool_falsy in F. rewrite F. cbn [xorb]. destruct bs as [|b' more'].
    + inversion Hs; subst; reflexivity.
    + change (part [chain b' more' els] st h = match r with Chosen l => part l st h | Failed e => RRet (Err (titled e)) | Crashed => RRet Panic end). now apply IH.
  - apply as_bool_truthy in F. rewrite F. cbn [xorb]. destruct bs as [|b' more'].
    + inversion Hs; subst; reflexivity.
    + change (part [chain b' more' els] st h = match r with Chosen l => part l st h | Failed e => RRet (Err (titled e)) | Crashed => RRet Panic end). now apply IH.
  - reflexivity.
  - reflexivity.
Qed.
Lemma selects_ok st bs els l : selects (s_expr inner source st) bs els (Chosen l) -> forall b more, bs = b :: more -> stmt_ok source (chain b more els) ->
  Forall (stmt_ok source) l.
Proof.
  intros H. remember (Chosen l) as r eqn:Er. induction H as [c body bs els v E F|c body bs els v E F|c body bs els v r E F Hs IH|c body bs els v r E F Hs IH|n c body bs els e E|n c body bs els E|l0|];
  try discriminate; intros b more Eq Hok; try discriminate; injection Eq as <- <-; rewrite chain_eq in Hok.
  - injection Er as <-. inversion Hok; auto.
  - injection Er as <-. inversion Hok; auto.
  - destruct bs as [|b' more'].
    + subst. inversion Hs; subst; [inversion Hok; auto|constructor].
    + inversion Hok; subst. eapply IH; eauto. match goal with H : Forall _ [_] |- _ => inversion H; auto end.
  - destruct bs as [|b' more'].
    + subst. inversion Hs; subst; [inversion Hok; auto|constructor].
    + inversion Hok; subst. eapply IH; eauto. match goal with H : Forall _ [_] |- _ => inversion H; auto end.
Qed.

(** Loops. *)
Lemma each_turns st frs body : Forall (stmt_ok source) body -> steady inner -> forall h,
  exists trees, Forall2 (fun fr tree => acts inner source body (fr :: st) tree) frs trees /\
  forget (s_each (fun st h => part body st h) st frs h) = in_turn trees.
Proof.
  intros Hok Hst. induction frs as [|fr frs IH]; intros h; cbn [s_each].
  - exists []. split; [constructor|reflexivity].
  - destruct (IH h) as (trees & H1 & H2). exists (forget (part body (fr :: st) []) :: trees). split.
    + constructor; auto. now apply acts_part.
    + cbn [in_turn fold_right]. fold (in_turn trees). unfold andthen. rewrite forget_forget. unfold forget at 1. rewrite rbind_assoc.
      rewrite <- H2.
      assert (S : forall h', forget (s_each (fun st h => part body st h) st frs h') = forget (s_each (fun st h => part body st h) st frs h)).
      { intros h'. destruct (IH h') as (trees' & H1' & H2'). rewrite H2', H2. f_equal.
        clear - H1 H1'. revert trees' H1'. induction H1 as [|fr tr frs trees Ha Hr IH]; intros trees' H'; inversion H'; subst; auto.
        f_equal; [eapply does_fun; eauto|]. now apply IH. }
      transitivity (rbind (part body (fr :: st) h) (fun _ => forget (s_each (fun st h => part body st h) st frs h))).
      { apply rbind_ext. intros h'. apply S. }
      rewrite <- (forget_forget (part body (fr :: st) h)), <- (forget_forget (part body (fr :: st) [])).
      now rewrite (steady_part inner origin Hst d0 source _ body (fr :: st) h []).
Qed.
End Block.
