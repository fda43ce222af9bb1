(** Trees produced by the parser: every span is a valid range of the source and
    every path starts with a name. *)
From Verif Require Import Base Utf8 Ext Errors Syntax AhoCorasick SearchSpec SyntaxSpec Value Ast Lexer LexSpec Wp
  GrammarSpec Parser TokStream ParseProof.

Section AstOk.
Context `{X : Ext}.
Variable source : str.
Notation sok := (span_ok source).

Definition member_ok (m : member) : Prop := sok (access_span (mb_access m)) /\ sok (mb_span m).
Definition var_ok (v : var) : Prop :=
  exists id sp ms, v = mkmember Direct (AKey id) sp :: ms /\ Forall member_ok v.
Definition base_ok (b : base_expr) : Prop :=
  match b with BVar v => var_ok v | BLit _ sp => sok sp end.
Definition args_ok (a : args) : Prop := Forall base_ok (a_values a) /\ sok (a_span a).
Definition oargs_ok (a : option args) : Prop := match a with Some a => args_ok a | None => True end.
Fixpoint expr_ok (e : expr) : Prop :=
  match e with
  | EBase b => base_ok b
  | ECall name a recv sp => sok (id_span name) /\ oargs_ok a /\ expr_ok recv /\ sok sp
  end.
Definition loop_vars_ok (v : loop_vars) : Prop :=
  match v with
  | LVItem i => sok (id_span i)
  | LVKeyValue k v sp => sok (id_span k) /\ sok (id_span v) /\ sok sp
  end.

Inductive stmt_ok : stmt -> Prop :=
| so_raw sp : sok sp -> stmt_ok (SRaw sp)
| so_inline e sp : expr_ok e -> sok sp -> stmt_ok (SInline e sp)
| so_include n : sok (as_span n) -> stmt_ok (SInclude n None)
| so_include_with n e : sok (as_span n) -> expr_ok e -> stmt_ok (SInclude n (Some e))
| so_if n c t : expr_ok c -> Forall stmt_ok t -> stmt_ok (SIf n c t None)
| so_if_else n c t e : expr_ok c -> Forall stmt_ok t -> Forall stmt_ok e -> stmt_ok (SIf n c t (Some e))
| so_for v e b : loop_vars_ok v -> expr_ok e -> Forall stmt_ok b -> stmt_ok (SFor v e b)
| so_with e n b : expr_ok e -> sok (id_span n) -> Forall stmt_ok b -> stmt_ok (SWith e n b).

(** ** From derivations *)
Notation ordered := (ParseProof.ordered source).

Lemma ordered_span ts : ordered ts -> ts <> [] -> sok (span_of ts).
Proof.
  intros Ho Hn. rewrite span_of_eq. split; [now apply ordered_last with source|]. split.
  - destruct ts as [|[t s] ts]; [contradiction|]. apply ordered_tok in Ho as ((_ & H & _) & _). exact H.
  - cbn [sp_n]. assert (E := exists_last Hn). destruct E as (pre & [t s] & ->). rewrite last_n_app by discriminate.
    apply ordered_app_r in Ho. apply ordered_tok in Ho as ((_ & _ & H) & _). exact H.
Qed.
Lemma ordered_one t s ts : ordered ((t, s) :: ts) -> sok s.
Proof. intros Ho. now apply ordered_tok in Ho as (H & _). Qed.

Lemma g_access_ok ts a : g_access source ts a -> ordered ts -> sok (access_span a).
Proof. destruct 1; intros Ho; eapply ordered_one; eauto. Qed.
Lemma g_members_ok ts ms : g_members source ts ms -> ordered ts -> Forall member_ok ms.
Proof.
  assert (K : forall t s ts a ts' ms op, g_access source ts a -> (ordered ts' -> Forall member_ok ms) ->
    ordered ((t, s) :: ts ++ ts') -> Forall member_ok (mkmember op a (span_of ((t, s) :: ts)) :: ms)).
  { intros t s ts0 a ts' ms0 op Ha IH Ho. change ((t, s) :: ts0 ++ ts') with (((t, s) :: ts0) ++ ts') in Ho.
    constructor; [split|]; cbn [mb_access mb_span].
    - eapply g_access_ok; eauto. apply ordered_app_l in Ho. now apply ordered_cons in Ho.
    - apply ordered_span; [|discriminate]. now apply ordered_app_l in Ho.
    - apply IH. now apply ordered_app_r in Ho. }
  induction 1; intros Ho; auto; eapply K; eauto.
Qed.
Lemma g_base_ok ts b : g_base source ts b -> ordered ts -> base_ok b.
Proof.
  destruct 1; intros Ho; cbn [base_ok]; try (eapply ordered_one; eauto; fail).
  - exists (mkident sp), sp, ms. split; auto. constructor.
    + assert (sok sp) by (eapply ordered_one; eauto). now split.
    + eapply g_members_ok; eauto. now apply ordered_cons in Ho.
  - apply ordered_span; auto; discriminate.
  - apply ordered_span; auto; discriminate.
Qed.
Lemma g_args_ok ts bs : g_args source ts bs -> ordered ts -> Forall base_ok bs.
Proof.
  induction 1; intros Ho.
  - constructor; auto. eapply g_base_ok; eauto.
  - constructor; [eapply g_base_ok; eauto; now apply ordered_app_l in Ho|].
    apply IHg_args. apply ordered_app_r in Ho. now apply ordered_cons in Ho.
Qed.
Lemma g_expr_ok ts e : g_expr source ts e -> ordered ts -> expr_ok e.
Proof.
  induction 1 as [ts b Hb|ts e pp n He IH|ts e pp n c ts' bs He IH Ha]; intros Ho; cbn [expr_ok].
  - eapply g_base_ok; eauto.
  - split; [|split; [exact I|split]].
    + apply ordered_app_r in Ho. apply ordered_cons in Ho. eapply ordered_one; eauto.
    + apply IH. now apply ordered_app_l in Ho.
    + apply ordered_span; auto. now destruct ts.
  - assert (Ho1 := ordered_app_r source _ _ Ho). assert (Ho2 := ordered_cons source _ _ Ho1).
    assert (Ho3 := ordered_cons source _ _ Ho2).
    split; [|split; [split|split]].
    + eapply ordered_one; eauto.
    + cbn [a_values]. eapply g_args_ok; eauto. now apply ordered_cons in Ho3.
    + apply ordered_span; auto. discriminate.
    + apply IH. now apply ordered_app_l in Ho.
    + apply ordered_span; auto. now destruct ts.
Qed.
Lemma g_cond_ok ts n e : g_cond source ts n e -> ordered ts -> expr_ok e.
Proof. destruct 1; intros Ho; eapply g_expr_ok; eauto. now apply ordered_app_r in Ho. Qed.
Lemma g_vars_ok ts vs : g_vars ts vs -> ordered ts -> loop_vars_ok vs.
Proof.
  destruct 1; intros Ho; cbn [loop_vars_ok id_span]; [eapply ordered_one; eauto|].
  assert (Ho1 := ordered_cons source _ _ Ho). assert (Ho2 := ordered_cons source _ _ Ho1).
  split; [|split]; try (eapply ordered_one; eauto; fail). apply ordered_span; auto; discriminate.
Qed.
Lemma tag_inner inner t rest : tag_block inner t -> ordered (t ++ rest) -> ordered inner.
Proof.
  intros (b & e & ->) Ho. apply ordered_app_l, ordered_cons, ordered_app_l in Ho. exact Ho.
Qed.

Scheme g_stmt_mind := Minimality for g_stmt Sort Prop
  with g_scope_mind := Minimality for g_scope Sort Prop
  with g_else_mind := Minimality for g_else Sort Prop.
Combined Scheme g_mind from g_stmt_mind, g_scope_mind, g_else_mind.

Lemma g_ok :
  (forall ts s, g_stmt source ts s -> ordered ts -> stmt_ok s) /\
  (forall ts l, g_scope source ts l -> ordered ts -> Forall stmt_ok l) /\
  (forall ts e, g_else source ts e -> ordered ts -> match e with Some l => Forall stmt_ok l | None => True end).
Proof.
  assert (SP : forall a b c, ordered (a ++ b ++ c) -> ordered (a ++ []) /\ ordered b /\ ordered c).
  { intros a b c Ho. rewrite app_nil_r. split; [now apply ordered_app_l in Ho|].
    apply ordered_app_r in Ho. split; [now apply ordered_app_l in Ho|now apply ordered_app_r in Ho]. }
  apply g_mind; intros.
  - constructor. eapply ordered_one; eauto.
  - constructor; [|apply ordered_span; auto; discriminate]. eapply g_expr_ok; eauto.
    apply ordered_cons in H0. now apply ordered_app_l in H0.
  - constructor. cbn [as_span]. rewrite <- (app_nil_r t) in H2. apply (tag_inner _ _ _ H1) in H2.
    apply ordered_app_r in H2. eapply ordered_one; eauto.
  - rewrite <- (app_nil_r t) in H4. apply (tag_inner _ _ _ H3) in H4. apply ordered_app_r in H4.
    constructor; [eapply ordered_one; eauto|]. eapply g_expr_ok; eauto. apply ordered_cons in H4. now apply ordered_app_r in H4.
  - apply SP in H6 as (S1 & S2 & S3). apply (tag_inner _ _ _ H1) in S1. apply ordered_app_r in S1.
    specialize (H5 S3). destruct els; constructor; eauto using g_cond_ok.
  - apply SP in H8 as (S1 & S2 & S3). apply (tag_inner _ _ _ H3) in S1. apply ordered_app_r in S1.
    constructor; auto.
    + eapply g_vars_ok; eauto. now apply ordered_app_l in S1.
    + eapply g_expr_ok; eauto. apply ordered_app_r in S1. now apply ordered_app_r in S1.
  - apply SP in H7 as (S1 & S2 & S3). apply (tag_inner _ _ _ H2) in S1. apply ordered_app_r in S1.
    constructor; auto.
    + eapply g_expr_ok; eauto. now apply ordered_app_l in S1.
    + cbn [id_span]. do 2 apply ordered_app_r in S1. eapply ordered_one; eauto.
  - constructor.
  - apply H0. change ((TBeginComment, b) :: (TRaw, r) :: (TEndComment, e) :: ts) with ([(TBeginComment, b); (TRaw, r); (TEndComment, e)] ++ ts) in H1.
    now apply ordered_app_r in H1.
  - constructor; [apply H0; now apply ordered_app_l in H3|apply H2; now apply ordered_app_r in H3].
  - exact I.
  - apply SP in H5 as (S1 & S2 & S3). auto.
  - apply SP in H7 as (S1 & S2 & S3). apply (tag_inner _ _ _ H2) in S1. do 2 apply ordered_app_r in S1.
    constructor; auto. specialize (H6 S3). destruct els; constructor; eauto using g_cond_ok.
Qed.

Lemma base_span_total {E} b : base_ok b -> exists sp, @base_span E b = Ok sp.
Proof.
  destruct b as [v|v sp]; cbn [base_ok base_span]; [|eauto]. intros (id & sp & ms & -> & _).
  unfold var_span, var_first, var_last. cbn [hd_error unwrap bind]. cbn [rev].
  destruct (rev ms) as [|m r]; cbn; eauto.
Qed.
Lemma expr_span_total {E} e : expr_ok e -> exists sp, @expr_span E e = Ok sp.
Proof. destruct e; cbn [expr_ok expr_span]; eauto using base_span_total. Qed.
End AstOk.
