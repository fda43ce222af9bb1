(** The variables enter a rendering only through lookups: two sets of variables
    with the same lookups give the same rendering. *)
From Verif Require Import Base Utf8 Ext Errors Syntax Value Ast Wp AstOk Compiler CompileProof Fmt Stack Filters Render RenderSpec
  RenderProof.

(** The variables an expression or statement mentions. *)
Definition base_vars (b : base_expr) : list var := match b with BVar v => [v] | BLit _ _ => [] end.
Fixpoint expr_vars (e : expr) : list var :=
  match e with
  | EBase b => base_vars b
  | ECall _ a recv _ => expr_vars recv ++ flat_map base_vars (arg_list a)
  end.
Fixpoint stmt_vars (s : stmt) : list var :=
  match s with
  | SRaw _ => []
  | SInline e _ => expr_vars e
  | SInclude _ g => match g with Some e => expr_vars e | None => [] end
  | SIf _ c thn els =>
    expr_vars c ++ flat_map stmt_vars thn ++ match els with Some l => flat_map stmt_vars l | None => [] end
  | SFor _ e b => expr_vars e ++ flat_map stmt_vars b
  | SWith e _ b => expr_vars e ++ flat_map stmt_vars b
  end.

Section StackRel.
Context `{X : Ext}.
Variable inner : renderer_inner.
Variable ast_of : template -> scope.
Variable R : stack -> stack -> Prop.
(** Local variables may be added. *)
Hypothesis Hpush : forall fr st st', R st st' -> R (fr :: st) (fr :: st').

Section One.
Variable t : template.
Variable tname : option str.
Variable inc : option rend.
Notation source := (t_source t).
Hypothesis Hinc : forall run t n st st' h, inc = Some run -> named inner t -> R st st' -> run t n st h = run t n st' h.
Definition same (l : list var) : Prop := forall v st st', In v l -> R st st' -> lookup_var st source v = lookup_var st' source v.

Lemma same_app l1 l2 : same (l1 ++ l2) -> same l1 /\ same l2.
Proof. intros H. split; intros v st st' Hv; apply H; apply in_or_app; auto. Qed.

Lemma rel_args l : same (flat_map base_vars l) -> forall tys st st', R st st' -> get_args tys source st l = get_args tys source st' l.
Proof.
  induction l as [|b l IH]; intros H tys st st' Hr; destruct tys as [|ty tys]; cbn [get_args]; auto.
  cbn [flat_map] in H. apply same_app in H as [H1 H2].
  assert (E : get_arg ty source st b = get_arg ty source st' b).
  { destruct b as [v|v sp]; cbn [get_arg]; auto. rewrite (H1 v st st'); auto. now left. }
  now rewrite E, (IH H2 tys st st' Hr).
Qed.
Lemma rel_apply name l c st st' : same (flat_map base_vars l) -> R st st' -> s_apply inner source st name l c = s_apply inner source st' name l c.
Proof.
  intros H Hr. unfold s_apply. destruct (index_span source (id_span name)) as [nm| | |]; auto. cbn [bind].
  destruct (map_get nm _) as [[f|f]|]; auto. unfold call_filter. now rewrite (rel_args l H _ _ _ Hr).
Qed.
Lemma rel_expr e : same (expr_vars e) -> forall st st', R st st' -> s_expr inner source st e = s_expr inner source st' e.
Proof.
  induction e as [[v|v sp]|name a recv IH sp]; intros H st st' Hr; cbn [s_expr expr_vars base_vars] in *; auto.
  - apply H; auto. now left.
  - apply same_app in H as [H1 H2]. rewrite (IH H1 _ _ Hr). destruct (s_expr inner source st' recv) as [c| | |]; auto. cbn [bind].
    now rewrite (rel_apply name _ c _ _ H2 Hr).
Qed.
Lemma rel_inline e st st' : same (expr_vars e) -> R st st' -> s_inline inner source st e = s_inline inner source st' e.
Proof.
  intros H Hr. destruct e as [b|name [a|] recv sp].
  - unfold s_inline. now rewrite (rel_expr _ H _ _ Hr).
  - unfold s_inline. now rewrite (rel_expr _ H _ _ Hr).
  - cbn [s_inline]. cbn [expr_vars] in H. apply same_app in H as [H1 H2]. rewrite (rel_expr _ H1 _ _ Hr).
    apply rbind_ext. intros c. apply rbind_ext. intros nm. destruct (map_get nm _) as [[f|f]|]; auto.
    now rewrite (rel_apply name [] c _ _ H2 Hr).
Qed.
Notation s_stmt := (s_stmt inner inc source tname).
Notation s_scope := (s_scope inner inc source tname).
Definition stmt_rel (s : stmt) : Prop := same (stmt_vars s) -> forall st st' hist, R st st' -> s_stmt s st hist = s_stmt s st' hist.
Lemma rel_scope l : Forall stmt_rel l -> same (flat_map stmt_vars l) -> forall st st' hist, R st st' -> s_scope l st hist = s_scope l st' hist.
Proof.
  induction 1 as [|s l Hs Hl IH]; intros H st st' hist Hr; cbn [RenderSpec.s_scope]; auto.
  cbn [flat_map] in H. apply same_app in H as [H1 H2]. rewrite (Hs H1 st st' hist Hr). apply rbind_ext. intros h. now apply IH.
Qed.
Lemma rbind_ext_oks {A B} (x : rt A) (f g : A -> rt B) : (forall a, oks x a -> f a = g a) -> rbind x f = rbind x g.
Proof.
  intros H. induction x as [r|s o IHo e IHe]; [destruct r; cbn; auto; apply H; reflexivity|]. cbn [rbind].
  rewrite IHo, IHe; auto; intros a Ha; apply H; cbn [oks]; auto.
Qed.
Lemma find_named name hist t' h' : oks (here tname (s_find inner source name hist)) (t', h') -> named inner t'.
Proof.
  intros H. apply oks_name_err in H. destruct (s_find inner source name hist) as [[t0 h0]| | |] eqn:E; try contradiction.
  cbn in H. injection H as -> ->. now apply provided_find in E.
Qed.
Lemma stmt_rel_all s : stmt_rel s.
Proof.
  induction s as [sp|e sp|nm g|neg c thn els Ht He|v e b Hb|e nm b Hb] using stmt_ind'; intros H st st' hist Hr; cbn [stmt_vars] in H.
  - reflexivity.
  - cbn [RenderSpec.s_stmt]. now rewrite (rel_inline e st st' H Hr).
  - cbn [RenderSpec.s_stmt]. destruct g as [e|].
    + rewrite (rel_expr e H _ _ Hr). rewrite !rbind_assoc. apply rbind_ext. intros c. cbn [rbind].
      apply rbind_ext_oks. intros [t' h'] Ho. destruct inc as [run|] eqn:Ei; auto. apply (Hinc run); auto. now apply find_named in Ho.
    + cbn [rbind]. apply rbind_ext_oks. intros [t' h'] Ho. destruct inc as [run|] eqn:Ei; auto. apply (Hinc run); auto. now apply find_named in Ho.
  - rewrite !s_stmt_if. apply same_app in H as [H1 H]. apply same_app in H as [H2 H3]. rewrite (rel_expr c H1 _ _ Hr).
    apply rbind_ext. intros v. destruct (xorb neg _); [now apply rel_scope|]. destruct els; auto. now apply rel_scope.
  - rewrite !s_stmt_for. apply same_app in H as [H1 H2]. rewrite (rel_expr e H1 _ _ Hr).
    apply rbind_ext. intros c. apply rbind_ext. intros sp. apply rbind_ext. intros frs. revert hist.
    induction frs as [|fr frs IH]; intros hist; cbn [s_each]; auto. rewrite (rel_scope b Hb H2 (fr :: st) (fr :: st') hist); auto.
    apply rbind_ext. intros h. apply IH.
  - rewrite !s_stmt_with. apply same_app in H as [H1 H2]. rewrite (rel_expr e H1 _ _ Hr).
    apply rbind_ext. intros c. apply rel_scope; auto.
Qed.
End One.

Hypothesis Hnamed : forall t, named inner t -> same t (flat_map stmt_vars (ast_of t)).
Lemma template_rel d : forall t n st st' hist, named inner t -> R st st' ->
  s_template inner ast_of d t n st hist = s_template inner ast_of d t n st' hist.
Proof.
  induction d as [|d IH]; intros t n st st' hist Hp Hr; cbn [s_template].
  - apply rel_scope; [|now apply Hnamed|exact Hr]. apply Forall_forall. intros s _. apply stmt_rel_all. discriminate.
  - apply rel_scope; [|now apply Hnamed|exact Hr]. apply Forall_forall. intros s _. apply stmt_rel_all.
    intros run t' n' s1 s2 h E Hp' Hr'. injection E as <-. now apply IH.
Qed.
Lemma part_rel d t n l st st' hist : same t (flat_map stmt_vars l) -> R st st' ->
  s_part inner ast_of d (t_source t) n l st hist = s_part inner ast_of d (t_source t) n l st' hist.
Proof.
  intros H Hr. unfold s_part. apply rel_scope; auto. apply Forall_forall. intros s _. apply stmt_rel_all.
  intros run t' n' s1 s2 h E Hp' Hr'. destruct d; [discriminate|]. injection E as <-. now apply template_rel.
Qed.
End StackRel.
