(** Rendering panics only where the name of a [with] variable is not in the source of
    an included template (C13). *)
From Verif Require Import Base Utf8 Ext Errors Syntax Value Ast Wp AstOk Compiler CompileProof Fmt Stack Filters Render RenderSpec
  RenderProof RenderErr PanicSpec.

Section Panic.
Context `{X : Ext}.
Variable inner : renderer_inner.
Variable ast_of : template -> scope.
Hypothesis Hast : forall t, provided inner t -> Forall (stmt_ok (t_source t)) (ast_of t) /\ (ast_of t <> [] -> t_source t <> []).
Hypothesis Hsight : forall t sp, provided inner t -> in_sight inner ast_of t sp -> span_ok (t_source t) sp.
Notation fin := (rall (fun r => finished r)).

(** The [with] variables in the stack: those of this template, [ws], and those of others. *)
Definition sees (t : template) (ws : list ident) (st : stack) : Prop :=
  Forall (fun fr => match fr with FrVar n _ => (In n ws /\ span_ok (t_source t) (id_span n)) \/ in_sight inner ast_of t (id_span n) | _ => True end) (visible st).

Lemma rp_fin {A} source (r : res A) : rp true source r (fun _ => True) -> finished r.
Proof. destruct r; cbn; auto. discriminate. Qed.
Lemma fin_bind {A B} (x : rt A) (f : A -> rt B) : fin x -> (forall a, oks x a -> fin (f a)) -> fin (rbind x f).
Proof. intros Hx Hf. eapply rall_bind; eauto. Qed.
Lemma fin_here {A} n source (r : res A) : rp true source r (fun _ => True) -> fin (here n r).
Proof. intros H. destruct r; cbn in *; auto. discriminate. Qed.
Lemma fin_name {A} n source (x : rt A) : rall (fun r => rp true source r (fun _ => True)) x -> fin (name_err n x).
Proof.
  intros H. unfold name_err. induction x as [r|s o IHo e IHe]; cbn [rmap_err rall] in *; [|intuition].
  destruct r; cbn in *; auto. discriminate.
Qed.

Section Stmts.
Variable t : template.
Hypothesis Ht : provided inner t.
Variable n : option str.
Hypothesis Hne : t_source t <> [].
Variable inc : option rend.
Notation source := (t_source t).
Hypothesis Hinc : forall run name t' st hist, inc = Some run -> resolves inner name t' -> sees t' [] st -> fin (run t' (Some name) st hist).
Notation s_stmt := (s_stmt inner inc source n).
Notation s_scope := (s_scope inner inc source n).

Lemma sees_here ws st : sees t ws st -> vars_here source st.
Proof. intros H. eapply Forall_impl; [|exact H]. intros [|c|m c|l|]; cbn; auto. intros [(_ & K)|K]; auto. Qed.
Lemma sees_loop ws l st : sees t ws st -> sees t ws (FrLoop l :: st).
Proof. intros H. unfold sees. cbn [visible]. constructor; auto. Qed.
Lemma sees_var ws m c st : span_ok source (id_span m) -> sees t ws st -> sees t (m :: ws) (FrVar m c :: st).
Proof.
  intros Hm H. unfold sees in *. cbn [visible]. constructor; [left; split; [now left|exact Hm]|].
  eapply Forall_impl; [|exact H]. intros [|c'|m' c'|l|]; cbn; auto. intros [(K & K')|K]; auto.
Qed.
Definition ok_in (ws : list ident) (l : list (str * list ident)) : Prop := forall p, In p l -> In p (flat_map (shares []) (ast_of t)).
Definition stmt_fin (s : stmt) : Prop := stmt_ok source s -> forall ws, ok_in ws (shares ws s) ->
  forall st hist, sees t ws st -> fin (s_stmt s st hist).
Lemma scope_fin l : Forall stmt_fin l -> Forall (stmt_ok source) l -> forall ws, ok_in ws (flat_map (shares ws) l) ->
  forall st hist, sees t ws st -> fin (s_scope l st hist).
Proof.
  induction 1 as [|s l Hs Hl IH]; intros Hok ws Hin st hist Hst; cbn [RenderSpec.s_scope]; [exact I|].
  inversion Hok; subst. apply fin_bind.
  - apply (Hs H1 ws); auto. intros p Hp. apply Hin. cbn [flat_map]. apply in_or_app. auto.
  - intros h _. apply IH with (ws := ws); auto. intros p Hp. apply Hin. cbn [flat_map]. apply in_or_app. auto.
Qed.
Lemma stmt_fin_all s : stmt_fin s.
Proof.
  induction s as [sp|e sp|nm g|neg c thn els IHt IHe|v e b Hb|e nm b Hb] using stmt_ind'; intros Hok ws Hin st hist Hst;
  inversion Hok; subst; cbn [shares] in Hin; pose proof (sees_here _ _ Hst) as Hh.
  - cbn [RenderSpec.s_stmt]. apply fin_bind; [eapply fin_here; now apply fine_index|]. intros raw _. cbn. auto.
  - cbn [RenderSpec.s_stmt]. apply fin_bind; [|intros; exact I]. eapply fin_name. apply fine_inline; auto.
  - cbn [RenderSpec.s_stmt rbind]. apply fin_bind; [eapply fin_here; now apply fine_find|].
    intros [t' h'] Ho. unfold here in Ho. apply oks_name_err in Ho. destruct inc as [run|]; [|exact I].
    assert (E : s_find inner source nm hist = Ok (t', h')). { destruct (s_find _ _ _ _) as [[? ?]| | |]; cbn in Ho; try contradiction. congruence. }
    apply find_resolves in E. apply (Hinc run); auto.
    assert (Hw : In (as_name nm, ws) (flat_map (shares []) (ast_of t))) by (apply Hin; now left).
    eapply Forall_impl; [|exact Hst]. intros [|c'|m c'|l|]; cbn; auto. intros [(K & _)|K]; right.
    + exact (is_with inner ast_of t _ ws m t' Ht Hw K E).
    + exact (is_more inner ast_of t _ ws _ t' K Hw E).
  - cbn [RenderSpec.s_stmt]. apply fin_bind.
    { apply fin_bind; [|intros; exact I]. eapply fin_here. apply fine_expr; auto. }
    intros st' Hst'. apply oks_rbind in Hst' as (c & _ & Ec). cbn in Ec. subst st'.
    apply fin_bind; [eapply fin_here; now apply fine_find|].
    intros [t' h'] Ho. unfold here in Ho. apply oks_name_err in Ho. destruct inc as [run|]; [|exact I].
    assert (E : s_find inner source nm hist = Ok (t', h')). { destruct (s_find _ _ _ _) as [[? ?]| | |]; cbn in Ho; try contradiction. congruence. }
    apply find_resolves in E. apply (Hinc run); auto. unfold sees. cbn [visible]. repeat constructor.
  - rewrite s_stmt_if. apply fin_bind. { eapply fin_here. apply fine_expr; auto. }
    intros v _. destruct (xorb neg _); [|exact I].
    apply scope_fin with (ws := ws); auto. intros p Hp. apply Hin. apply in_or_app. auto.
  - rewrite s_stmt_if. apply fin_bind. { eapply fin_here. apply fine_expr; auto. }
    intros v _. destruct (xorb neg _); apply scope_fin with (ws := ws); auto; intros p Hp; apply Hin; apply in_or_app; auto.
  - rewrite s_stmt_for. apply fin_bind. { eapply fin_here. apply fine_expr; auto. }
    intros c _. destruct (expr_span_sok source e) as (sp & Es & Hsp); auto. rewrite Es. cbn [here name_err lift rmap_err rbind].
    apply fin_bind. { eapply fin_here. now apply fine_loop. }
    intros frs Hf. assert (Ef : s_loop source v c sp = Ok frs).
    { destruct (s_loop source v c sp); cbn in Hf; try contradiction. congruence. }
    apply frames_loops in Ef. clear Hf. revert hist. induction Ef as [|fr frs (l & ->) _ IH]; intros hist; cbn [s_each]; [exact I|].
    apply fin_bind; [|intros; apply IH]. apply scope_fin with (ws := ws); auto. now apply sees_loop.
  - rewrite s_stmt_with. apply fin_bind. { eapply fin_here. apply fine_expr; auto. }
    intros c _. apply scope_fin with (ws := nm :: ws); auto. now apply sees_var.
Qed.
End Stmts.
Lemma template_fin d : forall t n st hist, provided inner t -> sees t [] st -> fin (s_template inner ast_of d t n st hist).
Proof.
  induction d as [|d IH]; intros t n st hist Hp Hst; cbn [s_template]; destruct (Hast t Hp) as (H1 & H2).
  - destruct (ast_of t) as [|s l] eqn:E; [exact I|]. rewrite <- E in *. assert (Hne : t_source t <> []) by (apply H2; rewrite E; discriminate).
    apply scope_fin with (t := t) (ws := []); auto; [|intros p; auto]. apply Forall_forall. intros x _. apply stmt_fin_all; auto. discriminate.
  - destruct (ast_of t) as [|s l] eqn:E; [exact I|]. rewrite <- E in *. assert (Hne : t_source t <> []) by (apply H2; rewrite E; discriminate).
    apply scope_fin with (t := t) (ws := []); auto; [|intros p; auto]. apply Forall_forall. intros x _. apply stmt_fin_all; auto.
    intros run name t' st' hist' Er Hr Hv. injection Er as <-. apply IH; auto. now apply resolves_provided in Hr.
Qed.
Theorem render_fin st : sees (ri_template inner) [] st -> fin (s_render inner ast_of st).
Proof. intros H. unfold s_render. apply fin_bind; [apply template_fin; auto; now left|]. intros; exact I. Qed.
End Panic.
