(** Includes: the nested template behaves like a root template. *)
From Verif Require Import Base Utf8 Ext Errors Syntax AhoCorasick SearchSpec SyntaxSpec Value Ast Lexer LexSpec Wp
  GrammarSpec Parser AstOk Compiler CompileProof ParseMain Fmt Stack Filters Render Engine EngineSpec CompileFacts
  RenderSpec RenderProof RenderErr MapFacts RenderMain RenderObs StackRel Parts.

(** The error of an include that goes too deep; the only render error without a
    location. *)
Definition limit_error (m : N) : error :=
  mkerror KRender None (Some (s2b "reached maximum include depth (" ++ show_N m ++ s2b ")")) None.
(** The same error, mentioning another limit. *)
Definition relimit (m : N) (e : error) : error :=
  match e_pretty e, e_reason e with None, Some _ => limit_error m | _, _ => e end.

(** The included template [t], named [name], as the root of a rendering of its own
    with the limit [m]. *)
Definition included (inner : renderer_inner) (t : template) (name : str) (m : N) : renderer_inner :=
  mkinner (ri_engine inner) t (Some name) (Some m) (ri_template_fn inner).

Lemma rmap_err_bind {A B} f (x : rt A) (g : A -> rt B) : rmap_err f (rbind x g) = rbind (rmap_err f x) (fun a => rmap_err f (g a)).
Proof. induction x as [r|s o IHo e IHe]; [destruct r; cbn; auto|]. cbn [rbind rmap_err]. now rewrite IHo, IHe. Qed.
Lemma rmap_err_fixed {A} f (x : rt A) : rall (fun r => match r with Err e => f e = e | _ => True end) x -> rmap_err f x = x.
Proof.
  induction x as [r|s o IHo e IHe]; cbn [rall rmap_err]; intros H.
  - destruct r; auto. now rewrite H.
  - destruct H. now rewrite IHo, IHe.
Qed.

Section Include.
Context `{X : Ext}.
Variable inner inner' : renderer_inner.
Variable ast_of : template -> scope.
(** They differ in the root and the limit only. *)
Hypothesis He : ri_engine inner' = ri_engine inner.
Hypothesis Hf : ri_template_fn inner' = ri_template_fn inner.
Hypothesis Hast : forall t, named inner t -> Forall (stmt_ok (t_source t)) (ast_of t) /\ (ast_of t <> [] -> t_source t <> []).
Notation f := (relimit (max_include_depth inner)).

Lemma relimit_located source e n : located source e \/ e = mk_fmt_error -> 
  f (match n with Some s => with_template_name e s | None => e end) = match n with Some s => with_template_name e s | None => e end.
Proof.
  intros [(_ & _ & sp & p & _ & _ & H)|H]; [|subst e; now destruct n]. destruct e as [k nm r pr]. cbn in H. subst pr. unfold with_template_name; destruct n, nm; reflexivity.
Qed.
Lemma relimit_here {A} source np n (x : rt A) : rall (fun r => rp np source r (fun _ => True)) x -> rmap_err f (name_err n x) = name_err n x.
Proof.
  intros H. apply rmap_err_fixed. unfold name_err. induction x as [r|s o IHo e IHe]; cbn [rmap_err rall] in *.
  - destruct r as [a|e| |]; cbn in *; auto. eapply relimit_located. left. exact H.
  - intuition.
Qed.
Section One.
Variable t : template.
Variable n : option str.
Notation source := (t_source t).
Variable inc inc' : option rend.
Hypothesis Hne : source <> [].
Hypothesis Hinc : match inc, inc' with
  | None, None => True
  | Some run, Some run' => forall t n st h, named inner t -> run t n st h = rmap_err f (run' t n st h)
  | _, _ => False
  end.
Definition stmt_limit (s : stmt) : Prop := stmt_ok source s -> forall st h,
  s_stmt inner inc source n s st h = rmap_err f (s_stmt inner' inc' source n s st h).
Lemma scope_limit l : Forall stmt_limit l -> Forall (stmt_ok source) l -> forall st h,
  s_scope inner inc source n l st h = rmap_err f (s_scope inner' inc' source n l st h).
Proof.
  induction 1 as [|s l Hs Hl IH]; intros Hok st h; cbn [s_scope]; auto. inversion Hok; subst.
  rewrite rmap_err_bind, (Hs H1). apply rbind_ext. intros h'. now apply IH.
Qed.
Lemma limit_here {A} (r : res A) : rp false source r (fun _ => True) -> rmap_err f (here n r) = here n r.
Proof. intros H. apply (relimit_here source false n (lift r)). exact H. Qed.
Lemma same_expr e st : s_expr inner' source st e = s_expr inner source st e.
Proof. induction e as [b|name a recv IH sp]; cbn [s_expr]; auto. rewrite IH. unfold s_apply. now rewrite He. Qed.
Lemma same_inline e st : s_inline inner' source st e = s_inline inner source st e.
Proof.
  destruct e as [b|name [a|] recv sp]; unfold s_inline, s_default, s_apply; now rewrite ?same_expr, ?He.
Qed.
Lemma same_find name h : s_find inner' source name h = s_find inner source name h.
Proof. unfold s_find. now rewrite Hf, He. Qed.
Ltac ff := intros; discriminate.
Lemma stmt_limit_all s : stmt_limit s.
Proof.
  induction s as [sp|e sp|name g|neg c thn els Ht Hel|v e b Hb|e name b Hb] using stmt_ind'; intros Hok st h; inversion Hok; subst.
  - cbn [s_stmt]. rewrite rmap_err_bind, limit_here by (now apply fine_index). apply rbind_ext. intros raw. cbn [rmap_err here name_err lift].
    do 2 f_equal. rewrite (relimit_located source); auto.
  - cbn [s_stmt]. rewrite rmap_err_bind, same_inline. rewrite (relimit_here source false); [reflexivity|]. apply fine_inline; auto. ff.
  - cbn [s_stmt rbind]. rewrite rmap_err_bind, same_find, limit_here by (now apply fine_find). apply rbind_ext_oks. intros [t' h'] Ho.
    apply find_named in Ho. destruct inc as [run|], inc' as [run'|]; try contradiction; auto.
  - cbn [s_stmt]. rewrite !rbind_assoc. rewrite rmap_err_bind, same_expr, limit_here by (apply fine_expr; auto; ff). apply rbind_ext. intros c.
    cbn [rbind]. rewrite rmap_err_bind, same_find, limit_here by (now apply fine_find). apply rbind_ext_oks. intros [t' h'] Ho.
    apply find_named in Ho. destruct inc as [run|], inc' as [run'|]; try contradiction; auto.
  - rewrite !s_stmt_if. rewrite rmap_err_bind, same_expr, limit_here by (apply fine_expr; auto; ff). apply rbind_ext. intros v0.
    destruct (xorb neg _); [now apply scope_limit|reflexivity].
  - rewrite !s_stmt_if. rewrite rmap_err_bind, same_expr, limit_here by (apply fine_expr; auto; ff). apply rbind_ext. intros v0.
    destruct (xorb neg _); now apply scope_limit.
  - rewrite !s_stmt_for. rewrite rmap_err_bind, same_expr, limit_here by (apply fine_expr; auto; ff). apply rbind_ext. intros c.
    destruct (expr_span_sok source e) as (sp & Es & Hsp); auto. rewrite Es, !here_ok, rmap_err_bind, limit_here by (now apply fine_loop).
    apply rbind_ext. intros frs. revert h. induction frs as [|fr frs IH]; intros h; cbn [s_each]; [reflexivity|].
    rewrite rmap_err_bind, (scope_limit b Hb) by auto. apply rbind_ext. intros h'. apply IH.
  - rewrite !s_stmt_with. rewrite rmap_err_bind, same_expr, limit_here by (apply fine_expr; auto; ff). apply rbind_ext. intros c.
    now apply scope_limit.
Qed.
End One.
Lemma template_limit d : forall t n st h, named inner t ->
  s_template inner ast_of d t n st h = rmap_err f (s_template inner' ast_of d t n st h).
Proof.
  induction d as [|d IH]; intros t n st h Hp; cbn [s_template]; destruct (Hast t Hp) as (H1 & H2).
  - destruct (ast_of t) as [|s l] eqn:E; [reflexivity|]. rewrite <- E in *. assert (t_source t <> []) by (apply H2; rewrite E; discriminate).
    apply scope_limit; auto. apply Forall_forall. intros x _. apply stmt_limit_all; auto.
  - destruct (ast_of t) as [|s l] eqn:E; [reflexivity|]. rewrite <- E in *. assert (t_source t <> []) by (apply H2; rewrite E; discriminate).
    apply scope_limit; auto. apply Forall_forall. intros x _. apply stmt_limit_all; auto.
Qed.
End Include.

(** Nothing below a boundary is visible. *)
Definition cut (st0 : stack) (st st' : stack) : Prop := exists l, st = l ++ FrBoundary :: st0 /\ st' = l.
Lemma cut_push st0 fr st st' : cut st0 st st' -> cut st0 (fr :: st) (fr :: st').
Proof. intros (l & -> & ->). now exists (fr :: l). Qed.
Lemma cut_same `{X : Ext} st0 t l : same (cut st0) t l.
Proof.
  intros v st st' _ (fs & -> & ->). induction fs as [|fr fs IH]; cbn [app lookup_var]; auto.
  destruct fr; auto.
  - destruct (lookup_path_maybe _ _ _) as [[x|]| | |]; auto.
  - destruct (var_first v) as [m| | |]; auto. cbn [bind]. destruct (index_span _ (access_span _)) as [a| | |]; auto. cbn [bind].
    destruct (index_span _ (id_span name)) as [b| | |]; auto. cbn [bind]. now rewrite IH.
  - destruct (loop_lookup_var _ _ _) as [[x|]| | |]; auto.
Qed.
