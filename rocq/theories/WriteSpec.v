(** What a rendering hands to its writer. *)
From Verif Require Import Base Utf8 Ext Errors Syntax Value Ast Wp AstOk Compiler CompileProof Fmt Stack Filters Render RenderSpec
  RenderProof RenderErr.

(** Handing pieces of text to a writer until one is refused. *)
Fixpoint feed (k : sink) (w : sk_state k) (l : list str) : sk_state k * option N :=
  match l with
  | [] => (w, None)
  | s :: l' =>
    match sk_write k w s with
    | (w', None) => feed k w' l'
    | (w', Some c) => (w', Some c)
    end
  end.

(** A writer that accepts everything. *)
Definition never_fails (k : sink) : Prop := forall w s, snd (sk_write k w s) = None.

(** A formatter that stops with an error when one of its writes fails. *)
Fixpoint stops_on_error (p : fmt_prog) : Prop :=
  match p with
  | FDone | FFail _ => True
  | FWrite _ ok err => stops_on_error ok /\ exists m, err = FFail m
  end.

(** The pieces written if every write succeeds, and the end reached. *)
Fixpoint pieces {A} (x : rt A) : list str :=
  match x with RRet _ => [] | RWrite s ok _ => s :: pieces ok end.
Fixpoint ending {A} (x : rt A) : res A :=
  match x with RRet r => r | RWrite _ ok _ => ending ok end.

Lemma run_string_pieces {A} (x : rt A) : forall buf, run_string buf x = (buf ++ concat (pieces x), ending x).
Proof.
  induction x as [r|s o IHo e IHe]; intros buf; cbn [run_string pieces ending concat].
  - now rewrite app_nil_r.
  - now rewrite IHo, <- app_assoc.
Qed.

Lemma run_never_fails {A} k (x : rt A) : never_fails k -> forall w,
  run k w None x = (fst (feed k w (pieces x)), None, ending x) /\ snd (feed k w (pieces x)) = None.
Proof.
  intros Hk. induction x as [r|s o IHo e IHe]; intros w; cbn [run pieces ending feed]; auto.
  specialize (Hk w s). destruct (sk_write k w s) as [w' [c|]]; cbn in Hk; [discriminate|]. apply IHo.
Qed.

(** Every refused write ends the tree with an error. *)
Fixpoint stops_rt {A} (x : rt A) : Prop :=
  match x with
  | RRet _ => True
  | RWrite _ ok err => stops_rt ok /\ exists e, err = RRet (Err e)
  end.
Lemma run_stops {A} k (x : rt A) : stops_rt x -> forall w,
  match feed k w (pieces x) with
  | (w', None) => run k w None x = (w', None, ending x)
  | (w', Some c) => exists e, run k w None x = (w', Some c, Err e)
  end.
Proof.
  induction x as [r|s o IHo er IHe]; intros Hx w; cbn [run pieces ending feed]; auto.
  destruct Hx as (Ho & e & ->). destruct (sk_write k w s) as [w' [c|]]; [|now apply IHo]. cbn. eauto.
Qed.

Lemma stops_rbind {A B} (x : rt A) (f : A -> rt B) : stops_rt x -> (forall a, oks x a -> stops_rt (f a)) -> stops_rt (rbind x f).
Proof.
  induction x as [r|s o IHo er IHe]; intros Hx Hf; cbn [rbind].
  - destruct r; cbn [stops_rt]; auto. apply Hf. reflexivity.
  - destruct Hx as (Ho & e & ->). cbn [stops_rt rbind]. split; [|eauto]. apply IHo; auto. intros a Ha. apply Hf. now left.
Qed.
Lemma stops_map_err {A} f (x : rt A) : stops_rt x -> stops_rt (rmap_err f x).
Proof.
  induction x as [r|s o IHo er IHe]; intros Hx; cbn [rmap_err].
  - destruct r; exact I.
  - destruct Hx as (Ho & e & ->). cbn [stops_rt rmap_err]. split; [auto|eauto].
Qed.

Section Spec.
Context `{X : Ext}.
Variable inner : renderer_inner.
Variable ast_of : template -> scope.
(** The formatters of the engine stop when a write fails. *)
Definition formatters_stop (e : engine) : Prop :=
  (forall v, stops_on_error (en_default_formatter e v)) /\
  forall n f, map_get n (en_functions e) = Some (EFormatter f) -> forall v, stops_on_error (f v).
Hypothesis Hf : formatters_stop (ri_engine inner).

Lemma stops_run_fmt p oe : stops_on_error p -> (forall m, exists e, oe m = Err e) -> stops_rt (run_fmt p oe).
Proof.
  intros Hp He. induction p as [|m|s o IHo e IHe]; cbn [run_fmt stops_rt]; auto.
  destruct Hp as (H1 & m & ->). split; auto. cbn [run_fmt]. destruct (He m) as (er & ->). eauto.
Qed.

Section Stmts.
Variable t0 : template.
Notation source := (t_source t0).
Variable tname : option str.
Variable inc : option rend.
Hypothesis Hne : source <> [].
Hypothesis Hinc : forall run t n st h, inc = Some run -> provided inner t -> stops_rt (run t n st h).
Notation sok := (span_ok source).

Lemma err_format_err {A} m sp : sok sp -> exists e, @err_format X A m source sp = Err e.
Proof. intros H. unfold err_format. destruct (build_pretty_ok source sp Hne H) as (p & E). rewrite E. cbn. eauto. Qed.
Lemma stops_default v sp : sok sp -> stops_rt (s_default inner source v sp).
Proof. intros H. apply stops_run_fmt; [apply Hf|]. intros m. now apply err_format_err. Qed.
Lemma stops_inline st e : expr_ok source e -> stops_rt (s_inline inner source st e).
Proof.
  intros He. destruct (expr_span_sok source e He) as (sp & Es & Hsp).
  assert (G : stops_rt (let% c := lift (s_expr inner source st e) in let% sp := lift (expr_span e) in s_default inner source (cow_val c) sp)).
  { apply stops_rbind; [exact I|]. intros c _. rewrite Es. cbn [lift rbind]. now apply stops_default. }
  destruct e as [b|name [a|] recv s]; [exact G|exact G|]. clear G. cbn [s_inline].
  cbn [expr_ok] in He. destruct He as (H1 & H2 & H3 & H4).
  apply stops_rbind; [exact I|]. intros c _. apply stops_rbind; [exact I|]. intros nm _.
  destruct (map_get nm (en_functions (ri_engine inner))) as [[f|f]|] eqn:E.
  - apply stops_run_fmt; [eapply Hf; eauto|]. intros m. now apply err_format_err.
  - apply stops_rbind; [exact I|]. intros v _. now apply stops_default.
  - exact I.
Qed.

Notation s_stmt := (s_stmt inner inc source tname).
Notation s_scope := (s_scope inner inc source tname).
Lemma stops_here {A} (r : res A) : stops_rt (here tname r).
Proof. now destruct r. Qed.
Definition stmt_stops (s : stmt) : Prop := stmt_ok source s -> forall st hist, stops_rt (s_stmt s st hist).
Lemma scope_stops l : Forall stmt_stops l -> Forall (stmt_ok source) l -> forall st hist, stops_rt (s_scope l st hist).
Proof.
  induction 1 as [|s l Hs Hl IH]; intros Hok st hist; cbn [RenderSpec.s_scope]; [exact I|].
  inversion Hok; subst. apply stops_rbind; auto.
Qed.
Lemma find_provided name hist t h : oks (here tname (s_find inner source name hist)) (t, h) -> provided inner t.
Proof.
  intros H. apply oks_name_err in H. unfold s_find, err_render, provided in *.
  destruct (ri_template_fn inner) as [f|] eqn:Ef.
  - destruct (f hist (as_name name)) eqn:E; [|destruct (build_pretty _ _); contradiction].
    cbn in H. injection H as -> <-. right. left. eauto.
  - destruct (map_get _ _) eqn:E; [|destruct (build_pretty _ _); contradiction].
    cbn in H. injection H as -> <-. right. right. eauto.
Qed.
Lemma stmt_stops_all s : stmt_stops s.
Proof.
  induction s as [sp|e sp|nm g|neg c thn els Ht He|v e b Hb|e nm b Hb] using stmt_ind'; intros Hok st hist.
  - cbn [RenderSpec.s_stmt]. apply stops_rbind; [apply stops_here|]. intros raw _. cbn [stops_rt]. split; [exact I|].
    unfold here, name_err, lift. cbn [rmap_err]. eauto.
  - cbn [RenderSpec.s_stmt]. inversion Hok; subst. apply stops_rbind; [|intros; exact I].
    apply stops_map_err. now apply stops_inline.
  - cbn [RenderSpec.s_stmt]. apply stops_rbind.
    { destruct g; [apply stops_rbind; [apply stops_here|]; intros; exact I|exact I]. }
    intros st' _. apply stops_rbind; [apply stops_here|]. intros [t h] Ho. apply find_provided in Ho.
    destruct inc as [run|] eqn:Ei; [|exact I]. now apply Hinc.
  - rewrite s_stmt_if. apply stops_rbind; [apply stops_here|]. intros v _.
    inversion Hok; subst; destruct (xorb neg _); try exact I; apply scope_stops; auto.
  - rewrite s_stmt_for. inversion Hok; subst. apply stops_rbind; [apply stops_here|]. intros c _.
    apply stops_rbind; [apply stops_here|]. intros sp _. apply stops_rbind; [apply stops_here|]. intros frs _.
    revert hist. induction frs as [|fr frs IH]; intros hist; cbn [s_each]; [exact I|].
    apply stops_rbind; auto. now apply scope_stops.
  - rewrite s_stmt_with. inversion Hok; subst. apply stops_rbind; [apply stops_here|]. intros c _. now apply scope_stops.
Qed.
End Stmts.

Hypothesis Hast : forall t, provided inner t -> Forall (stmt_ok (t_source t)) (ast_of t) /\ (ast_of t <> [] -> t_source t <> []).
Lemma template_stops d : forall t n st hist, provided inner t -> stops_rt (s_template inner ast_of d t n st hist).
Proof.
  induction d as [|d IH]; intros t n st hist Hp; cbn [s_template]; destruct (Hast t Hp) as (H1 & H2).
  - destruct (ast_of t) as [|s l] eqn:E; [exact I|]. rewrite <- E in *.
    apply scope_stops; auto. apply Forall_forall. intros x _. apply stmt_stops_all; [apply H2; rewrite E|]; discriminate.
  - destruct (ast_of t) as [|s l] eqn:E; [exact I|]. rewrite <- E in *.
    apply scope_stops; auto. apply Forall_forall. intros x _. apply stmt_stops_all; [apply H2; rewrite E; discriminate|].
    intros run t' n' st' h' Er Hp'. injection Er as <-. now apply IH.
Qed.
Lemma render_stops st : stops_rt (s_render inner ast_of st).
Proof. unfold s_render. apply stops_rbind; [apply template_stops; now left|]. intros; exact I. Qed.
End Spec.
