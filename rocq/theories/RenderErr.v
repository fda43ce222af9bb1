(** What can go wrong while rendering: every error is raised by some template that
    is being rendered, points into its source and carries its name; a panic needs
    a variable frame of another template. *)
From Verif Require Import Base Utf8 Ext Errors Syntax Value Ast Wp AstOk Compiler CompileProof Fmt Stack Filters Render RenderSpec
  RenderProof.

(** Every way a tree can end. *)
Fixpoint rall {A} (P : res A -> Prop) (x : rt A) : Prop :=
  match x with
  | RRet r => P r
  | RWrite _ o e => rall P o /\ rall P e
  end.
Lemma rall_mono {A} (P Q : res A -> Prop) x : (forall r, P r -> Q r) -> rall P x -> rall Q x.
Proof. intros H. induction x as [r|s o IHo e IHe]; cbn [rall]; auto. intuition. Qed.

Section RenderErr.
Context `{X : Ext}.

(** [located source e]: an error without a template name, pointing to a range of
    [source]. *)
Definition located (source : str) (e : error) : Prop :=
  e_name e = None /\ (e_kind e = KRender \/ e_kind e = KFilter \/ e_kind e = KFormat) /\
  exists sp p, span_ok source sp /\ build_pretty source sp = Ok p /\ e_pretty e = Some p.

(** The set of variables visible to a lookup: up to a boundary or value function. *)
Fixpoint visible (st : stack) : list frame :=
  match st with
  | [] => []
  | FrBoundary :: _ => []
  | FrValueFn f :: _ => [FrValueFn f]
  | fr :: st' => fr :: visible st'
  end.
(** The [with] variables visible are all named in [source]. *)
Definition vars_here (source : str) (st : stack) : Prop :=
  Forall (fun fr => match fr with FrVar n _ => span_ok source (id_span n) | _ => True end) (visible st).

Section Prims.
Variable np : bool. (* true: show the absence of panics *)
Variable source : str.
Hypothesis Hne : source <> [].
Notation sok := (span_ok source).

Definition rp {A} (x : res A) (Q : A -> Prop) : Prop :=
  match x with
  | Ok a => Q a
  | Err e => located source e
  | Panic => np = false
  | OutOfFuel => False
  end.
Notation fine x := (rp x (fun _ => True)).

Lemma rp_bind {A B} (x : res A) (f : A -> res B) Q : rp x (fun a => rp (f a) Q) -> rp (let* a := x in f a) Q.
Proof. now destruct x. Qed.
Lemma rp_mono {A} (x : res A) (Q R : A -> Prop) : rp x Q -> (forall a, Q a -> R a) -> rp x R.
Proof. destruct x; simpl; auto. Qed.
Lemma fine_bind {A B} (x : res A) (f : A -> res B) : fine x -> (forall a, fine (f a)) -> fine (let* a := x in f a).
Proof. destruct x; simpl; auto. Qed.
Lemma fine_index sp : sok sp -> fine (index_span source sp).
Proof. intros H. now rewrite index_span_ok. Qed.
Lemma fine_index_any s : (np = true -> sok s) -> fine (index_span source s).
Proof.
  intros H. destruct (Bool.bool_dec np true) as [E|E]; [apply fine_index; auto|].
  unfold index_span, slice. destruct (_ && _ && _); cbn; auto. now destruct np.
Qed.
Lemma fine_err_render {A} m sp (Q : A -> Prop) : sok sp -> rp (err_render m source sp) Q.
Proof.
  intros H. unfold err_render. destruct (build_pretty_ok source sp Hne H) as (p & E). rewrite E.
  cbn. split; [reflexivity|]. split; [auto|]. exists sp, p. auto.
Qed.
Lemma fine_err_format {A} m sp (Q : A -> Prop) : sok sp -> rp (err_format m source sp) Q.
Proof.
  intros H. unfold err_format. destruct (build_pretty_ok source sp Hne H) as (p & E). rewrite E.
  cbn. split; [reflexivity|]. split; [auto|]. exists sp, p. auto.
Qed.

Ltac crush := repeat (match goal with
  | |- rp (Ok _) _ => exact I
  | |- rp (err_render _ _ _) _ => apply fine_err_render
  | |- rp (let* _ := index_span _ _ in _) _ => apply fine_bind; [apply fine_index|intros ?]
  | |- rp (match ?x with _ => _ end) _ => destruct x
  | |- rp (if ?b then _ else _) _ => destruct b
  end; cbn [option_map]); try assumption; auto.

Lemma fine_lookup v m : member_ok source m -> fine (lookup source v m).
Proof.
  intros (H1 & H2). unfold lookup. destruct v, (mb_access m) as [i sp|id]; cbn [access_span] in *; crush.
Qed.
Lemma fine_lookup_path ms : Forall (member_ok source) ms -> forall o v, fine (lookup_path_loop source o v ms).
Proof.
  induction 1 as [|m ms Hm _ IH]; intros o v; cbn [lookup_path_loop]; [exact I|].
  apply fine_bind; [now apply fine_lookup|]. intros [v'|]; [apply IH|exact I].
Qed.
Lemma fine_lookup_path_maybe ms : Forall (member_ok source) ms -> forall o v b, fine (lookup_path_maybe_loop source o v ms b).
Proof.
  induction 1 as [|m ms Hm _ IH]; intros o v b; cbn [lookup_path_maybe_loop]; [exact I|].
  pose proof (fine_lookup v m Hm) as H. destruct (lookup source v m) as [[v'|]|e| |]; auto.
  - destruct b; exact I.
  - destruct b; [exact I|exact H].
Qed.
Lemma fine_resolve ms : Forall (member_ok source) ms -> forall v, fine (resolve source v ms).
Proof.
  induction 1 as [|m ms Hm _ IH]; intros v; cbn [resolve]; [exact I|].
  apply fine_bind; [now apply fine_lookup|]. intros [v'|]; [apply IH|exact I].
Qed.
Lemma fine_lookup_loop l v : var_ok source v -> fine (lookup_loop l source v).
Proof.
  intros (id & sp & ms & -> & H). unfold lookup_loop. destruct (current_index_and_rem l) as [[i rem]|]; [|exact I].
  destruct ms as [|m ms]; [exact I|]. inversion H as [|? ? _ H']; subst. inversion H' as [|? ? Hm Hms]; subst.
  destruct Hm as (Ha & Hs). destruct (mb_access m) as [n s|k]; cbn [access_span] in *; [now apply fine_err_render|].
  apply fine_bind; [now apply fine_index|]. intros nm.
  apply fine_bind; [crush|]. intros v. destruct ms as [|m2 ms]; [exact I|].
  inversion Hms as [|? ? (Hm2 & Hm3) _]; subst. now apply fine_err_render.
Qed.
Lemma fine_loop_lookup l v : var_ok source v -> fine (loop_lookup_var l source v).
Proof.
  intros Hv. pose proof (fine_lookup_loop l v Hv) as HL. destruct Hv as (id & sp & ms & -> & H).
  inversion H as [|? ? (H1 & _) H']; subst. cbn in H1.
  unfold loop_lookup_var. cbn [var_first hd_error unwrap bind mb_access].
  apply fine_bind; [now apply fine_index|]. intros nm. destruct (str_eqb nm (s2b "loop")); [exact HL|].
  destruct l as [o i n it [[k x]|]|o kn vn n it [[k [ky x]]|]]; try exact I.
  - destruct (str_eqb nm i); [|exact I]. apply fine_bind; [now apply fine_resolve|]. intros; exact I.
  - destruct (str_eqb nm kn).
    + destruct ms as [|m ms]; cbn [var_rest tl]; [exact I|]. inversion H' as [|? ? (Hm & Hs) _]; subst. now apply fine_err_render.
    + destruct (str_eqb nm vn); [|exact I]. apply fine_bind; [now apply fine_resolve|]. intros; exact I.
Qed.
Lemma fine_value_path ms : Forall (member_ok source) ms -> fine (value_path source ms).
Proof.
  induction 1 as [|m ms (Hm & _) _ IH]; cbn [value_path]; [exact I|].
  apply fine_bind. { destruct (mb_access m); [exact I|]. apply fine_bind; [now apply fine_index|]. intros; exact I. }
  intros a. apply fine_bind; auto. intros; exact I.
Qed.
Lemma var_span_ok v : var_ok source v -> exists sp, @var_span error v = Ok sp /\ sok sp.
Proof.
  intros (id & sp & ms & -> & H). unfold var_span, var_first, var_last. cbn [hd_error unwrap bind].
  set (l := mkmember Direct (AKey id) sp :: ms) in *.
  destruct (rev l) as [|m r] eqn:E.
  - apply (f_equal (@rev _)) in E. rewrite rev_involutive in E. discriminate.
  - cbn [hd_error unwrap bind]. eexists. split; [reflexivity|]. rewrite Forall_forall in H. apply span_ok_combine.
    + apply (H (mkmember Direct (AKey id) sp)). now left.
    + apply H. apply in_rev. rewrite E. now left.
Qed.
Lemma fine_not_found v : var_ok source v -> fine (@err_not_found X cow source v).
Proof.
  intros (id & sp & ms & -> & H). unfold err_not_found. cbn [var_first hd_error unwrap bind].
  apply fine_err_render. inversion H as [|? ? (_ & H2) _]; subst. exact H2.
Qed.
Lemma fine_lookup_var v : var_ok source v -> forall st, (np = true -> vars_here source st) -> fine (lookup_var st source v).
Proof.
  intros Hv. induction st as [|fr st IH]; intros Hs; cbn [lookup_var]; [now apply fine_not_found|].
  destruct fr as [f|c|name c|l|].
  - destruct Hv as (id & sp & ms & Ev & H). apply fine_bind; [subst v; now apply fine_value_path|]. intros p.
    destruct (f p); [exact I|]. destruct (var_span_ok v) as (s & -> & Hsp). { exists id, sp, ms. auto. }
    now apply fine_err_render.
  - apply fine_bind. { destruct Hv as (id & sp & ms & -> & H). now apply fine_lookup_path_maybe. }
    intros [x|]; [exact I|]. apply IH. intros E. specialize (Hs E). unfold vars_here in *. cbn [visible] in Hs. now inversion Hs.
  - destruct Hv as (id & sp & ms & -> & H). inversion H as [|? ? (H1 & _) H']; subst. cbn [access_span mb_access] in H1.
    cbn [var_first hd_error unwrap bind mb_access access_span].
    apply fine_bind; [now apply fine_index|]. intros a. apply fine_bind.
    { apply fine_index_any. intros E. specialize (Hs E). unfold vars_here in Hs. cbn [visible] in Hs. now inversion Hs. }
    intros b. destruct (str_eqb a b); [apply fine_lookup_path; exact H'|]. apply IH.
    intros E. specialize (Hs E). unfold vars_here in *. cbn [visible] in Hs. now inversion Hs.
  - apply fine_bind; [now apply fine_loop_lookup|]. intros [x|]; [exact I|]. apply IH.
    intros E. specialize (Hs E). unfold vars_here in *. cbn [visible] in Hs. now inversion Hs.
  - now apply fine_not_found.
Qed.

(** ** Filters *)
Lemma fine_get_arg ty st b : (np = true -> vars_here source st) -> base_ok source b -> fine (get_arg ty source st b).
Proof.
  intros Hs Hb. destruct b as [v|x sp]; cbn [get_arg base_ok] in *.
  - apply fine_bind; [now apply fine_lookup_var|]. intros c.
    destruct (match c with Borrowed x => from_value_ref ty x | Owned x => from_value ty x end); [exact I|].
    destruct (var_span_ok v Hb) as (s & -> & Hsp). cbn [bind]. unfold err_expected_arg. now apply fine_err_render.
  - destruct (from_value_ref ty x); [exact I|]. unfold err_expected_arg. now apply fine_err_render.
Qed.
Lemma fine_get_args st : (np = true -> vars_here source st) -> forall l tys, length l = length tys -> Forall (base_ok source) l ->
  fine (get_args tys source st l).
Proof.
  intros Hs. induction l as [|b l IH]; intros [|ty tys] E H; try discriminate; cbn [get_args]; [exact I|].
  inversion H; subst. apply fine_bind; [now apply fine_get_arg|]. intros a. apply fine_bind; [apply IH; auto|]. intros; exact I.
Qed.
Lemma from_cow_no_ref ty c s : from_cow_mut ty c <> inr (AeReference s).
Proof.
  unfold from_cow_mut, from_value_ref. destruct ty; try discriminate; destruct (cow_val c); try discriminate.
  destruct (_ && _); discriminate.
Qed.
Lemma call_filter_spec f name st c l : (np = true -> vars_here source st) -> sok (id_span name) -> Forall (base_ok source) l ->
  match call_filter f source name st c l with
  | Err e => located source e \/ exists m, e = mk_filter_error m
  | r => fine r
  end.
Proof.
  intros Hs Hn Hl.
  assert (G : forall (x : res value), fine x -> match x with Err e => located source e \/ exists m, e = mk_filter_error m | r => fine r end)
    by (intros []; cbn; auto).
  unfold call_filter, check_args. destruct (length l =? length (fl_args f)) eqn:El; cbn [bind].
  2:{ pose proof (@fine_err_render unit (s2b "filter expected " ++ show_nat (length (fl_args f)) ++ s2b " arguments") _ (fun _ => True) Hn) as K.
      destruct (err_render _ source (id_span name)) as [[]|e| |] eqn:E; cbn in *; auto; exfalso.
      - unfold err_render in E. destruct (build_pretty _ _); discriminate. }
  apply Nat.eqb_eq in El. pose proof (from_cow_no_ref (fl_recv f) c) as Hnr.
  destruct (from_cow_mut (fl_recv f) c) as [av|er]; cbn [bind].
  - pose proof (fine_get_args st Hs l (fl_args f) El Hl) as H. destruct (get_args (fl_args f) source st l) as [avs|e| |]; cbn in *; auto.
    destruct (fl_run f av avs); cbn; eauto.
  - assert (K : fine (@err_expected_val X arg_val er source (id_span name))).
    { unfold err_expected_val. destruct er; try (now apply fine_err_render). exfalso. eapply Hnr. reflexivity. }
    destruct (err_expected_val er source (id_span name)) as [x|e| |] eqn:E; cbn in *; auto.
    exfalso. unfold err_expected_val, err_render in E. destruct er; try discriminate; destruct (build_pretty _ _); discriminate.
Qed.

Variable inner : renderer_inner.

Lemma fine_apply st name l c : (np = true -> vars_here source st) -> sok (id_span name) -> Forall (base_ok source) l ->
  fine (s_apply inner source st name l c).
Proof.
  intros Hs Hn Hl. unfold s_apply. apply fine_bind; [now apply fine_index|]. intros nm.
  destruct (map_get nm (en_functions (ri_engine inner))) as [[f|f]|]; try (now apply fine_err_render).
  pose proof (call_filter_spec f name st c l Hs Hn Hl) as H. destruct (call_filter f source name st c l) as [v|e| |]; auto.
  destruct (build_pretty_ok source _ Hne Hn) as (p & Ep).
  unfold err_enrich. destruct H as [H|(m & ->)].
  - destruct H as (H1 & H2 & sp & p' & H3 & H4 & H5). rewrite H5. cbn. split; auto. split; auto. eauto 10.
  - cbn [e_pretty mk_filter_error]. rewrite Ep. cbn. split; [reflexivity|]. split; [auto|]. eauto 10.
Qed.
Lemma fine_expr st : (np = true -> vars_here source st) -> forall e, expr_ok source e -> fine (s_expr inner source st e).
Proof.
  intros Hs. induction e as [b|name a recv IH sp]; intros He; cbn [s_expr expr_ok] in *.
  - destruct b as [v|v s]; [now apply fine_lookup_var|exact I].
  - destruct He as (H1 & H2 & H3 & H4). apply fine_bind; [now apply IH|]. intros c. apply fine_bind; [|intros; exact I].
    apply fine_apply; auto. destruct a as [a|]; cbn [arg_list oargs_ok] in *; [apply H2|constructor].
Qed.
Lemma fine_run_fmt (p : fmt_prog) (oe : option str -> res unit) : (forall m, fine (oe m)) -> rall (fun r => fine r) (run_fmt p oe).
Proof. intros H. induction p; cbn [run_fmt rall]; auto. exact I. Qed.
Lemma rall_bind {A B} (P : res A -> Prop) (Q : res B -> Prop) (x : rt A) f : rall P x ->
  (forall a, oks x a -> P (Ok a) -> rall Q (f a)) -> (forall e, P (Err e) -> Q (Err e)) -> (P Panic -> Q Panic) ->
  (P OutOfFuel -> Q OutOfFuel) -> rall Q (rbind x f).
Proof.
  intros Hx Hf He Hp Ho. induction x as [r|s o IHo e IHe]; cbn [rbind rall] in *.
  - destruct r; cbn [rall]; auto. apply Hf; auto. reflexivity.
  - destruct Hx. split; [apply IHo|apply IHe]; auto; intros; apply Hf; auto; cbn [oks]; auto.
Qed.
Lemma rall_lift {A B} (r : res A) (f : A -> rt B) : fine r -> (forall a, rall (fun r => fine r) (f a)) -> rall (fun r => fine r) (rbind (lift r) f).
Proof. destruct r; cbn; auto. Qed.
Lemma expr_span_sok e : expr_ok source e -> exists sp, @expr_span error e = Ok sp /\ sok sp.
Proof.
  destruct e as [[v|v s]|n a r s]; cbn [expr_ok base_ok expr_span base_span].
  - apply var_span_ok.
  - eauto.
  - intros (_ & _ & _ & H). eauto.
Qed.
Lemma fine_inline st e : (np = true -> vars_here source st) -> expr_ok source e -> rall (fun r => fine r) (s_inline inner source st e).
Proof.
  intros Hs He. destruct (expr_span_sok e He) as (sp & Es & Hsp).
  assert (G : rall (fun r => fine r) (let% c := lift (s_expr inner source st e) in let% sp := lift (expr_span e) in s_default inner source (cow_val c) sp)).
  { apply rall_lift; [now apply fine_expr|]. intros c. rewrite Es. cbn [lift rbind]. apply fine_run_fmt. intros m. now apply fine_err_format. }
  destruct e as [b|name [a|] recv s]; [exact G|exact G|]. clear G. cbn [s_inline].
  cbn [expr_ok] in He. destruct He as (H1 & H2 & H3 & H4).
  apply rall_lift; [now apply fine_expr|]. intros c. apply rall_lift; [now apply fine_index|]. intros nm.
  destruct (map_get nm (en_functions (ri_engine inner))) as [[f|f]|].
  - apply fine_run_fmt. intros m. now apply fine_err_format.
  - apply rall_lift; [now apply fine_apply|]. intros v. apply fine_run_fmt. intros m. now apply fine_err_format.
  - cbn [lift rall]. now apply fine_err_render.
Qed.
Lemma fine_loop vars c sp : loop_vars_ok source vars -> sok sp -> fine (s_loop source vars c sp).
Proof.
  intros Hv Hsp. unfold s_loop. destruct (cow_val c), vars; cbn [loop_vars_ok] in Hv; try (apply fine_err_render; tauto).
  - apply fine_bind; [now apply fine_index|]. intros; exact I.
  - apply fine_bind; [apply fine_index; tauto|]. intros. apply fine_bind; [apply fine_index; tauto|]. intros; exact I.
Qed.
Lemma fine_find name hist : sok (as_span name) -> fine (s_find inner source name hist).
Proof.
  intros H. unfold s_find. destruct (ri_template_fn inner) as [f|].
  - destruct (f hist (as_name name)); [exact I|now apply fine_err_render].
  - destruct (map_get _ _); [exact I|now apply fine_err_render].
Qed.
End Prims.

(** ** Templates *)
Variable inner : renderer_inner.
Variable ast_of : template -> scope.

(** The names of the templates a statement includes. *)
Fixpoint inc_names (s : stmt) : list str :=
  match s with
  | SRaw _ | SInline _ _ => []
  | SInclude name _ => [as_name name]
  | SIf _ _ thn els =>
    flat_map inc_names thn ++ match els with Some l => flat_map inc_names l | None => [] end
  | SFor _ _ b => flat_map inc_names b
  | SWith _ _ b => flat_map inc_names b
  end.

(** No statement [include "name"] (without [with]) inside a [with] block;
    [w] says whether we are in one. *)
Fixpoint sharing_ok (w : bool) (s : stmt) : Prop :=
  let all := fix all (w : bool) (l : list stmt) : Prop :=
    match l with [] => True | s :: l' => sharing_ok w s /\ all w l' end in
  match s with
  | SRaw _ | SInline _ _ => True
  | SInclude _ None => w = false
  | SInclude _ (Some _) => True
  | SIf _ _ thn els => all w thn /\ match els with Some l => all w l | None => True end
  | SFor _ _ b => all w b
  | SWith _ _ b => all true b
  end.
Fixpoint sharing_all (w : bool) (l : list stmt) : Prop :=
  match l with [] => True | s :: l' => sharing_ok w s /\ sharing_all w l' end.

(** [resolves name t]: an include of [name] can find [t]. *)
Definition resolves (name : str) (t : template) : Prop :=
  match ri_template_fn inner with
  | Some f => exists h, f h name = inl t
  | None => map_get name (en_templates (ri_engine inner)) = Some t
  end.
(** [nested t n t' n']: while [t], named [n], is rendered, [t'], named [n'], can be:
    it is [t] itself or reached by a chain of includes. *)
Inductive nested : template -> option str -> template -> option str -> Prop :=
| ne_self t n : nested t n t n
| ne_include t n name t1 t' n' : In name (flat_map inc_names (ast_of t)) -> resolves name t1 ->
    nested t1 (Some name) t' n' -> nested t n t' n'.

(** [raised t n e]: error [e] of template [t] named [n]: it has that name and points
    into the source of [t], or is a failed write of raw text. *)
Definition raised (t : template) (n : option str) (e : error) : Prop :=
  exists e0, (located (t_source t) e0 \/ e0 = mk_fmt_error) /\
    e = match n with Some s => with_template_name e0 s | None => e0 end.

Definition depth_error : error :=
  mkerror KRender None (Some (s2b "reached maximum include depth (" ++ show_N (max_include_depth inner) ++ s2b ")")) None.

Variable np : bool.
Definition outcome_ok {A} (t : template) (n : option str) (r : res A) : Prop :=
  match r with
  | Ok _ => True
  | Err e => e = depth_error \/ exists t' n', nested t n t' n' /\ raised t' n' e
  | Panic => np = false
  | OutOfFuel => False
  end.
Definition no_vars (st : stack) : Prop :=
  Forall (fun fr => match fr with FrVar _ _ => False | _ => True end) (visible st).

Lemma outcome_here {A} (source : str) (t : template) n (x : rt A) : source = t_source t ->
  rall (fun r => rp np source r (fun _ => True)) x -> rall (outcome_ok t n) (name_err n x).
Proof.
  intros -> H. unfold name_err. induction x as [r|s o IHo e IHe]; cbn [rmap_err rall] in *.
  - destruct r as [a|e| |]; cbn in *; auto. right. exists t, n. split; [constructor|]. exists e. auto.
  - intuition.
Qed.

Hypothesis Hast : forall t, provided inner t -> Forall (stmt_ok (t_source t)) (ast_of t) /\ (ast_of t <> [] -> t_source t <> []) /\
  (np = true -> sharing_all false (ast_of t)).

Section Stmts.
Variable t : template.
Variable n : option str.
Hypothesis Hne : t_source t <> [].
Variable inc : option rend.
Notation source := (t_source t).
Hypothesis Hinc : forall run name t' st hist, inc = Some run -> In name (flat_map inc_names (ast_of t)) -> resolves name t' ->
  (np = true -> no_vars st) -> rall (outcome_ok t n) (run t' (Some name) st hist).

Notation s_stmt := (s_stmt inner inc source n).
Notation s_scope := (s_scope inner inc source n).
Notation fineall := (rall (outcome_ok t n)).

Definition st_ok (w : bool) (st : stack) : Prop := np = true -> vars_here source st /\ (w = false -> no_vars st).

Lemma outcome_bind {A B} (x : rt A) (f : A -> rt B) : fineall x -> (forall a, oks x a -> fineall (f a)) -> fineall (rbind x f).
Proof. intros Hx Hf. eapply rall_bind; eauto. Qed.

Lemma here_ok_ {A} (r : res A) : rp np source r (fun _ => True) -> fineall (here n r).
Proof. intros H. apply (outcome_here source t n (lift r)); auto. Qed.

Lemma find_resolves name hist t' h' : s_find inner source name hist = Ok (t', h') -> resolves (as_name name) t'.
Proof.
  unfold s_find, resolves, err_render. destruct (ri_template_fn inner) as [f|].
  - destruct (f hist (as_name name)) eqn:E; [|destruct (build_pretty _ _); discriminate]. injection 1 as <- <-. eauto.
  - destruct (map_get _ _) eqn:E; [|destruct (build_pretty _ _); discriminate]. now injection 1 as <- <-.
Qed.

Definition stmt_fine (s : stmt) : Prop := stmt_ok source s -> (forall x, In x (inc_names s) -> In x (flat_map inc_names (ast_of t))) ->
  forall w st hist, st_ok w st -> (np = true -> sharing_ok w s) -> fineall (s_stmt s st hist).

Lemma scope_fine l : Forall stmt_fine l -> Forall (stmt_ok source) l ->
  (forall x, In x (flat_map inc_names l) -> In x (flat_map inc_names (ast_of t))) ->
  forall w st hist, st_ok w st -> (np = true -> sharing_all w l) -> fineall (s_scope l st hist).
Proof.
  induction 1 as [|s l Hs Hl IH]; intros Hok Hin w st hist Hst Hw; cbn [RenderSpec.s_scope]; [exact I|].
  inversion Hok; subst. cbn [flat_map] in Hin. apply outcome_bind.
  - apply (Hs H1) with (w := w); auto. { intros x Hx. apply Hin. apply in_or_app. auto. } intros E. exact (proj1 (Hw E)).
  - intros h _. apply IH with (w := w); auto. { intros x Hx. apply Hin. apply in_or_app. auto. } intros E. exact (proj2 (Hw E)).
Qed.

Lemma frames_loops vars c sp frs : s_loop source vars c sp = Ok frs -> Forall (fun fr => exists l, fr = FrLoop l) frs.
Proof.
  assert (L : forall o i l k, Forall (fun fr => exists l, fr = FrLoop l) (list_frames o i k l)).
  { intros o i. induction l as [|x l IH]; intros k; cbn [list_frames]; constructor; eauto. }
  assert (M : forall o i j l k, Forall (fun fr => exists l, fr = FrLoop l) (map_frames o i j k l)).
  { intros o i j. induction l as [|x l IH]; intros k; cbn [map_frames]; constructor; eauto. }
  unfold s_loop, err_render. destruct (cow_val c), vars; try (destruct (build_pretty _ _); discriminate).
  - destruct (index_span _ _); try discriminate. injection 1 as <-. apply L.
  - destruct (index_span source (id_span key)); try discriminate. cbn [bind].
    destruct (index_span source (id_span value)); try discriminate. injection 1 as <-. apply M.
Qed.
Lemma st_ok_frame w fr st : (match fr with FrVar m _ => w = true /\ span_ok source (id_span m) | FrBoundary | FrValueFn _ => False | _ => True end) ->
  st_ok false st \/ st_ok w st -> st_ok w (fr :: st).
Proof.
  intros Hf Hst Hnp. assert (vars_here source st /\ (w = false -> no_vars st)) as (H1 & H2).
  { destruct Hst as [H|H]; destruct (H Hnp); auto. }
  unfold vars_here, no_vars in *. destruct fr as [f|c|m c|l|]; cbn [visible]; try contradiction; split; intros; try (constructor; auto; tauto).
  destruct Hf. congruence.
Qed.
Lemma stmt_fine_all s : stmt_fine s.
Proof.
  induction s as [sp|e sp|nm g|neg c thn els Ht He|v e b Hb|e nm b Hb] using stmt_ind'; intros Hok Hin w st hist Hst Hw;
  inversion Hok; subst; cbn [inc_names] in Hin.
  - cbn [RenderSpec.s_stmt]. apply outcome_bind; [apply here_ok_; now apply fine_index|].
    intros raw _. cbn [rall]. split; [exact I|]. unfold here, lift. cbn [name_err rmap_err rall]. right.
    exists t, n. split; [constructor|]. exists mk_fmt_error. auto.
  - cbn [RenderSpec.s_stmt]. apply outcome_bind; [|intros; exact I].
    apply (outcome_here source); auto. apply fine_inline; auto. intros E. now apply Hst.
  - cbn [RenderSpec.s_stmt rbind]. apply outcome_bind; [apply here_ok_; now apply fine_find|].
    intros [t' h'] Ho. unfold here in Ho. apply oks_name_err in Ho.
    destruct inc as [run|].
    + assert (E : s_find inner source nm hist = Ok (t', h')). { destruct (s_find _ _ _ _) as [[? ?]| | |]; cbn in Ho; try contradiction. congruence. }
      apply (Hinc run); auto. { apply Hin. now left. } { eapply find_resolves; eauto. }
      intros Enp. apply (Hst Enp). now apply Hw in Enp.
    + cbn. left. reflexivity.
  - cbn [RenderSpec.s_stmt]. apply outcome_bind.
    { apply outcome_bind; [|intros; exact I]. apply here_ok_. apply fine_expr; auto. intros E. now apply Hst. }
    intros st' Hst'. apply oks_rbind in Hst' as (c & _ & Ec). cbn in Ec. subst st'.
    apply outcome_bind; [apply here_ok_; now apply fine_find|].
    intros [t' h'] Ho. unfold here in Ho. apply oks_name_err in Ho.
    destruct inc as [run|].
    + assert (E : s_find inner source nm hist = Ok (t', h')). { destruct (s_find _ _ _ _) as [[? ?]| | |]; cbn in Ho; try contradiction. congruence. }
      apply (Hinc run); auto. { apply Hin. now left. } { eapply find_resolves; eauto. }
      intros _. unfold no_vars. cbn [visible]. repeat constructor.
    + cbn. left. reflexivity.
  - rewrite s_stmt_if. apply outcome_bind. { apply here_ok_. apply fine_expr; auto. intros E. now apply Hst. }
    intros v _. destruct (xorb neg _); [|exact I].
    apply scope_fine with (w := w); auto. { intros x Hx. apply Hin. now rewrite app_nil_r. } intros E. apply Hw in E. apply E.
  - rewrite s_stmt_if. apply outcome_bind. { apply here_ok_. apply fine_expr; auto. intros E. now apply Hst. }
    intros v _. destruct (xorb neg _); apply scope_fine with (w := w); auto.
    { intros x Hx. apply Hin. apply in_or_app. auto. } { intros E. apply Hw in E. apply E. }
    { intros x Hx. apply Hin. apply in_or_app. auto. } { intros E. apply Hw in E. apply E. }
  - rewrite s_stmt_for. apply outcome_bind. { apply here_ok_. apply fine_expr; auto. intros E. now apply Hst. }
    intros c _. destruct (expr_span_sok source e) as (sp & Es & Hsp); auto. rewrite Es. cbn [here name_err lift rmap_err rbind].
    apply outcome_bind. { apply here_ok_. now apply fine_loop. }
    intros frs Hf. assert (Ef : s_loop source v c sp = Ok frs).
    { destruct (s_loop source v c sp); cbn in Hf; try contradiction. congruence. }
    apply frames_loops in Ef. clear Hf. revert hist. induction Ef as [|fr frs (l & ->) _ IH]; intros hist; cbn [s_each]; [exact I|].
    apply outcome_bind; [|intros; apply IH]. apply scope_fine with (w := w); auto.
    apply st_ok_frame; auto.
  - rewrite s_stmt_with. apply outcome_bind. { apply here_ok_. apply fine_expr; auto. intros E. now apply Hst. }
    intros c _. apply scope_fine with (w := true); auto.
    apply st_ok_frame; auto. right. intros E. split; [apply (Hst E)|discriminate].
Qed.
End Stmts.

Lemma nested_step t n name t1 : In name (flat_map inc_names (ast_of t)) -> resolves name t1 ->
  forall A (r : res A), outcome_ok t1 (Some name) r -> outcome_ok t n r.
Proof.
  intros H1 H2 A r. destruct r; cbn; auto. intros [H|(t' & n' & H3 & H4)]; auto. right. exists t', n'. split; auto. econstructor; eauto.
Qed.

Lemma resolves_provided name t : resolves name t -> provided inner t.
Proof.
  unfold resolves, provided. destruct (ri_template_fn inner) as [f|] eqn:E.
  - intros (h & H). right. left. eauto.
  - intros H. right. right. eauto.
Qed.

Lemma template_fine d : forall t n st hist, provided inner t -> (np = true -> no_vars st) ->
  rall (outcome_ok t n) (s_template inner ast_of d t n st hist).
Proof.
  induction d as [|d IH]; intros t n st hist Hp Hst; cbn [s_template]; destruct (Hast t Hp) as (H1 & H2 & H3).
  - destruct (ast_of t) as [|s l] eqn:E; [exact I|]. rewrite <- E in *. assert (Hne : t_source t <> []) by (apply H2; rewrite E; discriminate).
    apply scope_fine with (w := false); auto.
    + apply Forall_forall. intros x _. apply stmt_fine_all; auto. discriminate.
    + intros Enp. split; auto. specialize (Hst Enp). eapply Forall_impl; [|exact Hst]. intros []; cbn; tauto.
  - destruct (ast_of t) as [|s l] eqn:E; [exact I|]. rewrite <- E in *. assert (Hne : t_source t <> []) by (apply H2; rewrite E; discriminate).
    apply scope_fine with (w := false); auto.
    + apply Forall_forall. intros x _. apply stmt_fine_all; auto. intros run name t' st' hist' Er Hin Hr Hv. injection Er as <-.
      eapply rall_mono; [apply (nested_step t n name t' Hin Hr)|]. apply IH; auto. now apply resolves_provided in Hr.
    + intros Enp. split; auto. specialize (Hst Enp). eapply Forall_impl; [|exact Hst]. intros []; cbn; tauto.
Qed.

Theorem render_fine st : (np = true -> no_vars st) ->
  rall (outcome_ok (ri_template inner) (ri_template_name inner)) (s_render inner ast_of st).
Proof.
  intros H. unfold s_render. eapply rall_bind; [apply template_fine; auto; now left|..]; cbn; auto.
Qed.
End RenderErr.
