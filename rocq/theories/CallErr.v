(** What a rendering with functions that have state can end with (Calls.v): every error
    comes from one of the templates rendered, and there is no panic and no endless
    rendering unless a function of the user panics or never returns. *)
From Verif Require Import Base Utf8 Ext Errors Syntax Value Ast Wp AstOk Compiler CompileProof Fmt Stack Filters Render RenderSpec
  RenderProof RenderErr Calls CallSpec CallProof.

Section CallErr.
Context `{X : Ext}.
Context {S : Type}.
Variable ev : env S.
Variable inner : renderer_inner.
Variable ast_of : template -> scope.
Variable np : bool.

(** An answer the functions of the user may give: they return and, if [np], do not panic. *)
Definition answer {E A} (r : outcome E A) : Prop := match r with Panic => np = false | OutOfFuel => False | _ => True end.
Definition calm : Prop :=
  (forall s x, answer (snd (ev_write ev s x))) /\ (forall s f v, answer (snd (ev_format ev s f v))) /\
  (forall s f v l, answer (snd (ev_filter ev s f v l))) /\ (forall s p, answer (snd (ev_value ev s p))) /\
  (forall s n, answer (snd (ev_template ev s n))).
Hypothesis Hev : calm.

(** Every result of a computation *)
Definition eall {A} (P : res A -> Prop) (x : eff S A) : Prop := forall s, P (snd (x s)).
Lemma eall_ret {A} (P : res A -> Prop) r : P r -> eall P (eret r).
Proof. intros H s. exact H. Qed.
Lemma eall_bind {A B} (P : res A -> Prop) (Q : res B -> Prop) (x : eff S A) f : eall P x ->
  (forall a, (exists s s', x s = (s', Ok a)) -> eall Q (f a)) -> (forall e, P (Err e) -> Q (Err e)) -> (P Panic -> Q Panic) ->
  (P OutOfFuel -> Q OutOfFuel) -> eall Q (ebind x f).
Proof.
  intros Hx Hf He Hp Ho s. unfold ebind. specialize (Hx s). destruct (x s) as [s' [a|e| |]] eqn:E; cbn [efx snd] in *; auto.
  apply Hf. eauto.
Qed.
Lemma eall_ask {E A} (P : res A -> Prop) (call : S -> S * outcome E A) refused :
  (forall s, answer (snd (call s))) -> (forall a, P (Ok a)) -> (forall e, P (refused e)) -> (np = false -> P Panic) -> eall P (eask call refused).
Proof.
  intros Hc H1 H2 H3 s. unfold eask. specialize (Hc s). destruct (call s) as [s' [a|e| |]]; cbn [snd answer] in *; auto. contradiction.
Qed.

Section Prims.
Variable source : str.
Hypothesis Hne : source <> [].
Notation sok := (span_ok source).
Notation fine x := (rp np source x (fun _ => True)).
Notation efine := (eall (fun r => rp np source r (fun _ => True))).

Lemma efine_ret {A} (r : res A) : fine r -> efine (eret r).
Proof. intros H s. exact H. Qed.
Lemma efine_bind {A B} (x : eff S A) (f : A -> eff S B) : efine x -> (forall a, efine (f a)) -> efine (ebind x f).
Proof. intros Hx Hf. eapply eall_bind; eauto. Qed.
Lemma efine_res {A B} (r : res A) (f : A -> eff S B) : fine r -> (forall a, r = Ok a -> efine (f a)) -> efine (ebind (eret r) f).
Proof.
  intros Hr Hf. eapply eall_bind; [apply efine_ret, Hr|..]; cbn; auto. intros a (s & s' & E). apply Hf. unfold eret in E. congruence.
Qed.
Lemma efine_ask {E A} (call : S -> S * outcome E A) (refused : E -> res A) :
  (forall s, answer (snd (call s))) -> (forall e, fine (refused e)) -> efine (eask call refused).
Proof. intros Hc H. apply eall_ask; auto. exact (fun _ => I). Qed.

Lemma efine_lookup_var v : var_ok source v -> forall st, (np = true -> vars_here source st) -> efine (x_lookup_var ev st source v).
Proof.
  intros Hv. induction st as [|fr st IH]; intros Hs; cbn [x_lookup_var]; [apply efine_ret; now apply fine_not_found|].
  destruct fr as [f|c|name c|l|].
  - destruct Hv as (id & sp & ms & Ev & H). apply efine_res; [subst v; now apply fine_value_path|]. intros p _.
    apply efine_bind; [|intros a; now apply efine_ret].
    destruct (var_span_ok source v) as (s & -> & Hsp). { exists id, sp, ms. auto. }
    apply efine_ask; [intros s0; apply Hev|]. intros e. now apply fine_err_render.
  - apply efine_res. { destruct Hv as (id & sp & ms & -> & H). now apply fine_lookup_path_maybe. }
    intros [x|] _; [now apply efine_ret|]. apply IH. intros E. specialize (Hs E). unfold vars_here in *. cbn [visible] in Hs. now inversion Hs.
  - destruct Hv as (id & sp & ms & -> & H). inversion H as [|? ? (H1 & _) H']; subst. cbn [access_span mb_access] in H1.
    cbn [var_first hd_error unwrap]. apply efine_res; [exact I|]. intros m Em. injection Em as <-. cbn [mb_access access_span].
    apply efine_res; [now apply fine_index|]. intros a _. apply efine_res.
    { apply fine_index_any. intros E. specialize (Hs E). unfold vars_here in Hs. cbn [visible] in Hs. now inversion Hs. }
    intros b _. destruct (str_eqb a b); [apply efine_ret; apply fine_lookup_path; auto|]. apply IH.
    intros E. specialize (Hs E). unfold vars_here in *. cbn [visible] in Hs. now inversion Hs.
  - apply efine_res; [now apply fine_loop_lookup|]. intros [x|] _; [now apply efine_ret|]. apply IH.
    intros E. specialize (Hs E). unfold vars_here in *. cbn [visible] in Hs. now inversion Hs.
  - apply efine_ret. now apply fine_not_found.
Qed.
Lemma efine_get_arg ty st b : (np = true -> vars_here source st) -> base_ok source b -> efine (x_get_arg ev ty source st b).
Proof.
  intros Hs Hb. destruct b as [v|x sp]; cbn [x_get_arg base_ok] in *.
  - apply efine_bind; [now apply efine_lookup_var|]. intros c. apply efine_ret.
    destruct (match c with Borrowed x => from_value_ref ty x | Owned x => from_value ty x end); [exact I|].
    destruct (var_span_ok source v Hb) as (s & -> & Hsp). cbn [bind]. unfold err_expected_arg. now apply fine_err_render.
  - apply efine_ret. destruct (from_value_ref ty x); [exact I|]. unfold err_expected_arg. now apply fine_err_render.
Qed.
Lemma efine_get_args st : (np = true -> vars_here source st) -> forall l tys, length l = length tys -> Forall (base_ok source) l ->
  efine (x_get_args ev tys source st l).
Proof.
  intros Hs. induction l as [|b l IH]; intros [|ty tys] E H; try discriminate; cbn [x_get_args]; [now apply efine_ret|].
  inversion H; subst. apply efine_bind; [now apply efine_get_arg|]. intros a. apply efine_bind; [apply IH; auto|]. intros; now apply efine_ret.
Qed.
(** A filter may also refuse, with a message and no place. *)
Notation called := (fun r : res value => match r with Err e => located source e \/ exists m, e = mk_filter_error m | Panic => np = false | OutOfFuel => False | Ok _ => True end).
Lemma x_call_filter_spec f nm name st c l : (np = true -> vars_here source st) -> sok (id_span name) -> Forall (base_ok source) l ->
  eall called (x_call_filter ev f nm source name st c l).
Proof.
  intros Hs Hn Hl. unfold x_call_filter.
  assert (K : fine (check_args (length (fl_args f)) source name l)).
  { unfold check_args. destruct (_ =? _); [exact I|]. now apply fine_err_render. }
  eapply eall_bind; [apply efine_ret, K| |cbn; auto..]. intros a (s0 & s0' & E). unfold eret in E. injection E as _ E.
  unfold check_args in E. destruct (length l =? length (fl_args f)) eqn:El. 2:{ unfold err_render in E. destruct (build_pretty _ _); discriminate. }
  clear E K s0 s0' a. apply Nat.eqb_eq in El. pose proof (from_cow_no_ref (fl_recv f) c) as Hnr.
  apply (eall_bind (fun r => fine r)).
  - apply efine_ret. destruct (from_cow_mut (fl_recv f) c) as [av|er]; [exact I|]. unfold err_expected_val. destruct er; try (now apply fine_err_render). exfalso. eapply Hnr. reflexivity.
  - intros av _. apply (eall_bind (fun r => fine r)); [now apply efine_get_args| |cbn; auto..]. intros avs _.
    apply eall_ask; [intros s; apply Hev|cbn; auto|cbn; eauto|cbn; auto].
  - cbn; auto.
  - cbn; auto.
  - cbn; auto.
Qed.
Lemma eall_catch {A} (P Q : res A -> Prop) f (x : eff S A) : eall P x -> (forall a, P (Ok a) -> Q (Ok a)) -> (forall e, P (Err e) -> Q (f e)) ->
  (P Panic -> Q Panic) -> (P OutOfFuel -> Q OutOfFuel) -> eall Q (ecatch f x).
Proof. intros Hx H1 H2 H3 H4 s. specialize (Hx s). unfold ecatch. destruct (x s) as [s' [a|e| |]]; cbn [snd] in *; auto. Qed.
Lemma efine_apply st name l c : (np = true -> vars_here source st) -> sok (id_span name) -> Forall (base_ok source) l ->
  efine (c_apply ev inner source st name l c).
Proof.
  intros Hs Hn Hl s0. rewrite c_apply_x. revert s0. apply efine_res; [now apply fine_index|]. intros nm _.
  destruct (map_get nm (en_functions (ri_engine inner))) as [[f|f]|]; try (apply efine_ret; now apply fine_err_render).
  eapply eall_catch; [apply (x_call_filter_spec f nm name st c l Hs Hn Hl)|cbn; auto| |cbn; auto..].
  destruct (build_pretty_ok source _ Hne Hn) as (p & Ep).
  intros e H. unfold err_enrich. destruct H as [H|(m & ->)].
  - destruct H as (H1 & H2 & sp & p' & H3 & H4 & H5). rewrite H5. cbn. split; auto. split; auto. eauto 10.
  - cbn [e_pretty mk_filter_error]. rewrite Ep. cbn. split; [reflexivity|]. split; [auto|]. eauto 10.
Qed.
Lemma efine_expr st : (np = true -> vars_here source st) -> forall e, expr_ok source e -> efine (c_expr ev inner source st e).
Proof.
  intros Hs. induction e as [b|name a recv IH sp]; intros He; cbn [c_expr expr_ok] in *.
  - destruct b as [v|v s]; [now apply efine_lookup_var|now apply efine_ret].
  - destruct He as (H1 & H2 & H3 & H4). apply efine_bind; [now apply IH|]. intros c. apply efine_bind; [|intros; now apply efine_ret].
    apply efine_apply; auto. destruct a as [a|]; cbn [arg_list oargs_ok] in *; [apply H2|constructor].
Qed.
Lemma efine_format which v sp : sok sp -> efine (c_format ev which v source sp).
Proof. intros H. apply efine_ask; [intros s; apply Hev|]. intros e. now apply fine_err_format. Qed.
Lemma efine_inline st e : (np = true -> vars_here source st) -> expr_ok source e -> efine (c_inline ev inner source st e).
Proof.
  intros Hs He. destruct (expr_span_sok source e He) as (sp & Es & Hsp).
  assert (G : efine (let! c := c_expr ev inner source st e in let! sp := eret (expr_span e) in c_format ev None (cow_val c) source sp)).
  { apply efine_bind; [now apply efine_expr|]. intros c. rewrite Es. apply efine_res; [exact I|]. intros sp' E. injection E as <-. now apply efine_format. }
  destruct e as [b|name [a|] recv s]; [exact G|exact G|]. clear G. cbn [c_inline].
  cbn [expr_ok] in He. destruct He as (H1 & H2 & H3 & H4).
  apply efine_bind; [now apply efine_expr|]. intros c. apply efine_res; [now apply fine_index|]. intros nm _.
  destruct (map_get nm (en_functions (ri_engine inner))) as [[f|f]|].
  - now apply efine_format.
  - apply efine_bind; [now apply efine_apply|]. intros v. now apply efine_format.
  - apply efine_ret. now apply fine_err_render.
Qed.
Lemma efine_find name : sok (as_span name) -> efine (c_find ev inner source name).
Proof.
  intros H. unfold c_find. destruct (ri_template_fn inner) as [f|].
  - apply efine_ask; [intros s; apply Hev|]. intros e. now apply fine_err_render.
  - destruct (map_get _ _); apply efine_ret; [exact I|now apply fine_err_render].
Qed.
End Prims.
(** [c_resolves name t]: an include of [name] can find [t], in some state. *)
Definition c_resolves (name : str) (t : template) : Prop :=
  match ri_template_fn inner with
  | Some _ => exists s s', ev_template ev s name = (s', Ok t)
  | None => map_get name (en_templates (ri_engine inner)) = Some t
  end.
(** [c_nested t n t' n']: while [t], named [n], is rendered, [t'], named [n'], can be. *)
Inductive c_nested : template -> option str -> template -> option str -> Prop :=
| cn_self t n : c_nested t n t n
| cn_include t n name t1 t' n' : In name (flat_map inc_names (ast_of t)) -> c_resolves name t1 ->
    c_nested t1 (Some name) t' n' -> c_nested t n t' n'.
Definition c_outcome {A} (t : template) (n : option str) (r : res A) : Prop :=
  match r with
  | Ok _ => True
  | Err e => e = depth_error inner \/ exists t' n', c_nested t n t' n' /\ raised t' n' e
  | Panic => np = false
  | OutOfFuel => False
  end.
Hypothesis Hast : forall t, t = ri_template inner \/ c_named ev inner t -> Forall (stmt_ok (t_source t)) (ast_of t) /\ (ast_of t <> [] -> t_source t <> []) /\
  (np = true -> sharing_all false (ast_of t)).

Section Stmts.
Variable t : template.
Variable n : option str.
Hypothesis Hne : t_source t <> [].
Variable inc : option (@c_rend S).
Notation source := (t_source t).
Hypothesis Hinc : forall run name t' st, inc = Some run -> In name (flat_map inc_names (ast_of t)) -> c_resolves name t' ->
  (np = true -> no_vars st) -> eall (c_outcome t n) (run t' (Some name) st).
Notation c_stmt := (c_stmt ev inner inc source n).
Notation c_scope := (c_scope ev inner inc source n).
Notation fineall := (eall (c_outcome t n)).
Notation st_ok := (st_ok np t).

Lemma c_outcome_bind {A B} (x : eff S A) (f : A -> eff S B) : fineall x -> (forall a, (exists s s', x s = (s', Ok a)) -> fineall (f a)) -> fineall (ebind x f).
Proof. intros Hx Hf. eapply eall_bind; eauto. Qed.
Lemma c_here_ok {A} (x : eff S A) : eall (fun r => rp np source r (fun _ => True)) x -> fineall (c_here n x).
Proof.
  intros H. unfold c_here. eapply eall_catch; [exact H|cbn; auto..]. intros e He. right. exists t, n. split; [constructor|]. exists e. auto.
Qed.
Lemma c_here_ret {A} (x : eff S A) a : (exists s s', c_here n x s = (s', Ok a)) -> exists s s', x s = (s', Ok a).
Proof.
  intros (s & s' & E). exists s, s'. unfold c_here, ecatch in E. destruct (x s) as [s2 [b|e| |]]; try discriminate. congruence.
Qed.
Lemma c_find_resolves name t' : (exists s s', c_find ev inner source name s = (s', Ok t')) -> c_resolves (as_name name) t'.
Proof.
  intros (s & s' & E). unfold c_find, c_resolves, eask, eret, err_render in *. destruct (ri_template_fn inner) as [f|].
  - destruct (ev_template ev s (as_name name)) as [s2 [t2|e| |]] eqn:E2; try (destruct (build_pretty _ _)); try discriminate. injection E as <- <-. eauto.
  - destruct (map_get _ _) eqn:E2; [|destruct (build_pretty _ _); discriminate]. congruence.
Qed.
Definition c_fine (s : stmt) : Prop := stmt_ok source s -> (forall x, In x (inc_names s) -> In x (flat_map inc_names (ast_of t))) ->
  forall w st, st_ok w st -> (np = true -> sharing_ok w s) -> fineall (c_stmt s st).
Lemma c_scope_fine l : Forall c_fine l -> Forall (stmt_ok source) l ->
  (forall x, In x (flat_map inc_names l) -> In x (flat_map inc_names (ast_of t))) ->
  forall w st, st_ok w st -> (np = true -> sharing_all w l) -> fineall (c_scope l st).
Proof.
  induction 1 as [|s l Hs Hl IH]; intros Hok Hin w st Hst Hw; cbn [CallSpec.c_scope]; [now apply eall_ret|].
  inversion Hok; subst. cbn [flat_map] in Hin. apply c_outcome_bind.
  - apply (Hs H1) with (w := w); auto. { intros x Hx. apply Hin. apply in_or_app. auto. } intros E. exact (proj1 (Hw E)).
  - intros h _. apply IH with (w := w); auto. { intros x Hx. apply Hin. apply in_or_app. auto. } intros E. exact (proj2 (Hw E)).
Qed.
Lemma c_include_fine nm st : span_ok source (as_span nm) -> In (as_name nm) (flat_map inc_names (ast_of t)) -> (np = true -> no_vars st) ->
  fineall (let! t := c_here n (c_find ev inner source nm) in
    match inc with None => eret (err_max_include_depth (max_include_depth inner)) | Some run => run t (Some (as_name nm)) st end).
Proof.
  intros Hsp Hin Hst. apply c_outcome_bind; [apply c_here_ok; now apply efine_find|].
  intros t' Ho. apply c_here_ret, c_find_resolves in Ho. destruct inc as [run|].
  - now apply (Hinc run).
  - apply eall_ret. cbn. left. reflexivity.
Qed.
Lemma c_fine_all s : c_fine s.
Proof.
  induction s as [sp|e sp|nm g|neg c thn els Ht He|v e b Hb|e nm b Hb] using stmt_ind'; intros Hok Hin w st Hst Hw;
  inversion Hok; subst; cbn [inc_names] in Hin.
  - cbn [CallSpec.c_stmt]. apply c_outcome_bind; [apply c_here_ok; apply efine_ret; now apply fine_index|].
    intros raw _. unfold c_here. eapply eall_catch with (P := fun r => match r with Err e => e = mk_fmt_error | Panic => np = false | OutOfFuel => False | _ => True end); cbn; auto.
    + apply eall_ask; cbn; auto. intros s. apply Hev.
    + intros e ->. right. exists t, n. split; [constructor|]. exists mk_fmt_error. auto.
  - cbn [CallSpec.c_stmt]. apply c_here_ok. apply efine_inline; auto. intros E. now apply Hst.
  - cbn [CallSpec.c_stmt]. apply c_outcome_bind; [now apply eall_ret|]. intros st' (s & s' & E). unfold eret in E. injection E as _ <-.
    apply c_include_fine; auto. { apply Hin. now left. } intros Enp. apply (Hst Enp). now apply Hw in Enp.
  - cbn [CallSpec.c_stmt]. apply c_outcome_bind.
    { apply c_outcome_bind; [|intros; now apply eall_ret]. apply c_here_ok. apply efine_expr; auto. intros E. now apply Hst. }
    intros st' (s & s' & E). unfold ebind in E. destruct (c_here n _ s) as [s2 [c| | |]]; cbn [efx] in E; try discriminate. unfold eret in E. injection E as _ <-.
    apply c_include_fine; auto. { apply Hin. now left. } intros _. unfold no_vars. cbn [visible]. repeat constructor.
  - rewrite c_stmt_if. apply c_outcome_bind. { apply c_here_ok. apply efine_expr; auto. intros E. now apply Hst. }
    intros v _. destruct (xorb neg _); [|now apply eall_ret].
    apply c_scope_fine with (w := w); auto. { intros x Hx. apply Hin. now rewrite app_nil_r. } intros E. apply Hw in E. apply E.
  - rewrite c_stmt_if. apply c_outcome_bind. { apply c_here_ok. apply efine_expr; auto. intros E. now apply Hst. }
    intros v _. destruct (xorb neg _); apply c_scope_fine with (w := w); auto.
    { intros x Hx. apply Hin. apply in_or_app. auto. } { intros E. apply Hw in E. apply E. }
    { intros x Hx. apply Hin. apply in_or_app. auto. } { intros E. apply Hw in E. apply E. }
  - rewrite c_stmt_for. apply c_outcome_bind. { apply c_here_ok. apply efine_expr; auto. intros E. now apply Hst. }
    intros c _. destruct (expr_span_sok source e) as (sp & Es & Hsp); auto. rewrite Es.
    apply c_outcome_bind. { apply c_here_ok. now apply efine_ret. }
    intros sp' E. apply c_here_ret in E as (s & s' & E). unfold eret in E. injection E as _ <-.
    apply c_outcome_bind. { apply c_here_ok. apply efine_ret. now apply fine_loop. }
    intros frs Hf. apply c_here_ret in Hf as (s1 & s1' & Ef). unfold eret in Ef. injection Ef as _ Ef.
    apply frames_loops in Ef. induction Ef as [|fr frs (l & ->) _ IH]; cbn [c_each]; [now apply eall_ret|].
    apply c_outcome_bind; [|intros; apply IH]. apply c_scope_fine with (w := w); auto.
    apply st_ok_frame; auto.
  - rewrite c_stmt_with. apply c_outcome_bind. { apply c_here_ok. apply efine_expr; auto. intros E. now apply Hst. }
    intros c _. apply c_scope_fine with (w := true); auto.
    apply st_ok_frame; auto. right. intros E. split; [apply (Hst E)|discriminate].
Qed.
End Stmts.

Lemma c_nested_step t n name t1 : In name (flat_map inc_names (ast_of t)) -> c_resolves name t1 ->
  forall A (r : res A), c_outcome t1 (Some name) r -> c_outcome t n r.
Proof.
  intros H1 H2 A r. destruct r; cbn; auto. intros [H|(t' & n' & H3 & H4)]; auto. right. exists t', n'. split; auto. econstructor; eauto.
Qed.
Lemma c_resolves_named name t : c_resolves name t -> c_named ev inner t.
Proof.
  unfold c_resolves, c_named. destruct (ri_template_fn inner) as [f|] eqn:E.
  - intros (s & s' & H). left. split; [discriminate|]. eauto.
  - intros H. right. eauto.
Qed.
Lemma c_template_fine d : forall t n st, t = ri_template inner \/ c_named ev inner t -> (np = true -> no_vars st) ->
  eall (c_outcome t n) (c_template ev inner ast_of d t n st).
Proof.
  induction d as [|d IH]; intros t n st Hp Hst; cbn [c_template]; destruct (Hast t Hp) as (H1 & H2 & H3).
  - destruct (ast_of t) as [|s l] eqn:E; [now apply eall_ret|]. rewrite <- E in *. assert (Hne : t_source t <> []) by (apply H2; rewrite E; discriminate).
    apply c_scope_fine with (w := false); auto.
    + apply Forall_forall. intros x _. apply c_fine_all; auto. discriminate.
    + intros Enp. split; auto. specialize (Hst Enp). eapply Forall_impl; [|exact Hst]. intros []; cbn; tauto.
  - destruct (ast_of t) as [|s l] eqn:E; [now apply eall_ret|]. rewrite <- E in *. assert (Hne : t_source t <> []) by (apply H2; rewrite E; discriminate).
    apply c_scope_fine with (w := false); auto.
    + apply Forall_forall. intros x _. apply c_fine_all; auto. intros run name t' st' Er Hin Hr Hv s0. injection Er as <-.
      apply (c_nested_step t n name t' Hin Hr). apply IH; auto. right. eapply c_resolves_named; eauto.
    + intros Enp. split; auto. specialize (Hst Enp). eapply Forall_impl; [|exact Hst]. intros []; cbn; tauto.
Qed.
Theorem c_render_fine st : (np = true -> no_vars st) ->
  eall (c_outcome (ri_template inner) (ri_template_name inner)) (c_render ev inner ast_of st).
Proof. intros H. unfold c_render. apply c_template_fine; auto. Qed.
End CallErr.
