(** Every error of a rendering is a [rendering_error] (KindSpec.v). *)
From Verif Require Import Base Utf8 Ext Errors Value Ast Compiler Fmt Stack Filters Render KindSpec.

Section Kinds.
Context `{X : Ext}.
Variable inner : renderer_inner.
Notation limit := (max_include_depth inner).
(** Errors with a place, and those that a filter call makes before its place is added. *)
Definition marked (e : error) : Prop :=
  match e_kind e with KRender | KFilter => explained e /\ placed e | KFormat => placed e | _ => False end.
Definition raw (e : error) : Prop := marked e \/ e_kind e = KFilter /\ explained e.
Definition errs (P : error -> Prop) {A} (r : res A) : Prop := match r with Err e => P e | _ => True end.
Notation mk := (errs marked).
Lemma errs_mono (P Q : error -> Prop) {A} (r : res A) : (forall e, P e -> Q e) -> errs P r -> errs Q r.
Proof. destruct r; cbn; auto. Qed.
Lemma errs_bind (P : error -> Prop) {A B} (x : res A) (f : A -> res B) : errs P x -> (forall a, errs P (f a)) -> errs P (let* a := x in f a).
Proof. intros H Hf. destruct x as [a|e| |]; cbn [bind errs] in *; auto. Qed.
Lemma errs_none (P : error -> Prop) {A} (x : res A) : (forall e, x <> Err e) -> errs P x.
Proof. destruct x; cbn; auto. intros H. now destruct (H e). Qed.
Lemma unwrap_none {A} (o : option A) (e : error) : unwrap o <> Err e.
Proof. destruct o; discriminate. Qed.
Lemma index_none s sp (e : error) : index_span s sp <> Err e.
Proof. unfold index_span, slice. destruct (_ && _); discriminate. Qed.
Lemma bind_none {A B} (x : res A) (f : A -> res B) : (forall e, x <> Err e) -> (forall a e, f a <> Err e) -> forall e, (let* a := x in f a) <> Err e.
Proof. intros H Hf e. destruct x as [a|e2| |]; cbn [bind]; [apply Hf| |congruence|congruence]. intros E. injection E as ->. now apply (H e). Qed.
Lemma pretty_none s sp : forall e, build_pretty s sp <> Err e.
Proof.
  unfold build_pretty. destruct (to_ln_col _ _) as [ln col]. apply bind_none; [intros; apply index_none|]. intros a.
  apply bind_none; [|intros; discriminate]. intros e. destruct (nth_error _ ln); [discriminate|]. apply unwrap_none.
Qed.
Lemma mk_unwrap {A} (o : option A) : mk (unwrap o).
Proof. apply errs_none. intros e. apply unwrap_none. Qed.
Lemma mk_index s sp : mk (index_span s sp).
Proof. apply errs_none. intros e. apply index_none. Qed.
Lemma mk_pretty s sp : mk (build_pretty s sp).
Proof. apply errs_none, pretty_none. Qed.
Lemma mk_render {A} m s sp : mk (@err_render _ A m s sp).
Proof. unfold err_render. apply errs_bind; [apply mk_pretty|]. intros p. cbn. unfold explained, placed; cbn. split; discriminate. Qed.
Lemma mk_format {A} m s sp : mk (@err_format _ A m s sp).
Proof. unfold err_format. apply errs_bind; [apply mk_pretty|]. intros p. cbn. unfold placed; cbn. discriminate. Qed.
Lemma marked_placed e : marked e -> placed e.
Proof. unfold marked. destruct (e_kind e); intuition. Qed.
Lemma mk_enrich {A} e s sp : raw e -> mk (@err_enrich _ A e s sp).
Proof.
  intros H. unfold err_enrich. destruct (e_pretty e) as [p|] eqn:E.
  - cbn. destruct H as [H|(K & R)]; [exact H|]. unfold marked, placed. rewrite K, E. split; [exact R|discriminate].
  - destruct H as [H|(K & R)]; [now destruct (marked_placed e H)|]. apply errs_bind; [apply mk_pretty|]. intros p.
    cbn. unfold marked, placed, explained in *. cbn. rewrite K. split; [exact R|discriminate].
Qed.
Lemma mk_ok {A} (a : A) : mk (@Ok error A a).
Proof. exact I. Qed.

Ltac mk_go :=
  repeat first
    [ exact I | apply mk_render | apply mk_format | apply mk_index | apply mk_unwrap | (apply errs_bind; [|intros ?])
    | match goal with |- errs _ (match ?x with _ => _ end) => destruct x end
    | match goal with |- errs _ (if ?b then _ else _) => destruct b end ].

Lemma mk_lookup s v m : mk (lookup s v m).
Proof. unfold lookup. mk_go. Qed.
Lemma mk_first (v : var) : mk (@var_first error v).
Proof. unfold var_first. mk_go. Qed.
Lemma mk_var_span (v : var) : mk (@var_span error v).
Proof. unfold var_span, var_first, var_last. mk_go. Qed.
Lemma mk_not_found {A} s v : mk (@err_not_found _ A s v).
Proof. unfold err_not_found. apply errs_bind; [apply mk_first|]. intros. apply mk_render. Qed.
Lemma mk_maybe s c v : mk (lookup_path_maybe s c v).
Proof.
  unfold lookup_path_maybe. generalize (cow_val c) true. induction v as [|m v IH]; intros x b; cbn; [exact I|].
  pose proof (mk_lookup s x m) as H. destruct (lookup s x m) as [[y|]|e| |]; auto; destruct b; auto; exact I.
Qed.
Lemma mk_path s c v : mk (lookup_path s c v).
Proof.
  unfold lookup_path. generalize (cow_val c). induction v as [|m v IH]; intros x; cbn; [exact I|].
  apply errs_bind; [apply mk_lookup|]. intros [y|]; [apply IH|exact I].
Qed.
Lemma mk_resolve s l : forall v, mk (resolve s v l).
Proof. induction l as [|m l IH]; intros v; cbn; [exact I|]. apply errs_bind; [apply mk_lookup|]. intros [y|]; [apply IH|exact I]. Qed.
Lemma mk_loop l s v : mk (loop_lookup_var l s v).
Proof.
  unfold loop_lookup_var, lookup_loop. apply errs_bind; [apply mk_first|]. intros m. mk_go; apply mk_resolve.
Qed.
Lemma mk_value_path s v : mk (value_path s v).
Proof. induction v as [|m v IH]; cbn; mk_go. exact IH. Qed.
Lemma mk_lookup_var st s v : mk (lookup_var st s v).
Proof.
  induction st as [|fr st IH]; cbn; [apply mk_not_found|]. destruct fr as [f|c|n c|l|].
  - apply errs_bind; [apply mk_value_path|]. intros p. destruct (f p); [exact I|]. apply errs_bind; [apply mk_var_span|]. intros. apply mk_render.
  - apply errs_bind; [apply mk_maybe|]. intros [x|]; [exact I|exact IH].
  - apply errs_bind; [apply mk_first|]. intros m. mk_go; [apply mk_path|exact IH].
  - apply errs_bind; [apply mk_loop|]. intros [x|]; [exact I|exact IH].
  - apply mk_not_found.
Qed.
Lemma mk_arg t s st a : mk (get_arg t s st a).
Proof.
  destruct a as [v|x sp]; cbn [get_arg]; [|destruct (from_value_ref t x); [exact I|apply mk_render]].
  apply errs_bind; [apply mk_lookup_var|]. intros c. destruct (match c with Borrowed _ => _ | Owned _ => _ end); [exact I|].
  apply errs_bind; [apply mk_var_span|]. intros sp. apply mk_render.
Qed.
Lemma mk_args tys s st : forall l, mk (get_args tys s st l).
Proof.
  induction tys as [|t tys IH]; intros [|a l]; cbn [get_args]; try exact I. apply errs_bind; [apply mk_arg|]. intros av. apply errs_bind; [apply IH|]. intros; exact I.
Qed.
Lemma raw_call f s name st c l : errs raw (call_filter f s name st c l).
Proof.
  unfold call_filter, check_args. apply errs_bind.
  { apply (errs_mono marked); [now left|]. mk_go. }
  intros _. apply errs_bind.
  { apply (errs_mono marked); [now left|]. destruct (from_cow_mut _ _) as [a|[]]; cbn [err_expected_val]; mk_go. }
  intros r. apply errs_bind; [apply (errs_mono marked); [now left|apply mk_args]|].
  intros avs. destruct (fl_run f r avs); [exact I|]. right. split; [reflexivity|discriminate].
Qed.

(** ** Trees of writes, when no write fails *)
Fixpoint along {A} (P : error -> Prop) (x : rt A) : Prop :=
  match x with RRet r => errs P r | RWrite _ o _ => along P o end.
Lemma along_mono (P Q : error -> Prop) {A} (x : rt A) : (forall e, P e -> Q e) -> along P x -> along Q x.
Proof. intros H. induction x as [r|s o IHo e _]; cbn; [now apply errs_mono|exact IHo]. Qed.
Lemma along_bind P {A B} (x : rt A) (f : A -> rt B) : along P x -> (forall a, along P (f a)) -> along P (rbind x f).
Proof. intros H Hf. induction x as [r|s o IHo e _]; cbn [rbind along] in *; [|auto]. destruct r; cbn in *; auto. Qed.
Lemma along_lift P {A B} (x : res A) (f : A -> rt B) : errs P x -> (forall a, along P (f a)) -> along P (let% a := lift x in f a).
Proof. intros H Hf. apply along_bind; [exact H|exact Hf]. Qed.
Lemma along_fmt p m s sp : along marked (run_fmt p (fun x => err_format (m x) s sp)).
Proof. induction p as [|x|t o IHo e _]; cbn [run_fmt along]; [exact I|apply mk_format|exact IHo]. Qed.
Lemma along_names {A} tname (P : error -> Prop) (x : rt A) : (forall e n, P e -> P (with_template_name e n)) -> along P x -> along P (name_err tname x).
Proof.
  intros H. unfold name_err. induction x as [r|s o IHo e _]; cbn [rmap_err along]; [|exact IHo]. destruct r; cbn; auto. intros K. destruct tname; auto.
Qed.
Lemma along_exec t i pc st ex : along marked (exec_instr inner t i pc st ex).
Proof.
  destruct i as [j|j|j|sp|sp|name sp|vars sp|j|name| |name|name|v|v|name sp a]; cbn [exec_instr].
  - destruct j as [j|]; exact I.
  - apply along_lift; [apply mk_unwrap|]. intros c. destruct (as_bool _); [destruct j as [j|]; exact I|exact I].
  - apply along_lift; [apply mk_unwrap|]. intros c. destruct (negb _); [destruct j as [j|]; exact I|exact I].
  - apply along_lift; [apply mk_unwrap|]. intros c. apply along_bind; [apply (along_fmt _ (fun m => m))|intros; exact I].
  - apply along_lift; [apply mk_index|]. intros x. exact I.
  - apply along_lift; [apply mk_index|]. intros x. destruct (map_get x _) as [[f|f]|].
    + apply along_lift; [apply mk_unwrap|]. intros c. apply along_bind; [apply (along_fmt _ (fun m => m))|intros; exact I].
    + apply along_lift; [apply mk_unwrap|]. intros c. apply along_lift.
      { pose proof (raw_call f (t_source t) name st c []) as K. destruct (call_filter f _ _ _ _ _); try exact I. apply mk_enrich. exact K. }
      intros v. apply along_bind; [apply (along_fmt _ (fun m => m))|intros; exact I].
    + apply mk_render.
  - apply along_lift; [apply mk_unwrap|]. intros c. apply along_lift; [unfold loop_new; mk_go|]. intros l. exact I.
  - apply along_lift; [unfold last_loop_state; mk_go|]. intros l. destruct (iterate l); [exact I|]. apply along_lift; [unfold pop_loop_state; mk_go|]. intros st'. destruct j as [j|]; exact I.
  - apply along_lift; [apply mk_unwrap|]. intros c. exact I.
  - apply along_lift; [unfold pop_var; mk_go|]. intros st'. exact I.
  - exact I.
  - apply along_lift; [apply mk_unwrap|]. intros c. exact I.
  - apply along_lift; [apply mk_lookup_var|]. intros c. destruct ex; exact I.
  - destruct ex; exact I.
  - apply along_lift; [apply mk_index|]. intros x. destruct (map_get x _) as [[f|f]|]; [apply mk_render| |apply mk_render].
    apply along_lift; [apply mk_unwrap|]. intros c. cbv zeta. apply along_lift.
    { pose proof (raw_call f (t_source t) name st c match a with Some a => a_values a | None => [] end) as K. destruct (call_filter f _ _ _ _ _); try exact I. apply mk_enrich. exact K. }
    intros v. exact I.
Qed.
Lemma along_one t : forall n pc st ex, along marked (render_one inner n t pc st ex).
Proof.
  induction n as [|n IH]; intros pc st ex; cbn [render_one]; [exact I|]. destruct (nth_error _ pc) as [i|]; [|destruct (_ =? _); exact I].
  apply along_bind; [apply along_exec|]. intros [pc' st' ex'|rs pc' st']; [apply IH|exact I].
Qed.
Lemma mk_template s n h : mk (get_template inner s n h).
Proof. unfold get_template. mk_go. Qed.
Lemma marked_named e n : marked e -> marked (with_template_name e n).
Proof. unfold with_template_name. destruct (e_name e); auto. Qed.
Lemma marked_error e : marked e -> rendering_error limit e.
Proof. unfold marked, rendering_error. destruct (e_kind e); intuition. Qed.
Lemma along_loop : forall n ts st h, along (rendering_error limit) (render_loop inner n ts st h).
Proof.
  assert (W : forall A (x : rt A), along marked x -> along (rendering_error limit) x) by (intros A x; apply along_mono, marked_error).
  induction n as [|n IH]; intros [|a ts] st h; try exact I. cbn [render_loop].
  apply along_bind; [apply W, along_names; [apply marked_named|apply along_one]|]. intros [[rs pc] st']. cbv zeta.
  assert (D : forall (x : list activation * stack * list str), along (rendering_error limit)
    (let '(ts, st, h) := x in if (limit <? N.of_nat (length ts))%N then lift (err_max_include_depth limit) else render_loop inner n ts st h)).
  { intros [[ts' st''] h']. destruct (_ <? _)%N; [|apply IH]. cbn. unfold rendering_error, depth_reached, explained. cbn. split; [discriminate|right; auto]. }
  apply along_bind; [|exact D]. apply W. destruct rs as [|nm|nm c].
  - destruct (ac_has_scope a); [|exact I]. apply along_lift; [unfold pop_scope; mk_go|]. intros s1. apply along_lift; [unfold pop_boundary; mk_go|]. intros s2. exact I.
  - apply along_bind; [apply along_names; [apply marked_named|apply mk_template]|]. intros [t' h']. exact I.
  - apply along_bind; [apply along_names; [apply marked_named|apply mk_template]|]. intros [t' h']. exact I.
Qed.
Lemma along_render n st : along (rendering_error limit) (render inner n st).
Proof. apply along_loop. Qed.
Lemma string_along P {A} (x : rt A) : along P x -> forall b, errs P (snd (run_string b x)).
Proof. induction x as [r|s o IHo e _]; intros H b; cbn [run_string] in *; [exact H|]. now apply IHo. Qed.
(** With a writer: either no write failed, or the code of one that did is kept. *)
Lemma run_io {A} k (x : rt A) : forall (w : sk_state k) c, exists c', snd (fst (run k w (Some c) x)) = Some c'.
Proof.
  induction x as [r|s o IHo e IHe]; intros w c; cbn [run]; [exists c; reflexivity|]. destruct (sk_write k w s) as [w' [c'|]]; auto.
Qed.
Lemma run_along P {A} k (x : rt A) : along P x -> forall (w : sk_state k), snd (fst (run k w None x)) = None -> errs P (snd (run k w None x)).
Proof.
  induction x as [r|s o IHo e _]; intros H w; cbn [run]; [intros _; exact H|]. destruct (sk_write k w s) as [w' [c|]] eqn:E.
  - intros E'. destruct (run_io k e w' c) as (c' & K). congruence.
  - now apply IHo.
Qed.
End Kinds.
