(** Templates without loops and includes are run straight through. *)
From Verif Require Import Base Utf8 Ext Errors Value Ast Compiler CompileProof Fmt Stack Filters Render RenderErr SizeSpec.

(** ** Their code jumps forward only *)
Definition fwd (k : nat) (i : instr) : Prop :=
  match i with
  | IJump (Some j) | IJumpIfTrue (Some j) | IJumpIfFalse (Some j) => k < j
  | ILoopNext _ | IInclude _ | IIncludeWith _ => False
  | _ => True
  end.
Fixpoint fwds (k : nat) (c : list instr) : Prop :=
  match c with [] => True | i :: c' => fwd k i /\ fwds (k + 1) c' end.
Lemma fwds_app a : forall k b, fwds k a -> fwds (k + length a) b -> fwds k (a ++ b).
Proof.
  induction a as [|i a IH]; intros k b Ha Hb; cbn [app length fwds] in *; [now rewrite Nat.add_0_r in Hb|].
  destruct Ha as [H1 H2]. split; [exact H1|]. apply IH; [exact H2|]. now replace (k + 1 + length a) with (k + S (length a)) by lia.
Qed.
Lemma fwds_nth c : forall k n i, fwds k c -> nth_error c n = Some i -> fwd (k + n) i.
Proof.
  induction c as [|x c IH]; intros k [|n] i H E; cbn in *; try discriminate.
  - injection E as ->. rewrite Nat.add_0_r. apply H.
  - replace (k + S n) with (k + 1 + n) by lia. eapply IH; [apply H|exact E].
Qed.
Lemma fwds_expr e : forall k, fwds k (cexpr e).
Proof. induction e as [b|n a e IH sp]; intros k; cbn [cexpr]; [destruct b; cbn; auto|]. apply fwds_app; [apply IH|cbn; auto]. Qed.
Lemma fwds_inline e k : fwds k (cinline e).
Proof.
  destruct e as [b|n [a|] e sp]; cbn [cinline].
  - apply fwds_app; [apply fwds_expr|cbn; auto].
  - apply fwds_app; [apply fwds_expr|cbn; auto].
  - apply fwds_app; [apply fwds_expr|cbn; auto].
Qed.
Notation all_of := (fix all (l : list stmt) : Prop := match l with [] => True | s :: l' => straight s /\ all l' end).
Lemma all_of_straight l : all_of l -> all_straight l.
Proof. induction l as [|s l IH]; cbn; [auto|]. intros [H1 H2]. split; [exact H1|exact (IH H2)]. Qed.
Lemma fwds_scope_of l : Forall (fun s => straight s -> forall off, fwds off (cstmt off s)) l -> all_straight l -> forall off, fwds off (cscope off l).
Proof.
  induction 1 as [|s l Hs _ IH]; intros A off; cbn [cscope]; [exact I|]. destruct A as [A1 A2]. cbv zeta. apply fwds_app; [now apply Hs|]. apply IH. exact A2.
Qed.
Lemma fwds_stmt s : straight s -> forall off, fwds off (cstmt off s).
Proof.
  induction s as [sp|e sp|n g|n c t e Ht He|v e b Hb|e n b Hb] using stmt_ind'; intros A off.
  - cbn. auto.
  - cbn [cstmt]. apply fwds_inline.
  - destruct A.
  - cbn [straight] in A. destruct A as [A1 A2]. apply all_of_straight in A1. pose proof (fwds_scope_of _ Ht A1) as S1. destruct e as [e|].
    + apply all_of_straight in A2. pose proof (fwds_scope_of _ He A2) as S2. rewrite cstmt_if_else. cbv zeta. apply fwds_app; [apply fwds_expr|]. cbn [fwds]. split; [destruct n; cbn; lia|].
      apply fwds_app; [apply S1|]. cbn [fwds fwd]. split; [lia|]. apply S2.
    + rewrite cstmt_if. cbv zeta. apply fwds_app; [apply fwds_expr|]. cbn [fwds]. split; [destruct n; cbn; lia|]. apply S1.
  - destruct A.
  - cbn [straight] in A. apply all_of_straight in A. pose proof (fwds_scope_of _ Hb A) as S1. rewrite cstmt_with. cbv zeta. apply fwds_app; [apply fwds_expr|].
    cbn [fwds]. split; [exact I|]. apply fwds_app; [apply S1|]. cbn. auto.
Qed.
Lemma fwds_scope l off : all_straight l -> fwds off (cscope off l).
Proof. intros A. apply fwds_scope_of; [|exact A]. apply Forall_forall. intros s _. apply fwds_stmt. Qed.

(** ** Every instruction answers *)
Section Answers.
Context `{X : Ext}.
Variable inner : renderer_inner.
Definition ans {A} (r : res A) : Prop := match r with OutOfFuel => False | _ => True end.
Lemma ans_bind {A B} (x : res A) (f : A -> res B) : ans x -> (forall a, ans (f a)) -> ans (let* a := x in f a).
Proof. intros H Hf. destruct x as [a|e| |]; cbn [bind ans] in *; auto. Qed.
Lemma ans_index s sp : ans (@index_span error s sp).
Proof. unfold index_span, slice. destruct (_ && _); exact I. Qed.
Lemma ans_pretty s sp : ans (build_pretty s sp).
Proof.
  unfold build_pretty. destruct (to_ln_col _ _) as [ln col]. apply ans_bind; [apply ans_index|]. intros a. apply ans_bind; [|intros; exact I].
  destruct (nth_error _ ln); [exact I|]. destruct (hd_error _); exact I.
Qed.
Lemma ans_render {A} m s sp : ans (@err_render _ A m s sp).
Proof. unfold err_render. apply ans_bind; [apply ans_pretty|]. intros p. exact I. Qed.
Lemma ans_format {A} m s sp : ans (@err_format _ A m s sp).
Proof. unfold err_format. apply ans_bind; [apply ans_pretty|]. intros p. exact I. Qed.
Lemma ans_enrich {A} e s sp : ans (@err_enrich _ A e s sp).
Proof. unfold err_enrich. destruct (e_pretty e); [exact I|]. apply ans_bind; [apply ans_pretty|]. intros p. exact I. Qed.

Ltac ans_go :=
  repeat first
    [ exact I | apply ans_render | apply ans_format | apply ans_index | apply ans_enrich | (apply ans_bind; [|intros ?])
    | match goal with |- ans (match ?x with _ => _ end) => destruct x end
    | match goal with |- ans (if ?b then _ else _) => destruct b end ].

Lemma ans_lookup s v m : ans (lookup s v m).
Proof. unfold lookup. ans_go. Qed.
Lemma ans_first (v : var) : ans (@var_first error v).
Proof. unfold var_first, unwrap. ans_go. Qed.
Lemma ans_var_span (v : var) : ans (@var_span error v).
Proof. unfold var_span, var_first, var_last, unwrap. ans_go. Qed.
Lemma ans_not_found {A} s v : ans (@err_not_found _ A s v).
Proof. unfold err_not_found. apply ans_bind; [apply ans_first|]. intros. apply ans_render. Qed.
Lemma ans_maybe s c v : ans (lookup_path_maybe s c v).
Proof.
  unfold lookup_path_maybe. generalize (cow_val c) true. induction v as [|m v IH]; intros x b; cbn; [exact I|].
  pose proof (ans_lookup s x m) as H. destruct (lookup s x m) as [[y|]|e| |]; auto; destruct b; auto; exact I.
Qed.
Lemma ans_path s c v : ans (lookup_path s c v).
Proof.
  unfold lookup_path. generalize (cow_val c). induction v as [|m v IH]; intros x; cbn; [exact I|].
  apply ans_bind; [apply ans_lookup|]. intros [y|]; [apply IH|exact I].
Qed.
Lemma ans_resolve s l : forall v, ans (resolve s v l).
Proof. induction l as [|m l IH]; intros v; cbn; [exact I|]. apply ans_bind; [apply ans_lookup|]. intros [y|]; [apply IH|exact I]. Qed.
Lemma ans_loop l s v : ans (loop_lookup_var l s v).
Proof.
  unfold loop_lookup_var, lookup_loop. apply ans_bind; [apply ans_first|]. intros m. ans_go; apply ans_resolve.
Qed.
Lemma ans_value_path s v : ans (value_path s v).
Proof. induction v as [|m v IH]; cbn; ans_go. exact IH. Qed.
Lemma ans_lookup_var st s v : ans (lookup_var st s v).
Proof.
  induction st as [|fr st IH]; cbn; [apply ans_not_found|]. destruct fr as [f|c|n c|l|].
  - apply ans_bind; [apply ans_value_path|]. intros p. destruct (f p); [exact I|]. apply ans_bind; [apply ans_var_span|]. intros. apply ans_render.
  - apply ans_bind; [apply ans_maybe|]. intros [x|]; [exact I|exact IH].
  - apply ans_bind; [apply ans_first|]. intros m. ans_go; [apply ans_path|exact IH].
  - apply ans_bind; [apply ans_loop|]. intros [x|]; [exact I|exact IH].
  - apply ans_not_found.
Qed.
Lemma ans_arg t s st a : ans (get_arg t s st a).
Proof.
  destruct a as [v|x sp]; cbn [get_arg]; [|destruct (from_value_ref t x); [exact I|apply ans_render]].
  apply ans_bind; [apply ans_lookup_var|]. intros c. destruct (match c with Borrowed _ => _ | Owned _ => _ end); [exact I|].
  apply ans_bind; [apply ans_var_span|]. intros sp. apply ans_render.
Qed.
Lemma ans_args tys s st : forall l, ans (get_args tys s st l).
Proof.
  induction tys as [|t tys IH]; intros [|a l]; cbn [get_args]; try exact I. apply ans_bind; [apply ans_arg|]. intros av. apply ans_bind; [apply IH|]. intros; exact I.
Qed.
Lemma ans_call f s name st c l : ans (call_filter f s name st c l).
Proof.
  unfold call_filter, check_args. apply ans_bind; [ans_go|]. intros _. apply ans_bind.
  - destruct (from_cow_mut _ _) as [a|[]]; cbn [err_expected_val]; ans_go.
  - intros r. apply ans_bind; [apply ans_args|]. intros avs. destruct (fl_run f r avs); exact I.
Qed.

(** ** One step goes forward *)
Definition goes (pc : nat) (r : res next) : Prop :=
  match r with Ok (NGo pc' _ _) => pc < pc' | Ok (NStop _ _ _) => False | OutOfFuel => False | _ => True end.
Lemma goes_lift {A} pc (x : res A) (f : A -> rt next) : ans x -> (forall a, rall (goes pc) (f a)) -> rall (goes pc) (let% a := lift x in f a).
Proof. intros H Hf. destruct x; cbn in *; auto. Qed.
Lemma goes_format pc p m s sp n : pc < n -> forall st ex, rall (goes pc) (let% _ := run_fmt p (fun x => err_format (m x) s sp) in RRet (Ok (NGo n st ex))).
Proof.
  intros L st ex. induction p as [|x|t o IHo e IHe]; cbn [run_fmt rbind rall]; [exact L| |split; assumption].
  pose proof (@ans_format unit (m x) s sp) as K. destruct (err_format (m x) s sp); cbn in *; auto.
Qed.
Lemma goes_err pc m s sp : rall (goes pc) (lift (err_render m s sp)).
Proof. cbn. unfold err_render. pose proof (ans_pretty s sp) as K. destruct (build_pretty s sp); cbn in *; auto. Qed.
Lemma exec_goes t i pc st ex : fwd pc i -> rall (goes pc) (exec_instr inner t i pc st ex).
Proof.
  assert (U : forall A (o : option A), ans (@unwrap error A o)) by (intros A [a|]; exact I).
  intros F. destruct i as [j|j|j|sp|sp|name sp|vars sp|j|name| |name|name|v|v|name sp a]; cbn [exec_instr fwd] in *; try contradiction.
  - destruct j as [j|]; cbn; auto.
  - apply goes_lift; [apply U|]. intros c. destruct (as_bool _); [destruct j as [j|]; cbn; auto|cbn; lia].
  - apply goes_lift; [apply U|]. intros c. destruct (negb _); [destruct j as [j|]; cbn; auto|cbn; lia].
  - apply goes_lift; [apply U|]. intros c. apply (goes_format pc _ (fun m => m)). lia.
  - apply goes_lift; [apply ans_index|]. intros raw. cbn. split; [lia|exact I].
  - apply goes_lift; [apply ans_index|]. intros raw. destruct (map_get raw _) as [[f|f]|].
    + apply goes_lift; [apply U|]. intros c. apply (goes_format pc _ (fun m => m)). lia.
    + apply goes_lift; [apply U|]. intros c. apply goes_lift.
      { pose proof (ans_call f (t_source t) name st c []) as K. destruct (call_filter f _ _ _ _ _); try exact K. apply ans_enrich. }
      intros v. apply (goes_format pc _ (fun m => m)). lia.
    + apply goes_err.
  - apply goes_lift; [apply U|]. intros c. apply goes_lift; [unfold loop_new; ans_go|]. intros l. cbn. lia.
  - apply goes_lift; [apply U|]. intros c. cbn. lia.
  - apply goes_lift; [unfold pop_var; ans_go|]. intros st'. cbn. lia.
  - apply goes_lift; [apply ans_lookup_var|]. intros c. destruct ex; cbn; [exact I|lia].
  - destruct ex; cbn; [exact I|lia].
  - apply goes_lift; [apply ans_index|]. intros raw. destruct (map_get raw _) as [[f|f]|]; [apply goes_err| |apply goes_err].
    apply goes_lift; [apply U|]. intros c. cbv zeta. apply goes_lift.
    { pose proof (ans_call f (t_source t) name st c match a with Some a => a_values a | None => [] end) as K. destruct (call_filter f _ _ _ _ _); try exact K. apply ans_enrich. }
    intros v. cbn. lia.
Qed.

(** ** Running to the end *)
Lemma rbind_same {A B} (x : rt A) (f g : A -> rt B) : rall (fun r => match r with Ok a => f a = g a | _ => True end) x -> rbind x f = rbind x g.
Proof.
  induction x as [r|s o IHo e IHe]; cbn [rall rbind]; [destruct r; auto|]. intros [Ho He]. now rewrite IHo, IHe.
Qed.
Definition done (r : res (render_state * nat * stack)) : Prop :=
  match r with Ok (RsDone, _, _) => True | Ok _ => False | OutOfFuel => False | _ => True end.
Lemma one_done t : fwds 0 (t_instrs t) -> forall n pc st ex, length (t_instrs t) < n + pc -> 0 < n ->
  rall done (render_one inner n t pc st ex) /\ forall fuel, n <= fuel -> render_one inner fuel t pc st ex = render_one inner n t pc st ex.
Proof.
  intros F. induction n as [|n IH]; intros pc st ex L Hn; [lia|].
  assert (K : forall f, n <= f -> render_one inner (S f) t pc st ex = render_one inner (S n) t pc st ex).
  { intros f Hf. cbn [render_one]. destruct (nth_error (t_instrs t) pc) as [i|] eqn:E; [|reflexivity].
    pose proof (fwds_nth _ _ _ _ F E) as G. pose proof (exec_goes t i pc st ex G) as R. apply rbind_same. revert R. apply rall_mono.
    intros [[pc' st' ex'|rs pc' st']|e| |]; cbn [goes]; auto; try contradiction. intros Lp.
    assert (pc < length (t_instrs t)) by (apply nth_error_Some; congruence).
    destruct (Nat.eq_dec n 0) as [->|Nz]; [lia|]. apply IH; lia. }
  split.
  - cbn [render_one]. destruct (nth_error (t_instrs t) pc) as [i|] eqn:E; [|destruct (_ =? _); exact I].
    pose proof (fwds_nth _ _ _ _ F E) as G. pose proof (exec_goes t i pc st ex G) as R.
    assert (pc < length (t_instrs t)) by (apply nth_error_Some; congruence).
    apply (rall_bind (goes pc)); [exact R| |intros e _; exact I|intros _; exact I|intros []].
    intros [pc' st' ex'|rs pc' st'] _; cbn [goes]; [|contradiction]. intros Lp. destruct (Nat.eq_dec n 0) as [->|Nz]; [lia|]. apply IH; lia.
  - intros fuel Hf. destruct fuel as [|fuel]; [lia|]. apply K. lia.
Qed.
Definition over (r : res unit) : Prop := r <> OutOfFuel.
Lemma render_done st : fwds 0 (t_instrs (ri_template inner)) -> let n := length (t_instrs (ri_template inner)) + 2 in
  rall over (render inner n st) /\ forall fuel, n <= fuel -> render inner fuel st = render inner n st.
Proof.
  intros F n. destruct (one_done _ F (n - 1) 0 st None) as (D & E); [lia|lia|].
  assert (K : forall fuel, n <= fuel -> render inner fuel st = render inner n st /\ rall over (render inner fuel st)).
  { intros fuel L. unfold render. destruct fuel as [|fuel]; [lia|]. replace n with (S (n - 1)) at 1 by lia. cbn [render_loop ac_template ac_name ac_pc ac_has_scope].
    rewrite (E fuel) by lia. assert (D' : rall done (name_err (ri_template_name inner) (render_one inner (n - 1) (ri_template inner) 0 st None))).
    { unfold name_err. clear - D. induction (render_one inner _ _ _ _ _) as [r|s o IHo e IHe]; cbn [rmap_err rall] in *; [|intuition]. destruct r; exact D. }
    split.
    - apply rbind_same. revert D'. apply rall_mono. intros [[[[|nm|nm c] pc] st']|e| |]; cbn [done]; auto; try contradiction. intros _. cbn [rbind].
      destruct (_ <? _)%N eqn:Ez; [reflexivity|]. destruct fuel as [|fuel]; [lia|]. destruct (n - 1) as [|m] eqn:Em; [lia|]. reflexivity.
    - apply (rall_bind done); [exact D'| |intros e _; discriminate|intros _; discriminate|intros []].
      intros [[[|nm|nm c] pc] st'] _; cbn [done]; try contradiction. intros _. cbn [rbind]. destruct (_ <? _)%N; [cbn; discriminate|].
      destruct fuel as [|fuel]; [lia|]. cbn. discriminate. }
  split; [apply K; lia|]. intros fuel L. now apply K.
Qed.
Lemma string_over (x : rt unit) : rall over x -> forall b, snd (run_string b x) <> OutOfFuel.
Proof.
  induction x as [r|s o IHo e IHe]; intros H b; cbn [run_string rall] in *; [exact H|]. apply IHo. apply H.
Qed.
Lemma run_over k (x : rt unit) : rall over x -> forall (w : sk_state k) io, snd (run k w io x) <> OutOfFuel.
Proof.
  induction x as [r|s o IHo e IHe]; intros H w io; cbn [run rall] in *; [exact H|]. destruct H as [Ho He]. destruct (sk_write k w s) as [w' [c|]]; auto.
Qed.
End Answers.
