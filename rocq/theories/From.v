(** The values of a rendering come from the context, the literals, the filters, or are made by the
    renderer. *)
From Verif Require Import Base Utf8 Ext Errors Syntax Value Ast AstOk Compiler CompileProof Fmt Stack Filters Render RenderSpec
  RenderProof StackRel UseSpec WorkSpec Work FromSpec.

Section From.
Context `{X : Ext}.
Variable P : value -> Prop.
Notation gd := (good P).
Hypothesis Hmade : good_made P.

Lemma good_here v : gd v -> P v.
Proof. now destruct 1. Qed.
Lemma good_list_inv l : gd (VList l) -> Forall gd l.
Proof. intros H. inversion H; auto. Qed.
Notation gd_entry := (fun kv : str * value => P (VStr (fst kv)) /\ gd (snd kv)).
Lemma good_map_inv m : gd (VMap m) -> Forall gd_entry m.
Proof. intros H. inversion H; auto. Qed.
Lemma good_key k : P (VStr k) -> gd (VStr k).
Proof. intros H. now constructor. Qed.
Lemma made_none : gd VNone.
Proof. apply Hmade. Qed.
Lemma made_map i (f la : bool) : good_loop P i -> gd (VMap (map_of_list [(s2b "index", VInt (Z.of_nat i)); (s2b "first", VBool f); (s2b "last", VBool la)])).
Proof. intros H. exact (H f la). Qed.
Lemma made_fields i (f la : bool) : good_loop P i -> gd (VInt (Z.of_nat i)) /\ gd (VBool f) /\ gd (VBool la).
Proof.
  intros H. pose proof (good_map_inv _ (H f la)) as F. inversion F as [|? ? [_ A] F1]; subst. inversion F1 as [|? ? [_ B] F2]; subst. inversion F2 as [|? ? [_ C] _]; subst. auto.
Qed.

Definition loop_good (l : loop_state) : Prop :=
  match l with
  | LList _ _ k iter cur =>
    Forall gd iter /\ (forall i, i < k + length iter -> good_loop P i) /\ match cur with Some (j, x) => good_loop P j /\ gd x | None => True end
  | LMap _ _ _ k iter cur =>
    Forall gd_entry iter /\ (forall i, i < k + length iter -> good_loop P i) /\ match cur with Some (j, kv) => good_loop P j /\ gd_entry kv | None => True end
  end.
Definition frame_good (fr : frame) : Prop :=
  match fr with
  | FrValueFn f => forall p, good_answer P (f p)
  | FrScope c => gd (cow_val c)
  | FrVar _ c => gd (cow_val c)
  | FrLoop l => loop_good l
  | FrBoundary => True
  end.
Notation st_good := (Forall frame_good).
Definition ex_good (ex : option cow) : Prop := match ex with Some c => gd (cow_val c) | None => True end.

Lemma map_get_good k m v : Forall gd_entry m -> map_get k m = Some v -> gd v.
Proof.
  induction 1 as [|[k' x] m Hx _ IH]; cbn [map_get]; [discriminate|]. destruct (str_eqb _ _); [|exact IH]. intros E. injection E as <-. exact (proj2 Hx).
Qed.
Lemma lookup_good source v m x : gd v -> lookup source v m = Ok (Some x) -> gd x.
Proof.
  intros Hv. unfold lookup. destruct v as [| | | | |l|mp]; destruct (mb_access m) as [i sp|id]; unfold err_render;
    try (destruct (build_pretty _ _); discriminate).
  - apply good_list_inv in Hv as F. unfold list_get. destruct (_ <? _)%N; [destruct (nth_error l (N.to_nat i)) as [y|] eqn:E|].
    + intros K. injection K as <-. apply nth_error_In in E. rewrite Forall_forall in F. auto.
    + destruct (mb_op m); [|discriminate]. unfold err_render; destruct (build_pretty _ _); discriminate.
    + destruct (mb_op m); [|discriminate]. unfold err_render; destruct (build_pretty _ _); discriminate.
  - apply good_map_inv in Hv as F. destruct (index_span source (id_span id)); cbn [bind]; try discriminate. destruct (map_get _ mp) as [y|] eqn:E.
    + intros K. injection K as <-. eapply map_get_good; eauto.
    + destruct (mb_op m); [|discriminate]. unfold err_render; destruct (build_pretty _ _); discriminate.
Qed.
Lemma path_good source o p : forall v c, gd v -> lookup_path_loop source o v p = Ok c -> gd (cow_val c).
Proof.
  induction p as [|m p IH]; intros v c Hv; cbn [lookup_path_loop]; [intros E; injection E as <-; now destruct o|].
  destruct (lookup source v m) as [[x|]| | |] eqn:E; cbn [bind]; try discriminate.
  - apply IH. eapply lookup_good; eauto.
  - intros K. injection K as <-. exact made_none.
Qed.
Lemma maybe_good source o p : forall v b c, gd v -> lookup_path_maybe_loop source o v p b = Ok (Some c) -> gd (cow_val c).
Proof.
  induction p as [|m p IH]; intros v b c Hv; cbn [lookup_path_maybe_loop]; [intros E; injection E as <-; now destruct o|].
  destruct (lookup source v m) as [[x|]| | |] eqn:E; try discriminate.
  - apply IH. eapply lookup_good; eauto.
  - destruct b; [discriminate|]. intros K. injection K as <-. exact made_none.
  - destruct b; discriminate.
Qed.
Lemma resolve_good source p : forall v x, gd v -> resolve source v p = Ok (Some x) -> gd x.
Proof.
  induction p as [|m p IH]; intros v x Hv; cbn [resolve]; [intros E; injection E as <-; exact Hv|].
  destruct (lookup source v m) as [[y|]| | |] eqn:E; cbn [bind]; try discriminate. apply IH. eapply lookup_good; eauto.
Qed.
Lemma lookup_loop_good l source p c : loop_good l -> lookup_loop l source p = Ok (Some c) -> gd (cow_val c).
Proof.
  intros Hl. unfold lookup_loop. destruct (current_index_and_rem l) as [[i rem]|] eqn:Ei; [|discriminate].
  assert (Gi : good_loop P i).
  { destruct l as [o it k iter [[j x]|]|o kn vn k iter [[j x]|]]; try discriminate Ei; injection Ei as <- _; apply (proj2 (proj2 Hl)). } destruct p as [|m0 [|m rest]]; [discriminate| |].
  - intros E. injection E as <-. cbn [cow_val]. now apply made_map.
  - destruct (mb_access m) as [i' sp|id]; [unfold err_render; destruct (build_pretty _ _); discriminate|].
    destruct (index_span source (id_span id)) as [nm| | |]; cbn [bind]; try discriminate.
    set (r := if str_eqb nm (s2b "index") then _ else _). destruct (made_fields i (i =? 0) (rem =? 0) Gi) as (M1 & M2 & M3). assert (R : forall v, r = Ok v -> gd v).
    { intros v. unfold r. repeat (match goal with |- context [if ?b then _ else _] => destruct b end); try solve [intros E; injection E as <-; first [assumption|exact made_none]|unfold err_render; destruct (build_pretty _ _); discriminate]. }
    destruct r as [v| | |]; cbn [bind]; try discriminate. destruct rest as [|m2 rest]; [|unfold err_render; destruct (build_pretty _ _); discriminate].
    intros E. injection E as <-. cbn [cow_val]. now apply R.
Qed.
Lemma cow_mk o v : cow_val (mk_cow o v) = v.
Proof. now destruct o. Qed.
Lemma loop_var_good l source v c : loop_good l -> loop_lookup_var l source v = Ok (Some c) -> gd (cow_val c).
Proof.
  intros Hl. unfold loop_lookup_var. destruct (var_first v) as [first| | |]; cbn [bind]; try discriminate.
  destruct (mb_access first) as [i sp|id]; [discriminate|]. destruct (index_span source (id_span id)) as [nm| | |]; cbn [bind]; try discriminate.
  destruct (str_eqb nm (s2b "loop")); [now apply lookup_loop_good|]. destruct l as [o i k iter [[j x]|]|o kn vn k iter [[j [key x]]|]]; try discriminate; cbn [loop_good] in Hl.
  - destruct (str_eqb nm i); [|discriminate]. destruct (resolve source x (var_rest v)) as [[y|]| | |] eqn:E; cbn [bind option_map]; try discriminate.
    intros K. injection K as <-. rewrite cow_mk. eapply resolve_good; [|exact E]. apply Hl.
  - destruct (str_eqb nm kn).
    { destruct (var_rest v) as [|m0 rest]; [|unfold err_render; destruct (build_pretty _ _); discriminate]. intros K. injection K as <-. apply good_key. exact (proj1 (proj2 (proj2 (proj2 Hl)))). }
    destruct (str_eqb nm vn); [|discriminate]. destruct (resolve source x (var_rest v)) as [[y|]| | |] eqn:E; cbn [bind option_map]; try discriminate.
    intros K. injection K as <-. rewrite cow_mk. eapply resolve_good; [|exact E]. exact (proj2 (proj2 (proj2 (proj2 Hl)))).
Qed.
Lemma not_found_not {A} source v (c : A) : @err_not_found _ A source v <> Ok c.
Proof. unfold err_not_found. destruct (var_first v); cbn [bind]; try discriminate. unfold err_render; destruct (build_pretty _ _); discriminate. Qed.
Lemma var_good st source v c : st_good st -> lookup_var st source v = Ok c -> gd (cow_val c).
Proof.
  induction 1 as [|fr st Hf _ IH]; cbn [lookup_var]; [intros E; now apply not_found_not in E|]. destruct fr as [f|s|name x|l|]; cbn [frame_good] in Hf.
  - destruct (value_path source v) as [p| | |]; cbn [bind]; try discriminate. specialize (Hf p). destruct (f p) as [x|r] eqn:E.
    + intros K. injection K as <-. exact Hf.
    + destruct (var_span v); cbn [bind]; try discriminate. unfold err_render; destruct (build_pretty _ _); discriminate.
  - unfold lookup_path_maybe. destruct (lookup_path_maybe_loop _ _ _ _ _) as [[x|]| | |] eqn:E; cbn [bind]; try discriminate; [|exact IH].
    intros K. injection K as <-. eapply maybe_good; eauto.
  - destruct (var_first v); cbn [bind]; try discriminate. destruct (index_span _ _); cbn [bind]; try discriminate. destruct (index_span _ _); cbn [bind]; try discriminate.
    destruct (str_eqb _ _); [|exact IH]. apply path_good. exact Hf.
  - destruct (loop_lookup_var l source v) as [[x|]| | |] eqn:E; cbn [bind]; try discriminate; [|exact IH]. intros K. injection K as <-. eapply loop_var_good; eauto.
  - intros E. now apply not_found_not in E.
Qed.

(** Filters *)
Lemma from_good t v a : gd v -> from_value t v = inl a -> good_arg P a.
Proof.
  intros Hv E. exists t, v. split; [exact Hv|]. destruct t; cbn [from_value] in E; try exact E; try discriminate E; destruct v; discriminate E.
Qed.
Definition base_good (b : base_expr) : Prop := match b with BLit v _ => gd v | BVar _ => True end.
Lemma arg_good t source st b a : st_good st -> base_good b -> get_arg t source st b = Ok a -> good_arg P a.
Proof.
  intros Hs Hl. destruct b as [v|x sp]; cbn [get_arg].
  - destruct (lookup_var st source v) as [c| | |] eqn:E; cbn [bind]; try discriminate. apply (var_good _ _ _ _ Hs) in E.
    destruct c as [x|x]; cbn [cow_val] in E.
    + destruct (from_value_ref t x) as [a'|e] eqn:K; [intros Q; injection Q as <-; now exists t, x|].
      destruct (var_span v); cbn [bind]; try discriminate. unfold err_expected_arg, err_render; destruct (build_pretty _ _); discriminate.
    + destruct (from_value t x) as [a'|e] eqn:K; [intros Q; injection Q as <-; eapply from_good; eauto|].
      destruct (var_span v); cbn [bind]; try discriminate. unfold err_expected_arg, err_render; destruct (build_pretty _ _); discriminate.
  - destruct (from_value_ref t x) as [a'|e] eqn:K; [intros Q; injection Q as <-; now exists t, x|].
    unfold err_expected_arg, err_render; destruct (build_pretty _ _); discriminate.
Qed.
Lemma args_good source st : st_good st -> forall l tys avs, Forall base_good l -> get_args tys source st l = Ok avs -> Forall (good_arg P) avs.
Proof.
  intros Hs. induction l as [|b l IH]; intros [|t tys] avs Hl; cbn [get_args]; try discriminate; [intros E; injection E as <-; constructor|].
  inversion Hl; subst. destruct (get_arg t source st b) as [a'| | |] eqn:E; cbn [bind]; try discriminate.
  destruct (get_args tys source st l) as [rest| | |] eqn:E2; cbn [bind]; try discriminate. intros K. injection K as <-. constructor; [eapply arg_good; eauto|eapply IH; eauto].
Qed.
Lemma call_good f source name st c l v : good_filter P f -> st_good st -> gd (cow_val c) -> Forall base_good l ->
  call_filter f source name st c l = Ok v -> gd v.
Proof.
  intros Hf Hs Hc Hl. unfold call_filter. destruct (check_args _ _ _ _) as [u| | |]; cbn [bind]; try discriminate. unfold from_cow_mut. destruct (from_value_ref _ _) as [a|e] eqn:E.
  - cbn [bind]. destruct (get_args _ _ _ _) as [avs| | |] eqn:E2; cbn [bind]; try discriminate.
    pose proof (Hf a avs ltac:(eexists; eexists; split; eassumption) ltac:(eapply args_good; eauto)) as G. destruct (fl_run f a avs) as [x|m] eqn:E3; [|discriminate].
    intros K. injection K as <-. exact G.
  - destruct e; cbn [err_expected_val bind]; try discriminate; unfold err_render; destruct (build_pretty _ _); discriminate.
Qed.
(** Filters that agree on good arguments *)
Lemma call_alike f f' source name st c l : fl_recv f' = fl_recv f -> fl_args f' = fl_args f ->
  (forall r args, good_arg P r -> Forall (good_arg P) args -> fl_run f' r args = fl_run f r args) ->
  st_good st -> gd (cow_val c) -> Forall base_good l -> call_filter f' source name st c l = call_filter f source name st c l.
Proof.
  intros E1 E2 H Hs Hc Hl. unfold call_filter, from_cow_mut. rewrite E1, E2. destruct (check_args _ _ _ _) as [u| | |]; cbn [bind]; try reflexivity.
  destruct (from_value_ref _ _) as [a|e] eqn:E; [|destruct e; cbn [err_expected_val bind]; try reflexivity; unfold err_render; destruct (build_pretty _ _); reflexivity]. cbn [bind]. destruct (get_args _ _ _ _) as [avs| | |] eqn:Ea; cbn [bind]; try reflexivity.
  rewrite H; [reflexivity|now exists (fl_recv f), (cow_val c)|eapply args_good; eauto].
Qed.

Lemma loop_new_good source vars c sp l : gd (cow_val c) -> loop_new source vars c sp = Ok l -> loop_good l.
Proof.
  intros Hc. unfold loop_new. destruct (cow_val c) as [| | | | |x|m]; destruct vars as [i|k v vsp]; try (unfold err_render; destruct (build_pretty _ _); discriminate).
  - destruct (index_span _ _); cbn [bind]; try discriminate. intros E. injection E as <-. split; [now apply good_list_inv|]. split; [|exact I]. intros j Hj. exact (proj1 (proj2 Hmade) x j Hc Hj).
  - destruct (index_span _ _); cbn [bind]; try discriminate. destruct (index_span _ _); cbn [bind]; try discriminate. intros E. injection E as <-. split; [now apply good_map_inv|]. split; [|exact I]. intros j Hj. exact (proj2 (proj2 Hmade) m j Hc Hj).
Qed.
Lemma iterate_good l l' : loop_good l -> iterate l = Some l' -> loop_good l'.
Proof.
  destruct l as [o i k iter cur|o kn vn k iter cur]; destruct iter as [|x iter]; cbn; try discriminate; intros (F & Hi & _) E; injection E as <-; inversion F; subst; cbn; (split; [assumption|]); (split; [intros j Hj; apply Hi; lia|]); (split; [apply Hi; lia|assumption]).
Qed.
Lemma enrich_not {A} e source sp (v : A) : err_enrich e source sp <> Ok v.
Proof. unfold err_enrich. destruct (e_pretty e); [discriminate|]. destruct (build_pretty _ _); discriminate. Qed.

(** The literals of an instruction *)
Definition instr_good (i : instr) : Prop :=
  match i with
  | IExprStartLit v => gd v
  | IApply _ _ a => Forall base_good (match a with Some a => a_values a | None => [] end)
  | _ => True
  end.
Definition template_good (t : template) : Prop := Forall instr_good (t_instrs t).

Lemma lits_base b : Forall gd (literals_of_base b) -> base_good b.
Proof. destruct b; cbn; [auto|]. intros H. now inversion H. Qed.
Lemma lits_bases l : Forall gd (flat_map literals_of_base l) -> Forall base_good l.
Proof. induction l as [|b l IH]; cbn [flat_map]; intros H; constructor; apply Forall_app in H as [H1 H2]; [now apply lits_base|auto]. Qed.
Lemma lits_expr e : Forall gd (literals_of_expr e) -> Forall instr_good (cexpr e).
Proof.
  induction e as [b|name a recv IH sp]; cbn [literals_of_expr cexpr]; intros H.
  - constructor; [|constructor]. apply lits_base in H. destruct b; exact H.
  - apply Forall_app in H as [H1 H2]. apply Forall_app. split; [auto|]. constructor; [|constructor]. cbn [instr_good].
    destruct a as [a|]; [now apply lits_bases|constructor].
Qed.
Lemma lits_inline e : Forall gd (literals_of_expr e) -> Forall instr_good (cinline e).
Proof.
  intros H. destruct e as [b|name [a|] recv s]; cbn [cinline]; apply Forall_app; (split; [|constructor; [exact I|constructor]]); apply lits_expr; auto.
  cbn [literals_of_expr] in H. now rewrite app_nil_r in H.
Qed.
Lemma lits_scope l : Forall (fun s => forall off, Forall gd (literals_of s) -> Forall instr_good (cstmt off s)) l ->
  Forall gd (flat_map literals_of l) -> forall off, Forall instr_good (cscope off l).
Proof.
  induction 1 as [|s l Hs _ IH]; cbn [flat_map cscope]; intros H off; [constructor|]. cbv zeta. apply Forall_app in H as [H1 H2]. apply Forall_app. split; auto.
Qed.
Lemma lits_stmt s : forall off, Forall gd (literals_of s) -> Forall instr_good (cstmt off s).
Proof.
  assert (C : forall i l, instr_good i -> Forall instr_good l -> Forall instr_good (i :: l)) by (intros; now constructor).
  assert (A : forall l l', Forall instr_good l -> Forall instr_good l' -> Forall instr_good (l ++ l')) by (intros; apply Forall_app; now split).
  induction s as [sp|e sp|nm g|ng c t e Ht He|v e b Hb|e x b Hb] using stmt_ind'; intros off H; cbn [literals_of] in H.
  - cbn [cstmt]. apply C; [exact I|constructor].
  - cbn [cstmt]. now apply lits_inline.
  - destruct g as [g|]; cbn [cstmt]; [apply A; [now apply lits_expr|]|]; (apply C; [exact I|constructor]).
  - apply Forall_app in H as [H1 H]. apply Forall_app in H as [H2 H3]. destruct e as [e|].
    + rewrite cstmt_if_else. cbv zeta. apply A; [now apply lits_expr|]. apply C; [now destruct ng|]. apply A; [now apply lits_scope|]. apply C; [exact I|]. now apply lits_scope.
    + rewrite cstmt_if. cbv zeta. apply A; [now apply lits_expr|]. apply C; [now destruct ng|]. now apply lits_scope.
  - apply Forall_app in H as [H1 H2]. rewrite cstmt_for. cbv zeta. apply A; [now apply lits_expr|]. apply C; [exact I|]. apply C; [exact I|]. apply A; [now apply lits_scope|]. apply C; [exact I|constructor].
  - apply Forall_app in H as [H1 H2]. rewrite cstmt_with. cbv zeta. apply A; [now apply lits_expr|]. apply C; [exact I|]. apply A; [now apply lits_scope|]. apply C; [exact I|constructor].
Qed.
Lemma lits_template l : Forall gd (literals l) -> Forall instr_good (cscope 0 l).
Proof. intros H. apply lits_scope; [|exact H]. apply Forall_forall. intros s _ off. apply lits_stmt. Qed.

(** ** Trees *)
(** Writes of at most [m] bytes, then a result with [Q]. *)
Fixpoint within_out {A} (m : nat) (Q : A -> Prop) (x : rt A) : Prop :=
  match x with
  | RRet (Ok a) => Q a
  | RRet _ => True
  | RWrite s ok er => length s <= m /\ within_out (m - length s) Q ok /\ within_out (m - length s) Q er
  end.
Lemma within_le {A} (Q Q' : A -> Prop) x : (forall a, Q a -> Q' a) -> forall m m', m <= m' -> within_out m Q x -> within_out m' Q' x.
Proof.
  intros HQ. induction x as [[a|e| |]|s o IHo e IHe]; intros m m' L H; cbn in *; auto. destruct H as (H1 & H2 & H3).
  split; [lia|]. split; [apply (IHo (m - length s))|apply (IHe (m - length s))]; auto; lia.
Qed.
Lemma within_bind {A B} (Q : A -> Prop) (R : B -> Prop) (k : A -> rt B) b x : (forall a, Q a -> within_out b R (k a)) ->
  forall m, within_out m Q x -> within_out (m + b) R (rbind x k).
Proof.
  intros Hk. induction x as [[a|e| |]|s o IHo e IHe]; intros m H; cbn in *; auto.
  - eapply within_le; [intros y Hy; exact Hy| |apply Hk, H]. lia.
  - destruct H as (H1 & H2 & H3). split; [lia|]. replace (m + b - length s) with (m - length s + b) by lia. auto.
Qed.
Lemma within_lift {A B} (R : B -> Prop) (k : A -> rt B) m (r : res A) : (forall a, r = Ok a -> within_out m R (k a)) -> within_out m R (rbind (lift r) k).
Proof. intros H. destruct r as [a|e| |]; cbn; auto. Qed.
Lemma within_name {A} (Q : A -> Prop) n x : forall m, within_out m Q x -> within_out m Q (name_err n x).
Proof.
  unfold name_err. induction x as [[a|e| |]|s o IHo e IHe]; intros m H; cbn in *; auto. destruct H as (H1 & H2 & H3). auto.
Qed.
Lemma within_string {A} (Q : A -> Prop) x : forall m buf, within_out m Q x -> length (fst (run_string buf x)) <= length buf + m.
Proof.
  induction x as [r|s o IHo e IHe]; intros m buf H; cbn [run_string fst]; [lia|]. destruct H as (H1 & H2 & _).
  specialize (IHo _ (buf ++ s) H2). rewrite app_length in IHo. lia.
Qed.
Lemma within_fmt p on_err : forall m, writes_at_most m p -> (forall e, on_err e <> Ok tt) -> within_out m (fun _ => True) (run_fmt p on_err).
Proof.
  induction p as [|msg|s ok IHo er IHe]; intros m H He; cbn in *; auto.
  - destruct (on_err msg) as [[]| | |]; auto.
  - destruct H as (H1 & H2 & H3). auto.
Qed.

Lemma within_oks {A} (Q : A -> Prop) x : forall m, within_out m (fun _ => True) x -> (forall a, oks x a -> Q a) -> within_out m Q x.
Proof.
  induction x as [[a|e| |]|s o IHo e IHe]; intros m H HQ; cbn in *; auto. destruct H as (H1 & H2 & H3).
  split; [exact H1|]. split; [apply IHo|apply IHe]; auto.
Qed.
Lemma index_span_length source sp raw : @index_span error source sp = Ok raw -> length raw <= length source.
Proof.
  unfold index_span, slice, sub. destruct (_ && _) eqn:C; [|discriminate]. intros E. injection E as <-. apply andb_prop in C as [C _]. apply andb_prop in C as [C _].
  apply andb_prop in C as [C1 C2]. apply Nat.leb_le in C1, C2. rewrite firstn_length. lia.
Qed.
Lemma rbind_ext2 {A B} (x y : rt A) (f g : A -> rt B) : x = y -> (forall a, oks x a -> f a = g a) -> rbind x f = rbind y g.
Proof. intros <-. apply rbind_ext_oks. Qed.
(** ** Instructions *)
Section Instr.
Variable inner : renderer_inner.
Hypothesis Hfilters : forall name f, map_get name (en_functions (ri_engine inner)) = Some (EFilter f) -> good_filter P f.
Definition next_good (nx : next) : Prop :=
  match nx with
  | NGo _ st ex => st_good st /\ ex_good ex
  | NStop rs _ st => st_good st /\ match rs with RsIncludeWith _ c => gd (cow_val c) | _ => True end
  end.
Variable M : nat.
Lemma format_not e source sp : @err_format _ unit e source sp <> Ok tt.
Proof. unfold err_format. destruct (build_pretty _ _); discriminate. Qed.
Lemma call_inv f source name st c l v :
  match call_filter f source name st c l with Err e => err_enrich e source (id_span name) | r => r end = Ok v -> call_filter f source name st c l = Ok v.
Proof. destruct (call_filter f source name st c l) as [x|e| |]; auto. intros Q. now apply enrich_not in Q. Qed.

Lemma good_instr t i pc st ex nx : instr_good i -> st_good st -> ex_good ex -> oks (exec_instr inner t i pc st ex) nx -> next_good nx.
Proof.
  intros Hi Hs He.
  assert (Hj : forall j ex', ex_good ex' -> oks (jump j st ex') nx -> next_good nx).
  { intros [j|] ex' Hx; cbn; [intros <-; cbn; auto|contradiction]. }
  assert (Ht : forall fr st', st = fr :: st' -> frame_good fr /\ st_good st') by (intros fr st' ->; now inversion Hs).
  destruct i as [j|j|j|sp|sp|name sp|vars sp|j|name| |name|name|v|v|name sp a]; cbn [exec_instr instr_good] in *; intros Ho.
  - exact (Hj j ex He Ho).
  - apply oks_rbind in Ho as (c & Hc & Ho). destruct (as_bool (cow_val c)); [exact (Hj j None I Ho)|]. cbn in Ho. subst nx. cbn. auto.
  - apply oks_rbind in Ho as (c & Hc & Ho). destruct (negb _); [exact (Hj j None I Ho)|]. cbn in Ho. subst nx. cbn. auto.
  - apply oks_rbind in Ho as (c & Hc & Ho). apply oks_rbind in Ho as (u & Hu & Ho). cbn in Ho. subst nx. cbn. auto.
  - apply oks_rbind in Ho as (raw & Hr & Ho). destruct Ho as [Ho|Ho]; cbn in Ho; [subst nx; cbn; auto|contradiction].
  - apply oks_rbind in Ho as (nm & Hr & Ho). destruct (map_get nm _) as [[f|f]|].
    + apply oks_rbind in Ho as (c & Hc & Ho). apply oks_rbind in Ho as (u & Hu & Ho). cbn in Ho. subst nx. cbn. auto.
    + apply oks_rbind in Ho as (c & Hc & Ho). apply oks_rbind in Ho as (v & Hv & Ho). apply oks_rbind in Ho as (u & Hu & Ho). cbn in Ho. subst nx. cbn. auto.
    + unfold err_render in Ho. destruct (build_pretty _ _); contradiction.
  - apply oks_rbind in Ho as (c & Hc & Ho). apply oks_rbind in Ho as (l & Hl & Ho). cbn in Ho. subst nx. destruct ex as [c'|]; [|contradiction]. cbn in Hc. subst c'.
    unfold lift in Hl. destruct (loop_new _ _ _ _) as [l'| | |] eqn:E; try contradiction. cbn in Hl. subst l'. cbn. split; [|exact I]. constructor; [|exact Hs].
    eapply loop_new_good; [exact He|exact E].
  - apply oks_rbind in Ho as (l & Hl & Ho). destruct st as [|[f|c|n c|l0|] st']; try contradiction. cbn in Hl. subst l0. destruct (Ht _ _ eq_refl) as [Hf Hs'].
    destruct (iterate l) as [l'|] eqn:E.
    + cbn in Ho. subst nx. cbn. split; [|exact He]. constructor; [|exact Hs']. eapply iterate_good; [exact Hf|exact E].
    + apply oks_rbind in Ho as (st2 & H2 & Ho). cbn in H2. subst st2. destruct j as [j|]; cbn in Ho; [subst nx; cbn; auto|contradiction].
  - apply oks_rbind in Ho as (c & Hc & Ho). cbn in Ho. subst nx. destruct ex as [c'|]; [|contradiction]. cbn in Hc. subst c'. cbn. split; [|exact I]. constructor; [exact He|exact Hs].
  - apply oks_rbind in Ho as (st2 & H2 & Ho). destruct st as [|[f|c|n c|l0|] st']; try contradiction. cbn in H2. subst st2. cbn in Ho. subst nx. cbn. destruct (Ht _ _ eq_refl). auto.
  - cbn in Ho. subst nx. cbn. auto.
  - apply oks_rbind in Ho as (c & Hc & Ho). cbn in Ho. subst nx. destruct ex as [c'|]; [|contradiction]. cbn in Hc. subst c'. cbn. auto.
  - apply oks_rbind in Ho as (c & Hc & Ho). unfold lift in Hc. destruct (lookup_var _ _ _) as [c'| | |] eqn:E; try contradiction. cbn in Hc. subst c'.
    destruct ex; cbn in Ho; [contradiction|]. subst nx. cbn. split; [exact Hs|]. eapply var_good; eauto.
  - destruct ex; cbn in Ho; [contradiction|]. subst nx. cbn. auto.
  - apply oks_rbind in Ho as (nm & Hr & Ho). destruct (map_get nm _) as [[f|f]|] eqn:E; try (unfold err_render in Ho; destruct (build_pretty _ _); contradiction).
    apply oks_rbind in Ho as (c & Hc & Ho). apply oks_rbind in Ho as (v & Hv & Ho). cbn in Ho. subst nx. destruct ex as [c'|]; [|contradiction]. cbn in Hc. subst c'.
    unfold lift in Hv. match type of Hv with oks (RRet ?r) _ => destruct r as [v'| | |] eqn:K; try contradiction end. cbn in Hv. subst v'. apply call_inv in K.
    cbn. split; [exact Hs|]. eapply call_good; eauto.
Qed.

Lemma brief_instr t i pc st ex : brief P M (ri_engine inner) -> length (t_source t) <= M -> instr_good i -> st_good st -> ex_good ex ->
  within_out M (fun _ => True) (exec_instr inner t i pc st ex).
Proof.
  intros [Hd Hf] HM Hi Hs He.
  assert (Hj : forall j st' ex', within_out M (fun _ : next => True) (jump j st' ex')) by (intros [j|] st' ex'; exact I).
  assert (Hg : forall v sp k, gd v -> (forall u, within_out 0 (fun _ : next => True) (k u)) ->
    within_out M (fun _ => True) (rbind (run_fmt (en_default_formatter (ri_engine inner) v) (fun m => err_format m (t_source t) sp)) k)).
  { intros v sp k Hv Hk. rewrite <- (Nat.add_0_r M). apply (within_bind (fun _ => True)); [intros u _; apply Hk|]. apply within_fmt; [now apply Hd|]. intros e. apply format_not. }
  destruct i as [j|j|j|sp|sp|name sp|vars sp|j|name| |name|name|v|v|name sp a]; cbn [exec_instr instr_good] in *.
  - apply Hj.
  - apply within_lift. intros c Hc. destruct (as_bool _); [apply Hj|exact I].
  - apply within_lift. intros c Hc. destruct (negb _); [apply Hj|exact I].
  - apply within_lift. intros c Hc. destruct ex as [c'|]; [|discriminate Hc]. injection Hc as ->. apply Hg; [exact He|]. intros u. exact I.
  - apply within_lift. intros raw Hr. cbn. apply index_span_length in Hr. split; [lia|]. auto.
  - apply within_lift. intros nm Hr. destruct (map_get nm _) as [[f|f]|] eqn:E.
    + apply within_lift. intros c Hc. destruct ex as [c'|]; [|discriminate Hc]. injection Hc as ->.
      rewrite <- (Nat.add_0_r M). apply (within_bind (fun _ => True)); [intros u _; exact I|]. apply within_fmt; [eapply Hf; eauto|]. intros e. apply format_not.
    + apply within_lift. intros c Hc. destruct ex as [c'|]; [|discriminate Hc]. injection Hc as ->. apply within_lift. intros v Hv. apply call_inv in Hv.
      apply Hg; [|intros u; exact I]. eapply call_good; [eapply Hfilters; eauto|exact Hs|exact He|constructor|exact Hv].
    + unfold err_render. destruct (build_pretty _ _); exact I.
  - apply within_lift. intros c Hc. apply within_lift. intros l Hl. exact I.
  - apply within_lift. intros l Hl. destruct (iterate l); [exact I|]. apply within_lift. intros st' H'. apply Hj.
  - apply within_lift. intros c Hc. exact I.
  - apply within_lift. intros st' H'. exact I.
  - exact I.
  - apply within_lift. intros c Hc. exact I.
  - apply within_lift. intros c Hc. destruct ex; exact I.
  - destruct ex; exact I.
  - apply within_lift. intros nm Hr. destruct (map_get nm _) as [[f|f]|] eqn:E; try (unfold err_render; destruct (build_pretty _ _); exact I).
    apply within_lift. intros c Hc. apply within_lift. intros v Hv. exact I.
Qed.

(** An engine that is the same as far as good values can tell *)
Lemma alike_instr e' t i pc st ex : alike P (ri_engine inner) e' -> instr_good i -> st_good st -> ex_good ex ->
  exec_instr (UseSpec.with_engine e' inner) t i pc st ex = exec_instr inner t i pc st ex.
Proof.
  intros (_ & _ & Hd & Hf) Hi Hs He.
  destruct i as [j|j|j|sp|sp|name sp|vars sp|j|name| |name|name|v|v|name sp a]; cbn [exec_instr instr_good UseSpec.with_engine ri_engine] in *; try reflexivity.
  - apply rbind_ext_oks. intros c Hc. destruct ex as [c'|]; [|contradiction]. cbn in Hc. subst c'. now rewrite Hd.
  - apply rbind_ext. intros nm. specialize (Hf nm). destruct (map_get nm (en_functions (ri_engine inner))) as [[f|f]|] eqn:E; destruct (map_get nm (en_functions e')) as [[f'|f']|]; cbn [alike_fn] in Hf; try contradiction; try reflexivity.
    + apply rbind_ext_oks. intros c Hc. destruct ex as [c'|]; [|contradiction]. cbn in Hc. subst c'. now rewrite Hf.
    + apply rbind_ext_oks. intros c Hc. destruct ex as [c'|]; [|contradiction]. cbn in Hc. subst c'. destruct Hf as (E1 & E2 & Hf).
      rewrite (call_alike f f' _ _ _ _ _ E1 E2 Hf Hs He); [|constructor]. apply rbind_ext_oks. intros v Hv. rewrite Hd; [reflexivity|].
      unfold lift in Hv. match type of Hv with oks (RRet ?r) _ => destruct r as [v'| | |] eqn:K; try contradiction end. cbn in Hv. subst v'. apply call_inv in K.
      eapply call_good; [eapply Hfilters; eauto|exact Hs|exact He| |exact K]. constructor.
  - apply rbind_ext. intros nm. specialize (Hf nm). destruct (map_get nm (en_functions (ri_engine inner))) as [[f|f]|] eqn:E; destruct (map_get nm (en_functions e')) as [[f'|f']|]; cbn [alike_fn] in Hf; try contradiction; try reflexivity.
    apply rbind_ext_oks. intros c Hc. destruct ex as [c'|]; [|contradiction]. cbn in Hc. subst c'. destruct Hf as (E1 & E2 & Hf).
    now rewrite (call_alike f f' _ _ _ _ _ E1 E2 Hf Hs He Hi).
Qed.

(** ** Renderings *)
Definition act_good (a : activation) : Prop := template_good (ac_template a) /\ length (t_source (ac_template a)) <= M.
Hypothesis Hnamed : forall t, named inner t -> template_good t.

Lemma find_named source name hist t h : get_template inner source name hist = Ok (t, h) -> named inner t.
Proof. intros H. eapply (provided_find inner (mktemplate source [])). exact H. Qed.
Lemma pop_good st st' : (pop_scope st = Ok st' \/ pop_boundary st = Ok st') -> st_good st -> st_good st'.
Proof. intros H Hs. destruct st as [|[f|c|n c|l0|] st2]; cbn in H; destruct H as [H|H]; try discriminate H; injection H as <-; now inversion Hs. Qed.

Lemma one_good t : template_good t -> forall fuel pc st ex, st_good st -> ex_good ex ->
  forall rs pc' st', oks (render_one inner fuel t pc st ex) (rs, pc', st') -> next_good (NStop rs pc' st').
Proof.
  intros Ht. induction fuel as [|fuel IH]; intros pc st ex Hs He rs pc' st'; cbn [render_one]; [intros []|]. destruct (nth_error (t_instrs t) pc) as [i|] eqn:E.
  - assert (Hi : instr_good i) by (apply nth_error_In in E; unfold template_good in Ht; rewrite Forall_forall in Ht; auto).
    intros Ho. apply oks_rbind in Ho as (nx & Hn & Ho). apply (good_instr t i pc st ex nx Hi Hs He) in Hn. destruct nx as [pc2 st2 ex2|rs2 pc2 st2].
    + destruct Hn. eapply IH; eauto.
    + cbn in Ho. injection Ho as -> -> ->. exact Hn.
  - destruct (_ =? _); [|intros []]. intros Ho. cbn in Ho. injection Ho as <- <- <-. cbn. auto.
Qed.
Section Alike.
Variable e' : engine.
Hypothesis Halike : alike P (ri_engine inner) e'.
Notation inner' := (with_engine e' inner).
Lemma alike_one t : template_good t -> forall fuel pc st ex, st_good st -> ex_good ex ->
  render_one inner' fuel t pc st ex = render_one inner fuel t pc st ex.
Proof.
  intros Ht. induction fuel as [|fuel IH]; intros pc st ex Hs He; cbn [render_one]; [reflexivity|]. destruct (nth_error (t_instrs t) pc) as [i|] eqn:E; [|reflexivity].
  assert (Hi : instr_good i) by (apply nth_error_In in E; unfold template_good in Ht; rewrite Forall_forall in Ht; auto).
  rewrite (alike_instr e' t i pc st ex Halike Hi Hs He). apply rbind_ext_oks. intros nx Hn. apply (good_instr t i pc st ex nx Hi Hs He) in Hn.
  destruct nx as [pc2 st2 ex2|rs2 pc2 st2]; [|reflexivity]. destruct Hn. now apply IH.
Qed.
Lemma alike_find source name hist : get_template inner' source name hist = get_template inner source name hist.
Proof. destruct Halike as (Et & _). unfold get_template, with_engine. cbn. now rewrite Et. Qed.
Lemma alike_depth : max_include_depth inner' = max_include_depth inner.
Proof. destruct Halike as (_ & Ed & _). unfold max_include_depth, with_engine. cbn. now rewrite Ed. Qed.
Lemma alike_loop fuel : forall ts st hist, Forall (fun a => template_good (ac_template a)) ts -> st_good st ->
  render_loop inner' fuel ts st hist = render_loop inner fuel ts st hist.
Proof.
  induction fuel as [|fuel IH]; intros [|[t tname pc hs] ts] st hist Ht Hs; cbn [render_loop]; try reflexivity. inversion Ht as [|? ? Ha Ht']; subst. cbn [ac_template ac_name ac_pc ac_has_scope] in *.
  rewrite alike_one; auto; [|exact I]. apply rbind_ext_oks. intros [[rs pc'] st'] Ho. apply oks_name_err in Ho.
  apply (one_good t Ha fuel pc st None Hs I) in Ho. destruct Ho as [Hs' Hr]. apply rbind_ext2.
  - destruct rs as [|name|name c]; [reflexivity|rewrite alike_find; reflexivity|rewrite alike_find; reflexivity].
  - intros [[ts2 st2] h2] Ho. rewrite alike_depth. destruct (_ <? _)%N; [reflexivity|]. apply IH.
    + destruct rs as [|name|name c].
      * destruct hs.
        { apply oks_rbind in Ho as (x & _ & Ho). apply oks_rbind in Ho as (y & _ & Ho). cbn in Ho. injection Ho as <- <- <-. exact Ht'. }
        { cbn in Ho. injection Ho as <- <- <-. exact Ht'. }
      * apply oks_rbind in Ho as ([t2 h] & Hg & Ho). apply oks_name_err in Hg. rewrite alike_find in Hg. cbn in Ho. injection Ho as <- <- <-. constructor; [|constructor; [exact Ha|exact Ht']].
        unfold lift in Hg. destruct (get_template inner _ _ _) as [[t3 h3]| | |] eqn:G; try contradiction. cbn in Hg. injection Hg as <- <-. cbn. apply Hnamed. eapply find_named; eauto.
      * apply oks_rbind in Ho as ([t2 h] & Hg & Ho). apply oks_name_err in Hg. rewrite alike_find in Hg. cbn in Ho. injection Ho as <- <- <-. constructor; [|constructor; [exact Ha|exact Ht']].
        unfold lift in Hg. destruct (get_template inner _ _ _) as [[t3 h3]| | |] eqn:G; try contradiction. cbn in Hg. injection Hg as <- <-. cbn. apply Hnamed. eapply find_named; eauto.
    + destruct rs as [|name|name c].
      * destruct hs.
        { apply oks_rbind in Ho as (x & Hx & Ho). apply oks_rbind in Ho as (y & Hy & Ho). cbn in Ho. injection Ho as <- <- <-.
          unfold lift in Hx, Hy. destruct (pop_scope st') as [x'| | |] eqn:E1; try contradiction. cbn in Hx. subst x'. destruct (pop_boundary x) as [y'| | |] eqn:E2; try contradiction. cbn in Hy. subst y'.
          eapply pop_good; [right; exact E2|]. eapply pop_good; [left; exact E1|exact Hs']. }
        { cbn in Ho. injection Ho as <- <- <-. exact Hs'. }
      * apply oks_rbind in Ho as ([t2 h] & _ & Ho). cbn in Ho. injection Ho as <- <- <-. exact Hs'.
      * apply oks_rbind in Ho as ([t2 h] & _ & Ho). cbn in Ho. injection Ho as <- <- <-. constructor; [exact Hr|]. constructor; [exact I|exact Hs'].
Qed.
End Alike.

(** ** The output *)
Hypothesis Hbrief : brief P M (ri_engine inner).
Hypothesis Hsizes : forall t, named inner t -> length (t_source t) <= M.
Lemma brief_work k : forall ts st ex hist, Forall act_good ts -> st_good st -> ex_good ex ->
  within_out (k * M) (fun _ => True) (work inner k ts st ex hist).
Proof.
  induction k as [|k IH]; intros [|[t tname pc hs] ts] st ex hist Ht Hs He; try exact I. inversion Ht as [|? ? Ha Ht']; subst. destruct Ha as [Ha Hl]. cbn [ac_template] in *.
  assert (Hstop : forall nx, next_good nx -> within_out (k * M) (fun _ => True) (step_to inner k t tname hs ts hist nx)).
  { intros nx Hn. destruct nx as [pc' st' ex'|rs pc' st']; unfold step_to.
    - destruct Hn. apply IH; auto. constructor; [split; assumption|exact Ht'].
    - destruct Hn as [Hs' Hr]. rewrite <- (Nat.add_0_l (k * M)).
      apply (within_bind (fun x : list activation * list frame * list str => let '(ts2, st2, _) := x in Forall act_good ts2 /\ st_good st2)).
      + intros [[ts2 st2] h2] [H1 H2]. destruct (_ <? _)%N; [exact I|]. apply IH; auto. exact I.
      + assert (Hf : forall name b st2, st_good st2 -> within_out 0 (fun x : list activation * list frame * list str => let '(ts2, st3, _) := x in Forall act_good ts2 /\ st_good st3)
          (let% (t', hist) := name_err tname (lift (get_template inner (t_source t) name hist)) in RRet (Ok (mkact t' (Some (as_name name)) 0 b :: mkact t tname pc' hs :: ts, st2, hist)))).
        { intros name b st2 H2. unfold name_err, lift. destruct (get_template inner _ _ _) as [[t2 h2]| | |] eqn:G; cbn; auto. split; [|exact H2].
          apply find_named in G. constructor; [split; [apply Hnamed, G|apply Hsizes, G]|]. constructor; [split; assumption|exact Ht']. }
        destruct rs as [|name|name c]; [|now apply Hf|apply Hf; constructor; [exact Hr|constructor; [exact I|exact Hs']]].
        destruct hs; [|cbn; auto]. apply within_lift. intros x Hx. apply within_lift. intros y Hy. cbn. split; [exact Ht'|].
        eapply pop_good; [right; exact Hy|]. eapply pop_good; [left; exact Hx|exact Hs']. }
  destruct (nth_error (t_instrs t) pc) as [i|] eqn:E.
  - assert (Hi : instr_good i) by (apply nth_error_In in E; unfold template_good in Ha; rewrite Forall_forall in Ha; auto).
    rewrite (work_step _ _ _ _ _ _ _ _ _ _ i E). cbn [Nat.mul]. apply (within_bind next_good); [exact Hstop|]. apply within_name. apply within_oks.
    + apply brief_instr; auto.
    + intros nx Hn. eapply good_instr; eauto.
  - destruct (pc =? length (t_instrs t)) eqn:Q.
    + apply Nat.eqb_eq in Q. subst pc. rewrite work_end. eapply within_le; [intros a Ha'; exact Ha'| |apply Hstop; cbn; auto]. cbn [Nat.mul]. lia.
    + cbn [work]. rewrite E, Q. exact I.
Qed.
End Instr.
End From.
