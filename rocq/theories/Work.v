(** The steps of a rendering, counted. *)
From Verif Require Import Base Utf8 Ext Errors Syntax Value Ast Wp AstOk Compiler CompileProof Fmt Stack Filters Render RenderSpec
  RenderProof StackRel WorkSpec.

(** ** Literals *)
Definition base_lits (b : base_expr) : list value := match b with BLit v _ => [v] | BVar _ => [] end.
Fixpoint expr_lits (e : expr) : list value :=
  match e with
  | EBase b => base_lits b
  | ECall _ a recv _ => expr_lits recv ++ flat_map base_lits (arg_list a)
  end.
Fixpoint stmt_lits (s : stmt) : list value :=
  match s with
  | SRaw _ => []
  | SInline e _ => expr_lits e
  | SInclude _ g => match g with Some e => expr_lits e | None => [] end
  | SIf _ c thn els =>
    expr_lits c ++ flat_map stmt_lits thn ++ match els with Some l => flat_map stmt_lits l | None => [] end
  | SFor _ e b => expr_lits e ++ flat_map stmt_lits b
  | SWith e _ b => expr_lits e ++ flat_map stmt_lits b
  end.

(** ** Costs *)
(** The steps of a statement, if an included template takes [T] and a loop is run at most [n] times. *)
Section Cost.
Variables T n : nat.
Fixpoint cost (s : stmt) : nat :=
  match s with
  | SRaw _ => 1
  | SInline e _ => length (cinline e)
  | SInclude _ None => 1 + T
  | SInclude _ (Some e) => length (cexpr e) + (1 + T)
  | SIf _ c thn None => length (cexpr c) + (1 + list_sum (map cost thn))
  | SIf _ c thn (Some els) => length (cexpr c) + (1 + (list_sum (map cost thn) + (1 + list_sum (map cost els))))
  | SFor _ e b => length (cexpr e) + (1 + (n * (list_sum (map cost b) + 2) + 1))
  | SWith e _ b => length (cexpr e) + (1 + (list_sum (map cost b) + 1))
  end.
Definition costs (l : scope) : nat := list_sum (map cost l).
End Cost.

Lemma list_max_in (l : list nat) x : In x l -> x <= list_max l.
Proof. intros H. pose proof (proj1 (list_max_le l (list_max l)) (le_n _)) as F. rewrite Forall_forall in F. auto. Qed.
Lemma pow_pos n k : 1 <= (n + 1) ^ k.
Proof. pose proof (Nat.pow_nonzero (n + 1) k). lia. Qed.
Lemma costs_bound T n l : forall k, Forall (fun s => forall off k, loop_depth s <= k -> cost T n s <= length (cstmt off s) * ((n + 1) ^ k * (T + 1))) l ->
  list_max (map loop_depth l) <= k -> forall off, list_sum (map (cost T n) l) <= length (cscope off l) * ((n + 1) ^ k * (T + 1)).
Proof.
  intros k F. induction F as [|s l Hs _ IH]; intros L off; cbn [map list_sum fold_right cscope length]; [lia|]. cbn [map list_max fold_right] in L.
  cbv zeta. rewrite app_length, Nat.mul_add_distr_r. specialize (Hs off k). unfold list_sum in IH. specialize (IH ltac:(unfold list_max; lia) (off + length (cstmt off s))). lia.
Qed.
Lemma cost_bound T n s : forall off k, loop_depth s <= k -> cost T n s <= length (cstmt off s) * ((n + 1) ^ k * (T + 1)).
Proof.
  induction s as [sp|e sp|name g|ng c t e Ht He|v e b Hb|e x b Hb] using stmt_ind'; intros off k L.
  all: pose proof (pow_pos n k) as P.
  - cbn [cost cstmt length]. nia.
  - cbn [cost cstmt]. nia.
  - destruct g as [g|]; cbn [cost cstmt]; rewrite ?app_length; cbn [length]; nia.
  - cbn [loop_depth] in L. assert (Lt : list_max (map loop_depth t) <= k) by lia. pose proof (costs_bound T n t k Ht Lt) as Bt. destruct e as [e|].
    + assert (Le : list_max (map loop_depth e) <= k) by lia. pose proof (costs_bound T n e k He Le) as Be. cbn [cost]. rewrite cstmt_if_else. cbv zeta.
      rewrite app_length. cbn [length]. rewrite app_length. cbn [length].
      set (o1 := off + length (cexpr c) + 1) in *. specialize (Bt o1). specialize (Be (o1 + length (cscope o1 t) + 1)). nia.
    + cbn [cost]. rewrite cstmt_if. cbv zeta. rewrite app_length. cbn [length]. set (o1 := off + length (cexpr c) + 1) in *. specialize (Bt o1). nia.
  - cbn [loop_depth] in L. destruct k as [|k]; [lia|]. assert (Lb : list_max (map loop_depth b) <= k) by lia. pose proof (costs_bound T n b k Hb Lb) as Bb.
    pose proof (pow_pos n k) as P'. cbn [cost]. rewrite cstmt_for. cbv zeta. rewrite app_length. cbn [length]. rewrite app_length. cbn [length].
    specialize (Bb (off + length (cexpr e) + 1 + 1)). set (lb := length (cscope _ b)) in *. clearbody lb. set (le := length (cexpr e)). clearbody le.
    set (cb := list_sum (map (cost T n) b)) in *. clearbody cb. cbn [Nat.pow]. set (Q := (n + 1) ^ k * (T + 1)) in *.
    replace ((n + 1) * (n + 1) ^ k * (T + 1)) with ((n + 1) * Q) by (unfold Q; ring). assert (1 <= Q) by (unfold Q; nia). clearbody Q. clear P P'.
    assert (n * (cb + 2) <= n * (lb * Q + 2)) by (apply Nat.mul_le_mono_l; lia). nia.
  - cbn [loop_depth] in L. pose proof (costs_bound T n b k Hb L) as Bb. cbn [cost]. rewrite cstmt_with. cbv zeta. rewrite app_length. cbn [length]. rewrite app_length. cbn [length].
    specialize (Bb (off + length (cexpr e) + 1)). nia.
Qed.
(** Without includes their cost does not matter. *)
Lemma cost_contained T n s : self_contained s -> cost T n s = cost 0 n s.
Proof.
  assert (All : forall l, Forall (fun s => self_contained s -> cost T n s = cost 0 n s) l ->
    (fix all (l : list stmt) : Prop := match l with [] => True | s :: l' => self_contained s /\ all l' end) l -> map (cost T n) l = map (cost 0 n) l).
  { induction 1 as [|x l Hx _ IH]; intros H; [reflexivity|]. destruct H as [H1 H2]. cbn [map]. f_equal; auto. }
  induction s as [sp|e sp|name g|ng c t e Ht He|v e b Hb|e x b Hb] using stmt_ind'; cbn [self_contained]; intros H; try reflexivity; try contradiction.
  - destruct H as [H1 H2]. destruct e as [e|]; cbn [cost]; now rewrite !All.
  - cbn [cost]. now rewrite All.
  - cbn [cost]. now rewrite All.
Qed.
Lemma all_of_contained l : (fix all (l : list stmt) : Prop := match l with [] => True | s :: l' => self_contained s /\ all l' end) l -> all_self_contained l.
Proof. induction l as [|s l IH]; cbn; [auto|]. intros [H1 H2]. split; [exact H1|exact (IH H2)]. Qed.
Lemma costs_contained T n l : all_self_contained l -> costs T n l = costs 0 n l.
Proof.
  unfold costs. induction l as [|s l IH]; intros H; [reflexivity|]. destruct H as [H1 H2]. cbn [map list_sum fold_right]. unfold list_sum in IH. rewrite IH, cost_contained by assumption. reflexivity.
Qed.

(** ** Small values stay small *)
Section Small.
Context `{X : Ext}.
Variable n : nat.
Hypothesis Hn : 3 <= n.
Notation sm := (small n).
Definition simple (v : value) : Prop := match v with VList _ | VMap _ => False | _ => True end.
Lemma simple_small v : simple v -> sm v.
Proof. destruct v; cbn; intros H; try contradiction; constructor. Qed.
Lemma small_list l : sm (VList l) -> length l <= n /\ Forall sm l.
Proof. intros H. inversion H; auto. Qed.
Lemma small_map m : sm (VMap m) -> length m <= n /\ Forall (fun kv => sm (snd kv)) m.
Proof. intros H. inversion H; auto. Qed.

Definition loop_small (l : loop_state) : Prop :=
  match l with
  | LList _ _ _ iter cur => length iter <= n /\ Forall sm iter /\ match cur with Some (_, x) => sm x | None => True end
  | LMap _ _ _ _ iter cur => length iter <= n /\ Forall (fun kv => sm (snd kv)) iter /\ match cur with Some (_, (_, x)) => sm x | None => True end
  end.
Definition frame_small (fr : frame) : Prop :=
  match fr with
  | FrValueFn f => forall p v, f p = inl v -> sm v
  | FrScope c => sm (cow_val c)
  | FrVar _ c => sm (cow_val c)
  | FrLoop l => loop_small l
  | FrBoundary => True
  end.
Notation st_small := (Forall frame_small).

Lemma map_get_small k m v : Forall (fun kv => sm (snd kv)) m -> map_get k m = Some v -> sm v.
Proof.
  induction 1 as [|[k' x] m Hx _ IH]; cbn [map_get]; [discriminate|]. destruct (str_eqb _ _); [|exact IH]. intros E. injection E as <-. exact Hx.
Qed.
Lemma lookup_small source v m x : sm v -> lookup source v m = Ok (Some x) -> sm x.
Proof.
  intros Hv. unfold lookup. destruct v as [| | | | |l|mp]; destruct (mb_access m) as [i sp|id]; unfold err_render;
    try (destruct (build_pretty _ _); discriminate).
  - apply small_list in Hv as (_ & F). unfold list_get. destruct (_ <? _)%N; [destruct (nth_error l (N.to_nat i)) as [y|] eqn:E|].
    + intros K. injection K as <-. apply nth_error_In in E. rewrite Forall_forall in F. auto.
    + destruct (mb_op m); [|discriminate]. unfold err_render; destruct (build_pretty _ _); discriminate.
    + destruct (mb_op m); [|discriminate]. unfold err_render; destruct (build_pretty _ _); discriminate.
  - apply small_map in Hv as (_ & F). destruct (index_span source (id_span id)); cbn [bind]; try discriminate. destruct (map_get _ mp) as [y|] eqn:E.
    + intros K. injection K as <-. eapply map_get_small; eauto.
    + destruct (mb_op m); [|discriminate]. unfold err_render; destruct (build_pretty _ _); discriminate.
Qed.
Lemma path_small source o p : forall v c, sm v -> lookup_path_loop source o v p = Ok c -> sm (cow_val c).
Proof.
  induction p as [|m p IH]; intros v c Hv; cbn [lookup_path_loop]; [intros E; injection E as <-; now destruct o|].
  destruct (lookup source v m) as [[x|]| | |] eqn:E; cbn [bind]; try discriminate.
  - apply IH. eapply lookup_small; eauto.
  - intros K. injection K as <-. constructor.
Qed.
Lemma maybe_small source o p : forall v b c, sm v -> lookup_path_maybe_loop source o v p b = Ok (Some c) -> sm (cow_val c).
Proof.
  induction p as [|m p IH]; intros v b c Hv; cbn [lookup_path_maybe_loop]; [intros E; injection E as <-; now destruct o|].
  destruct (lookup source v m) as [[x|]| | |] eqn:E; try discriminate.
  - apply IH. eapply lookup_small; eauto.
  - destruct b; [discriminate|]. intros K. injection K as <-. constructor.
  - destruct b; discriminate.
Qed.
Lemma resolve_small source p : forall v x, sm v -> resolve source v p = Ok (Some x) -> sm x.
Proof.
  induction p as [|m p IH]; intros v x Hv; cbn [resolve]; [intros E; injection E as <-; exact Hv|].
  destruct (lookup source v m) as [[y|]| | |] eqn:E; cbn [bind]; try discriminate. apply IH. eapply lookup_small; eauto.
Qed.
Lemma cow_mk o v : cow_val (mk_cow o v) = v.
Proof. now destruct o. Qed.
Lemma lookup_loop_small l source p c : lookup_loop l source p = Ok (Some c) -> sm (cow_val c).
Proof.
  unfold lookup_loop. destruct (current_index_and_rem l) as [[i rem]|]; [|discriminate]. destruct p as [|m0 [|m rest]]; [discriminate| |].
  - intros E. injection E as <-. cbn [cow_val]. apply sm_map; [change (3 <= n); exact Hn|]. apply Forall_forall. intros kv K.
    destruct K as [<-|[<-|[<-|[]]]]; constructor.
  - destruct (mb_access m) as [i' sp|id]; [unfold err_render; destruct (build_pretty _ _); discriminate|].
    destruct (index_span source (id_span id)) as [nm| | |]; cbn [bind]; try discriminate.
    set (r := if str_eqb nm (s2b "index") then _ else _). assert (R : forall v, r = Ok v -> simple v).
    { intros v. unfold r. repeat (match goal with |- context [if ?b then _ else _] => destruct b end); try (intros E; injection E as <-; exact I).
      unfold err_render; destruct (build_pretty _ _); discriminate. }
    destruct r as [v| | |]; cbn [bind]; try discriminate. destruct rest as [|m2 rest]; [|unfold err_render; destruct (build_pretty _ _); discriminate].
    intros E. injection E as <-. cbn [cow_val]. apply simple_small. now apply R.
Qed.
Lemma loop_var_small l source v c : loop_small l -> loop_lookup_var l source v = Ok (Some c) -> sm (cow_val c).
Proof.
  intros Hl. unfold loop_lookup_var. destruct (var_first v) as [first| | |]; cbn [bind]; try discriminate.
  destruct (mb_access first) as [i sp|id]; [discriminate|]. destruct (index_span source (id_span id)) as [nm| | |]; cbn [bind]; try discriminate.
  destruct (str_eqb nm (s2b "loop")); [apply lookup_loop_small|]. destruct l as [o i k iter [[j x]|]|o kn vn k iter [[j [key x]]|]]; try discriminate; cbn [loop_small] in Hl.
  - destruct (str_eqb nm i); [|discriminate]. destruct (resolve source x (var_rest v)) as [[y|]| | |] eqn:E; cbn [bind option_map]; try discriminate.
    intros K. injection K as <-. rewrite cow_mk. eapply resolve_small; [|exact E]. apply Hl.
  - destruct (str_eqb nm kn).
    { destruct (var_rest v) as [|m0 rest]; [|unfold err_render; destruct (build_pretty _ _); discriminate]. intros K. injection K as <-. constructor. }
    destruct (str_eqb nm vn); [|discriminate]. destruct (resolve source x (var_rest v)) as [[y|]| | |] eqn:E; cbn [bind option_map]; try discriminate.
    intros K. injection K as <-. rewrite cow_mk. eapply resolve_small; [|exact E]. apply Hl.
Qed.
Lemma not_found_not {A} source v (c : A) : @err_not_found _ A source v <> Ok c.
Proof. unfold err_not_found. destruct (var_first v); cbn [bind]; try discriminate. unfold err_render; destruct (build_pretty _ _); discriminate. Qed.
Lemma var_small st source v c : st_small st -> lookup_var st source v = Ok c -> sm (cow_val c).
Proof.
  induction 1 as [|fr st Hf _ IH]; cbn [lookup_var]; [intros E; now apply not_found_not in E|]. destruct fr as [f|s|name x|l|]; cbn [frame_small] in Hf.
  - destruct (value_path source v) as [p| | |]; cbn [bind]; try discriminate. destruct (f p) as [x|r] eqn:E.
    + intros K. injection K as <-. now apply Hf in E.
    + destruct (var_span v); cbn [bind]; try discriminate. unfold err_render; destruct (build_pretty _ _); discriminate.
  - unfold lookup_path_maybe. destruct (lookup_path_maybe_loop _ _ _ _ _) as [[x|]| | |] eqn:E; cbn [bind]; try discriminate; [|exact IH].
    intros K. injection K as <-. eapply maybe_small; eauto.
  - destruct (var_first v); cbn [bind]; try discriminate. destruct (index_span _ _); cbn [bind]; try discriminate. destruct (index_span _ _); cbn [bind]; try discriminate.
    destruct (str_eqb _ _); [|exact IH]. apply path_small. exact Hf.
  - destruct (loop_lookup_var l source v) as [[x|]| | |] eqn:E; cbn [bind]; try discriminate; [|exact IH]. intros K. injection K as <-. eapply loop_var_small; eauto.
  - intros E. now apply not_found_not in E.
Qed.

(** Filters *)
Lemma from_ref_small t v a : sm v -> from_value_ref t v = inl a -> small_arg n a.
Proof.
  intros Hv. destruct t; cbn [from_value_ref]; try (destruct v; try discriminate; intros E; injection E as <-; exact I || exact Hv);
    try (intros E; injection E as <-; exact Hv).
  destruct v; try discriminate. destruct (_ && _); [|discriminate]. intros E; injection E as <-; exact I.
Qed.
Lemma from_small t v a : sm v -> from_value t v = inl a -> small_arg n a.
Proof.
  intros Hv. destruct t; cbn [from_value]; try (apply from_ref_small; exact Hv); try discriminate; destruct v; discriminate.
Qed.
Lemma arg_small t source st b a : st_small st -> Forall simple (base_lits b) -> get_arg t source st b = Ok a -> small_arg n a.
Proof.
  intros Hs Hl. destruct b as [v|x sp]; cbn [get_arg].
  - destruct (lookup_var st source v) as [c| | |] eqn:E; cbn [bind]; try discriminate. apply (var_small _ _ _ _ Hs) in E.
    destruct c as [x|x]; cbn [cow_val] in E.
    + destruct (from_value_ref t x) as [a'|e] eqn:K; [intros Q; injection Q as <-; eapply from_ref_small; eauto|].
      destruct (var_span v); cbn [bind]; try discriminate. unfold err_expected_arg, err_render; destruct (build_pretty _ _); discriminate.
    + destruct (from_value t x) as [a'|e] eqn:K; [intros Q; injection Q as <-; eapply from_small; eauto|].
      destruct (var_span v); cbn [bind]; try discriminate. unfold err_expected_arg, err_render; destruct (build_pretty _ _); discriminate.
  - inversion Hl; subst. destruct (from_value_ref t x) as [a'|e] eqn:K; [intros Q; injection Q as <-; eapply from_ref_small; eauto; now apply simple_small|].
    unfold err_expected_arg, err_render; destruct (build_pretty _ _); discriminate.
Qed.
Lemma args_small source st : st_small st -> forall l tys avs, Forall simple (flat_map base_lits l) -> get_args tys source st l = Ok avs -> Forall (small_arg n) avs.
Proof.
  intros Hs. induction l as [|b l IH]; intros [|t tys] avs Hl; cbn [get_args]; try discriminate; [intros E; injection E as <-; constructor|].
  cbn [flat_map] in Hl. apply Forall_app in Hl as [Hb Hl]. destruct (get_arg t source st b) as [a'| | |] eqn:E; cbn [bind]; try discriminate.
  destruct (get_args tys source st l) as [rest| | |] eqn:E2; cbn [bind]; try discriminate. intros K. injection K as <-. constructor; [eapply arg_small; eauto|eapply IH; eauto].
Qed.
Lemma call_small f source name st c l v : modest n f -> st_small st -> sm (cow_val c) -> Forall simple (flat_map base_lits l) ->
  call_filter f source name st c l = Ok v -> sm v.
Proof.
  intros Hf Hs Hc Hl. unfold call_filter. destruct (check_args _ _ _ _) as [u| | |]; cbn [bind]; try discriminate. unfold from_cow_mut. destruct (from_value_ref _ _) as [a|e] eqn:E.
  - cbn [bind]. destruct (get_args _ _ _ _) as [avs| | |] eqn:E2; cbn [bind]; try discriminate. destruct (fl_run f a avs) as [x|m] eqn:E3; [|discriminate].
    intros K. injection K as <-. apply (Hf a avs); auto; [eapply from_ref_small; eauto|eapply args_small; eauto].
  - destruct e; cbn [err_expected_val bind]; try discriminate; unfold err_render; destruct (build_pretty _ _); discriminate.
Qed.

Lemma frames_small l : loop_small l -> Forall frame_small (rem_frames l) /\ length (rem_frames l) <= n.
Proof.
  destruct l as [o i k iter cur|o kn vn k iter cur]; cbn [loop_small rem_frames]; intros (L & F & _); clear cur; revert k; induction F as [|x iter Hx F IH]; intros k; cbn in *.
  - split; [constructor|lia].
  - destruct (IH ltac:(lia) (S k)) as (A & B). assert (Le : length (list_frames o i (S k) iter) = length iter) by (clear; revert k; induction iter; intros k; cbn; auto).
    split; [|lia]. constructor; [|exact A]. cbn. split; [lia|]. split; [exact F|exact Hx].
  - split; [constructor|lia].
  - destruct x as [key x]. destruct (IH ltac:(lia) (S k)) as (A & B). assert (Le : length (map_frames o kn vn (S k) iter) = length iter) by (clear; revert k; induction iter; intros k; cbn; auto).
    split; [|lia]. constructor; [|exact A]. cbn. split; [lia|]. split; [exact F|exact Hx].
Qed.
Lemma loop_new_small source vars c sp l : sm (cow_val c) -> loop_new source vars c sp = Ok l -> loop_small l.
Proof.
  intros Hc. unfold loop_new. destruct (cow_val c) as [| | | | |x|m]; destruct vars as [i|k v vsp]; try (unfold err_render; destruct (build_pretty _ _); discriminate).
  - destruct (index_span _ _); cbn [bind]; try discriminate. intros E. injection E as <-. apply small_list in Hc as (L & F). cbn. auto.
  - destruct (index_span _ _); cbn [bind]; try discriminate. destruct (index_span _ _); cbn [bind]; try discriminate. intros E. injection E as <-. apply small_map in Hc as (L & F). cbn. auto.
Qed.
Variable inner : renderer_inner.
Hypothesis Hmodest : forall name f, map_get name (en_functions (ri_engine inner)) = Some (EFilter f) -> modest n f.
Lemma enrich_not {A} e source sp (v : A) : err_enrich e source sp <> Ok v.
Proof. unfold err_enrich. destruct (e_pretty e); [discriminate|]. destruct (build_pretty _ _); discriminate. Qed.
Lemma apply_small source st name l c v : st_small st -> sm (cow_val c) -> Forall simple (flat_map base_lits l) -> s_apply inner source st name l c = Ok v -> sm v.
Proof.
  intros Hs Hc Hl. unfold s_apply. destruct (index_span _ _) as [nm| | |]; cbn [bind]; try discriminate. destruct (map_get nm _) as [[f|f]|] eqn:E;
    try (unfold err_render; destruct (build_pretty _ _); discriminate).
  destruct (call_filter f source name st c l) as [x|e| |] eqn:K; try discriminate.
  - intros Q. injection Q as <-. eapply call_small; eauto.
  - intros Q. now apply enrich_not in Q.
Qed.
Lemma expr_small source st e : st_small st -> Forall simple (expr_lits e) -> forall c, s_expr inner source st e = Ok c -> sm (cow_val c).
Proof.
  intros Hs. induction e as [[v|v sp]|name a recv IH sp]; intros Hl c; cbn [s_expr expr_lits base_lits] in *.
  - now apply var_small.
  - intros E. injection E as <-. inversion Hl; subst. now apply simple_small.
  - apply Forall_app in Hl as [H1 H2]. destruct (s_expr inner source st recv) as [c'| | |]; cbn [bind]; try discriminate.
    destruct (s_apply _ _ _ _ _ _) as [v| | |] eqn:E; cbn [bind]; try discriminate. intros K. injection K as <-. cbn [cow_val]. eapply apply_small; eauto.
Qed.
End Small.

(** ** The counted machine is the renderer *)
(** The same tree, but for where the steps run out. *)
Inductive less {A} : rt A -> rt A -> Prop :=
| less_out x : less (RRet OutOfFuel) x
| less_ret r : less (RRet r) (RRet r)
| less_write s a b a' b' : less a a' -> less b b' -> less (RWrite s a b) (RWrite s a' b').
Lemma less_refl {A} (x : rt A) : less x x.
Proof. induction x; constructor; assumption. Qed.
Lemma less_bind {A B} (x : rt A) (k k' : A -> rt B) : (forall a, less (k a) (k' a)) -> less (rbind x k) (rbind x k').
Proof. intros H. induction x as [[a|e| |]|s a IHa b IHb]; cbn [rbind]; try apply less_refl; [apply H|now constructor]. Qed.
Lemma less_run {A} k (x y : rt A) : less x y -> forall w c, snd (run k w c x) <> OutOfFuel -> run k w c y = run k w c x.
Proof.
  induction 1 as [x|r|s a b a' b' _ IHa _ IHb]; intros w c H; cbn [run snd] in *; [congruence|reflexivity|].
  destruct (sk_write k w s) as [w' [code|]]; auto.
Qed.
Lemma less_string {A} (x y : rt A) : less x y -> forall b, snd (run_string b x) <> OutOfFuel -> run_string b y = run_string b x.
Proof. induction 1 as [x|r|s a b a' b' _ IHa _ IHb]; intros buf H; cbn [run_string snd] in *; [congruence|reflexivity|auto]. Qed.

Section Machine.
Context `{X : Ext}.
Variable inner : renderer_inner.
(** The machine between two instructions. *)
Definition step_to (b : nat) (t : template) (tname : option str) (hs : bool) (rest : list activation) (hist : list str) (nx : next) : rt unit :=
  match nx with
  | NGo pc st ex => work inner b (mkact t tname pc hs :: rest) st ex hist
  | NStop rs pc st =>
    let a := mkact t tname pc hs in
    let% (ts, st, hist) :=
      match rs with
      | RsDone =>
        if hs then
          let% st := lift (pop_scope st) in
          let% st := lift (pop_boundary st) in
          RRet (Ok (rest, st, hist))
        else RRet (Ok (rest, st, hist))
      | RsInclude name =>
        let% (t', hist) := name_err tname (lift (get_template inner (t_source t) name hist)) in
        RRet (Ok (mkact t' (Some (as_name name)) 0 false :: a :: rest, st, hist))
      | RsIncludeWith name globals =>
        let% (t', hist) := name_err tname (lift (get_template inner (t_source t) name hist)) in
        RRet (Ok (mkact t' (Some (as_name name)) 0 true :: a :: rest, FrScope globals :: FrBoundary :: st, hist))
      end in
    if (max_include_depth inner <? N.of_nat (length ts))%N
    then lift (err_max_include_depth (max_include_depth inner))
    else work inner b ts st None hist
  end.
Lemma work_step b t tname hs rest pc st ex hist i : nth_error (t_instrs t) pc = Some i ->
  work inner (S b) (mkact t tname pc hs :: rest) st ex hist =
  rbind (name_err tname (exec_instr inner t i pc st ex)) (step_to b t tname hs rest hist).
Proof. intros E. cbn [work]. rewrite E. apply rbind_ext. intros [pc' st' ex'|rs pc' st']; reflexivity. Qed.
Lemma work_end b t tname hs rest st ex hist :
  work inner (S b) (mkact t tname (length (t_instrs t)) hs :: rest) st ex hist = step_to b t tname hs rest hist (NStop RsDone (length (t_instrs t)) st).
Proof.
  cbn [work]. replace (nth_error (t_instrs t) (length (t_instrs t))) with (@None instr) by (symmetry; apply nth_error_None; lia).
  rewrite Nat.eqb_refl. reflexivity.
Qed.

(** With [k] steps no more is done than with fuel [k]. *)
Lemma work_less k : forall t tname hs rest pc st ex hist f g, k <= f -> k <= g ->
  less (work inner k (mkact t tname pc hs :: rest) st ex hist) (mid inner t tname hs rest f g pc st ex hist).
Proof.
  induction k as [|k IH]; intros t tname hs rest pc st ex hist f g Hf Hg; [constructor|]. destruct g as [|g]; [lia|].
  assert (Hstop : forall rs pc' st', less (step_to k t tname hs rest hist (NStop rs pc' st')) (cont inner f t tname hs rest hist (rs, pc', st'))).
  { intros rs pc' st'. unfold step_to, cont. cbn [ac_has_scope]. apply less_bind. intros [[ts st2] h2].
    destruct (_ <? _)%N; [apply less_refl|]. destruct ts as [|[t2 n2 p2 hs2] ts]; [destruct k, f; apply less_refl|].
    destruct f as [|f]; [lia|]. rewrite render_loop_S. cbn [ac_template ac_name ac_pc ac_has_scope]. apply IH; lia. }
  destruct (nth_error (t_instrs t) pc) as [i|] eqn:E.
  - rewrite (work_step _ _ _ _ _ _ _ _ _ i E), (mid_step inner t tname hs rest _ _ _ _ _ _ i E). apply less_bind.
    intros [pc' st' ex'|rs pc' st']; [apply IH; lia|apply Hstop].
  - unfold mid. cbn [work render_one]. rewrite E. destruct (_ =? _); [|apply less_refl]. cbn [name_err rmap_err rbind]. apply (Hstop RsDone).
Qed.
Lemma whole_less k f st : k < f -> less (whole inner k st) (render inner f st).
Proof.
  intros H. destruct f as [|f]; [lia|]. unfold whole, render. rewrite render_loop_S. cbn [ac_template ac_name ac_pc ac_has_scope]. apply work_less; lia.
Qed.
End Machine.

(** ** Steps, counted: the simulation of RenderProof.v with numbers *)
Section Timed.
Context `{X : Ext}.
Variable inner : renderer_inner.
Variable ast_of : template -> scope.
Variable n : nat.
Hypothesis Hn : 3 <= n.
Hypothesis Hmodest : forall name f, map_get name (en_functions (ri_engine inner)) = Some (EFilter f) -> modest n f.
(** [alone]: the root has no includes. *)
Variable alone : Prop.
Notation maxd := (max_include_depth inner).
Notation st_small := (Forall (frame_small n)).
Definition loop_in (k : nat) (ts : list activation) (st : stack) (hist : list str) (tree : rt unit) : Prop :=
  forall f, k <= f -> work inner f ts st None hist = tree.

Section One.
Variable t : template.
Variable tname : option str.
Variable hs : bool.
Variable rest : list activation.
Notation source := (t_source t).
Notation code_at := (code_at t).

Definition runs_in (k pc : nat) (st : stack) (ex : option cow) (hist : list str) (tree : rt unit) : Prop :=
  forall f, k <= f -> work inner f (mkact t tname pc hs :: rest) st ex hist = tree.
Definition stops_in (k : nat) (rs : render_state) (pc : nat) (st : stack) (hist : list str) (tree : rt unit) : Prop :=
  forall f, k <= f -> step_to inner f t tname hs rest hist (NStop rs pc st) = tree.
Definition after_in (k : nat) (hist : list str) (nx : next) (tree : rt unit) : Prop :=
  match nx with
  | NGo pc st ex => runs_in k pc st ex hist tree
  | NStop rs pc st => stops_in k rs pc st hist tree
  end.
Lemma runs_le k k' pc st ex hist tree : runs_in k pc st ex hist tree -> k <= k' -> runs_in k' pc st ex hist tree.
Proof. intros H L f Hf. apply H; lia. Qed.

Lemma runs_instr_in k pc st ex hist i K : nth_error (t_instrs t) pc = Some i ->
  (forall nx, oks (exec_instr inner t i pc st ex) nx -> after_in k hist nx (K nx)) ->
  runs_in (1 + k) pc st ex hist (rbind (name_err tname (exec_instr inner t i pc st ex)) K).
Proof.
  intros E H f Hf. destruct f as [|f]; [lia|]. rewrite (work_step inner _ _ _ _ _ _ _ _ _ i E). apply rbind_ext_oks. intros nx Hx.
  apply oks_name_err in Hx. apply H in Hx. destruct nx as [pc' st' ex'|rs pc' st']; apply Hx; lia.
Qed.
Notation here := (here tname).
Lemma runs_lift_in {A} k pc st ex hist i (r : res A) (nx : A -> next) K :
  nth_error (t_instrs t) pc = Some i ->
  exec_instr inner t i pc st ex = rbind (lift r) (fun a => RRet (Ok (nx a))) ->
  (forall a, r = Ok a -> after_in k hist (nx a) (K a)) ->
  runs_in (1 + k) pc st ex hist (rbind (here r) K).
Proof.
  intros E Hx H. destruct r as [a|e| |].
  - pose proof (runs_instr_in k pc st ex hist i (fun _ => K a) E) as R. rewrite Hx in R. cbn [lift rbind name_err rmap_err] in R. apply R.
    intros nx' Ho. cbn in Ho. subst nx'. now apply H.
  - pose proof (runs_instr_in k pc st ex hist i (fun _ => RRet Panic) E) as R. rewrite Hx in R. apply R. intros ? [].
  - pose proof (runs_instr_in k pc st ex hist i (fun _ => RRet Panic) E) as R. rewrite Hx in R. apply R. intros ? [].
  - pose proof (runs_instr_in k pc st ex hist i (fun _ => RRet Panic) E) as R. rewrite Hx in R. apply R. intros ? [].
Qed.
Lemma runs_go_in k pc st ex hist i nx tree :
  nth_error (t_instrs t) pc = Some i -> exec_instr inner t i pc st ex = RRet (Ok nx) ->
  after_in k hist nx tree -> runs_in (1 + k) pc st ex hist tree.
Proof.
  intros E Hx H. pose proof (runs_instr_in k pc st ex hist i (fun _ => tree) E) as R. rewrite Hx in R. apply R.
  intros ? Ho. cbn in Ho. now subst.
Qed.

Lemma runs_expr_in e : forall k pc st hist K, code_at pc (cexpr e) ->
  (forall c, s_expr inner source st e = Ok c -> runs_in k (pc + length (cexpr e)) st (Some c) hist (K c)) ->
  runs_in (length (cexpr e) + k) pc st None hist (rbind (here (s_expr inner source st e)) K).
Proof.
  induction e as [b|name a recv IH sp]; intros k pc st hist K Hc H.
  - apply code_at_cons in Hc as [E _]. destruct b as [v|v s]; cbn [cexpr cbase s_expr length] in *.
    + eapply runs_lift_in with (nx := fun c => NGo (pc + 1) st (Some c)); eauto.
    + change (rbind (here (Ok (Owned v))) K) with (K (Owned v)). eapply runs_go_in; [exact E|reflexivity|]. now apply H.
  - cbn [cexpr] in *. apply code_at_app in Hc as [Hr Hc]. apply code_at_cons in Hc as [E _].
    cbn [s_expr] in *. rewrite here_bind. rewrite app_length in *. cbn [length] in *. rewrite <- Nat.add_assoc. apply IH; auto. intros c Ec.
    rewrite here_bind.
    eapply runs_lift_in with (nx := fun v => NGo (pc + length (cexpr recv) + 1) st (Some (Owned v))); [exact E| |].
    + cbn [exec_instr]. unfold s_apply. destruct (index_span source (id_span name)) as [nm| | |]; auto. cbn [lift rbind bind].
      destruct (map_get nm (en_functions (ri_engine inner))) as [[f|f]|]; cbn [unwrap rbind lift].
      * unfold err_render; now destruct (build_pretty _ _).
      * fold (arg_list a). reflexivity.
      * unfold err_render; now destruct (build_pretty _ _).
    + intros v Ev. cbn [RenderSpec.here name_err lift rmap_err rbind]. cbn [after_in].
      specialize (H (Owned v)). rewrite Ec in H. cbn [bind] in H. rewrite Ev in H. cbn [bind] in H.
      rewrite Nat.add_assoc in H. now apply H.
Qed.
Lemma runs_fmt_in k pc st ex hist i (x : rt unit) (nx : next) K :
  nth_error (t_instrs t) pc = Some i ->
  exec_instr inner t i pc st ex = rbind x (fun _ => RRet (Ok nx)) ->
  (oks x tt -> after_in k hist nx K) ->
  runs_in (1 + k) pc st ex hist (rbind (name_err tname x) (fun _ => K)).
Proof.
  intros E Hx H. pose proof (runs_instr_in k pc st ex hist i (fun _ => K) E) as R.
  rewrite Hx, name_err_bind, rbind_assoc in R. apply R.
  intros nx' (u & Hu & Ho)%oks_rbind. cbn in Ho. subst. destruct u. now apply H.
Qed.
Lemma runs_inline_in e : expr_ok source e -> forall k pc st hist (K : rt unit), code_at pc (cinline e) ->
  (oks (s_inline inner source st e) tt -> runs_in k (pc + length (cinline e)) st None hist K) ->
  runs_in (length (cinline e) + k) pc st None hist (rbind (name_err tname (s_inline inner source st e)) (fun _ => K)).
Proof.
  intros Hok. destruct (expr_span_total (E := error) source e Hok) as (sp & Es).
  assert (Eo : span_or e = sp) by (unfold span_or; now rewrite Es).
  assert (Hdef : forall k pc st hist K, code_at pc (cexpr e ++ [IEmit (span_or e)]) ->
    (oks (let% c := lift (s_expr inner source st e) in
      let% sp := lift (expr_span e) in
      s_default inner source (cow_val c) sp) tt -> runs_in k (pc + length (cexpr e ++ [IEmit (span_or e)])) st None hist K) ->
    runs_in (length (cexpr e ++ [IEmit (span_or e)]) + k) pc st None hist (rbind (name_err tname (
      let% c := lift (s_expr inner source st e) in
      let% sp := lift (expr_span e) in
      s_default inner source (cow_val c) sp)) (fun _ => K))).
  { intros k pc st hist K Hc H. apply code_at_app in Hc as [Hr Hc]. apply code_at_cons in Hc as [E _].
    rewrite name_err_bind, rbind_assoc. change (name_err tname (lift ?x)) with (here x).
    rewrite app_length in *. cbn [length] in *. rewrite <- Nat.add_assoc.
    apply runs_expr_in; auto. intros c Ec. rewrite Es. cbn [lift rbind].
    eapply runs_fmt_in with (nx := NGo (pc + length (cexpr e) + 1) st None); [exact E| |].
    - cbn [exec_instr lift unwrap rbind]. rewrite Eo. reflexivity.
    - intros Ho. cbn [after_in]. rewrite Nat.add_assoc in H. apply H.
      rewrite Ec. cbn [lift rbind]. rewrite Es. exact Ho. }
  destruct e as [b|name [a|] recv s]; [exact Hdef|exact Hdef|]. clear Hdef.
  intros k pc st hist K Hc H. cbn [cinline] in *. rewrite Eo in *. cbn [expr_span] in Es. injection Es as <-.
  apply code_at_app in Hc as [Hr Hc]. apply code_at_cons in Hc as [E _].
  cbn [s_inline]. rewrite name_err_bind, rbind_assoc. change (name_err tname (lift ?x)) with (here x).
  rewrite app_length in *. cbn [length] in *. rewrite <- Nat.add_assoc.
  apply runs_expr_in; auto. intros c Ec. rewrite Nat.add_assoc in H.
  eapply runs_fmt_in with (nx := NGo (pc + length (cexpr recv) + 1) st None); [exact E| |intros Ho; apply H; cbn [s_inline]; rewrite Ec; exact Ho].
  cbn [exec_instr]. destruct (index_span source (id_span name)) as [nm| | |] eqn:En; auto. cbn [lift rbind unwrap].
  destruct (map_get nm (en_functions (ri_engine inner))) as [[f|f]|] eqn:Em.
  - reflexivity.
  - unfold s_apply. rewrite En. cbn [bind]. rewrite Em. unfold lift.
    destruct (match call_filter f source name st c [] with Err e => _ | r => r end); reflexivity.
  - unfold err_render; now destruct (build_pretty _ _).
Qed.

Section Stmts.
Variable inc : option rend.
(** The steps of an included template. *)
Variable T : nat.
Hypothesis Hinc : ~ alone ->
  match inc with
  | None => (maxd < N.of_nat (2 + length rest))%N
  | Some run => (N.of_nat (2 + length rest) <= maxd)%N /\
     forall t' nm pc hs' st0 st hist K k,
     named inner t' -> st_small st ->
     (if hs' : bool then exists c, st = FrScope c :: FrBoundary :: st0 else st = st0) ->
     (forall h, oks (run t' nm st hist) h -> runs_in k pc st0 None h (K h)) ->
     loop_in (T + k) (mkact t' nm 0 hs' :: mkact t tname pc hs :: rest) st hist (rbind (run t' nm st hist) K)
  end.
Notation s_stmt := (s_stmt inner inc source tname).
Notation s_scope := (s_scope inner inc source tname).
Notation cost := (cost T n).
Notation costs := (costs T n).

Definition stmt_in (s : stmt) : Prop := (alone -> self_contained s) -> stmt_ok source s -> Forall simple (stmt_lits s) -> forall k off st hist K, st_small st -> code_at off (cstmt off s) ->
  (forall h, oks (s_stmt s st hist) h -> runs_in k (off + length (cstmt off s)) st None h (K h)) ->
  runs_in (cost s + k) off st None hist (rbind (s_stmt s st hist) K).

Lemma runs_scope_in l : Forall stmt_in l -> (alone -> all_self_contained l) -> Forall (stmt_ok source) l -> Forall simple (flat_map stmt_lits l) -> forall k off st hist K, st_small st -> code_at off (cscope off l) ->
  (forall h, oks (s_scope l st hist) h -> runs_in k (off + length (cscope off l)) st None h (K h)) ->
  runs_in (costs l + k) off st None hist (rbind (s_scope l st hist) K).
Proof.
  induction 1 as [|s l Hs Hl IH]; intros Hal Hok Hlit k off st hist K Hst Hc H.
  - cbn [RenderSpec.s_scope rbind]. cbn [cscope length] in H. rewrite Nat.add_0_r in H. now apply H.
  - inversion Hok; subst. cbn [flat_map] in Hlit. apply Forall_app in Hlit as [L1 L2]. cbn [cscope] in *. cbv zeta in *. apply code_at_app in Hc as [Hc1 Hc2].
    cbn [RenderSpec.s_scope]. rewrite rbind_assoc. change (costs (s :: l)) with (cost s + costs l). rewrite <- Nat.add_assoc. apply Hs; auto; [intros A; apply Hal; exact A|]. intros h Hh.
    apply IH; auto; [intros A; apply Hal; exact A|]. intros h' Hh'. rewrite app_length, Nat.add_assoc in H. apply H.
    cbn [RenderSpec.s_scope]. apply oks_rbind. eauto.
Qed.
Lemma runs_each_in body j off st cb : st_small st ->
  (forall fr st h K k, st_small (fr :: st) -> code_at off (cscope off body) ->
     (forall h', oks (s_scope body (fr :: st) h) h' -> runs_in k (off + length (cscope off body)) (fr :: st) None h' (K h')) ->
     runs_in (cb + k) off (fr :: st) None h (rbind (s_scope body (fr :: st) h) K)) ->
  off = j + 1 ->
  code_at j (ILoopNext (Some (off + length (cscope off body) + 1)) :: cscope off body ++ [IJump (Some j)]) ->
  forall l frs, frs = rem_frames l -> Forall (frame_small n) frs -> forall hist K k,
  (forall h, oks (s_each (s_scope body) st frs hist) h -> runs_in k (off + length (cscope off body) + 1) st None h (K h)) ->
  runs_in (length frs * (cb + 2) + 1 + k) j (FrLoop l :: st) None hist (rbind (s_each (s_scope body) st frs hist) K).
Proof.
  intros Hst Hbody Eoff Hcode l frs. pose proof Hcode as Hcode'.
  apply code_at_cons in Hcode' as [E Hc]. apply code_at_app in Hc as [Hcb Hcj]. apply code_at_cons in Hcj as [Ej _].
  rewrite <- Eoff in *. revert l. induction frs as [|fr frs IH]; intros l El Hfr hist K k H.
  - cbn [s_each rbind length Nat.mul Nat.add]. eapply runs_go_in; [exact E| |].
    + cbn [exec_instr last_loop_state lift rbind]. destruct l as [o i m [|x iter] cur|o kn v m [|x iter] cur]; try discriminate;
      cbn [iterate pop_loop_state lift rbind jump]; reflexivity.
    + cbn [after_in]. now apply H.
  - assert (exists l', iterate l = Some l' /\ fr = FrLoop l' /\ frs = rem_frames l') as (l' & Hi & -> & ->).
    { destruct l as [o i m [|x iter] cur|o kn v m [|x iter] cur]; try discriminate; cbn [rem_frames list_frames map_frames] in El;
      injection El as -> ->; eexists; cbn [iterate]; repeat split. }
    inversion Hfr as [|? ? F1 F2]; subst.
    replace (length (FrLoop l' :: rem_frames l') * (cb + 2) + 1 + k) with (1 + (cb + (1 + (length (rem_frames l') * (cb + 2) + 1 + k)))) by (cbn [length]; lia).
    eapply runs_go_in; [exact E| |].
    { cbn [exec_instr last_loop_state lift rbind]. rewrite Hi. cbn [tl]. reflexivity. }
    cbn [after_in s_each]. rewrite rbind_assoc. apply Hbody; auto. intros h' Hh'.
    eapply runs_go_in; [exact Ej|reflexivity|]. cbn [after_in]. apply IH; auto.
    intros h2 Hh2. apply H. cbn [s_each]. apply oks_rbind. eauto.
Qed.
Lemma stops_include_in name pc st0 w (st : stack) hist K k : ~ alone -> st_small st ->
  st = match w with Some c => FrScope c :: FrBoundary :: st0 | None => st0 end ->
  (forall h, oks (let% (t', hist) := here (s_find inner source name hist) in
    match inc with
    | None => lift (err_max_include_depth maxd)
    | Some run => run t' (Some (as_name name)) st hist
    end) h -> runs_in k pc st0 None h (K h)) ->
  stops_in (T + k) (match w with Some c => RsIncludeWith name c | None => RsInclude name end) pc st0 hist
    (rbind (let% (t', hist) := here (s_find inner source name hist) in
    match inc with
    | None => lift (err_max_include_depth maxd)
    | Some run => run t' (Some (as_name name)) st hist
    end) K).
Proof.
  intros Hna Hst Est H. specialize (Hinc Hna). rewrite rbind_assoc. unfold stops_in.
  assert (Ec : forall f, step_to inner f t tname hs rest hist (NStop (match w with Some c => RsIncludeWith name c | None => RsInclude name end) pc st0) =
    (let% (t', hist) := here (s_find inner source name hist) in
     if (maxd <? N.of_nat (length (mkact t' (Some (as_name name)) 0 (match w with Some _ => true | None => false end) :: mkact t tname pc hs :: rest)))%N
      then lift (err_max_include_depth maxd)
      else work inner f (mkact t' (Some (as_name name)) 0 (match w with Some _ => true | None => false end) :: mkact t tname pc hs :: rest) st None hist)).
  { intros f. rewrite Est. unfold step_to. change (s_find inner source name hist) with (get_template inner source name hist).
    unfold RenderSpec.here, lift. destruct w; destruct (get_template inner source name hist) as [[t' h']| | |]; reflexivity. }
  destruct (s_find inner source name hist) as [[t' h']|er| |] eqn:Ef.
  2-4: intros f _; rewrite Ec; reflexivity.
  assert (Hp := provided_find inner t _ _ _ _ Ef).
  set (hw := match w with Some _ => true | None => false end) in *.
  cbn [RenderSpec.here name_err lift rmap_err rbind] in H, Ec |- *.
  destruct inc as [run|].
  - destruct Hinc as (Hle & Hrun).
    assert (Hl := Hrun t' (Some (as_name name)) pc hw st0 st h' K k Hp Hst).
    intros f Hf. rewrite Ec. cbn [length] in *.
    replace (maxd <? N.of_nat (S (S (length rest))))%N with false by (symmetry; apply N.ltb_ge; lia).
    apply Hl; auto. unfold hw. destruct w; eauto.
  - intros f _. rewrite Ec. cbn [length] in *.
    replace (maxd <? N.of_nat (S (S (length rest))))%N with true by (symmetry; apply N.ltb_lt; lia).
    reflexivity.
Qed.
Lemma sim_in s : stmt_in s.
Proof.
  induction s as [sp|e sp|nm g|ng c thn els Ht He|v e b Hb|e x b Hb] using stmt_ind'; intros Hal Hok Hlit k off st hist K Hst Hc H.
  - cbn [cstmt length Work.cost] in *. apply code_at_cons in Hc as [E _]. cbn [RenderSpec.s_stmt] in *.
    rewrite rbind_assoc. cbn [rbind].
    assert (Ex : exec_instr inner t (IEmitRaw sp) off st None = rbind (lift (index_span source sp)) (fun raw =>
      RWrite raw (RRet (Ok (NGo (off + 1) st None))) (RRet (Err mk_fmt_error)))) by reflexivity.
    pose proof (runs_instr_in k off st None hist (IEmitRaw sp) (fun _ => K hist) E) as R. rewrite Ex in R.
    unfold RenderSpec.here in *.
    destruct (index_span source sp) as [raw|er| |]; cbn [lift rbind name_err rmap_err] in R, H |- *.
    + apply R. intros nx [Ho|[]]. cbn in Ho. subst nx. apply H. now left.
    + apply R. intros ? [].
    + apply R. intros ? [].
    + apply R. intros ? [].
  - cbn [cstmt Work.cost] in *. cbn [RenderSpec.s_stmt] in *. inversion Hok; subst. rewrite rbind_assoc. cbn [rbind].
    apply runs_inline_in; auto. intros Ho. apply H. apply oks_rbind. exists tt. split; [now apply oks_name_err|reflexivity].
  - assert (Hna : ~ alone) by exact Hal. destruct g as [g|]; cbn [cstmt Work.cost RenderSpec.s_stmt stmt_lits] in *.
    + apply code_at_app in Hc as [Hc1 Hc2]. apply code_at_cons in Hc2 as [E _]. inversion Hok; subst.
      rewrite !rbind_assoc. rewrite <- Nat.add_assoc. apply runs_expr_in; auto. intros c Ec. cbn [rbind].
      rewrite <- Nat.add_assoc. eapply runs_go_in; [exact E|reflexivity|]. cbn [after_in].
      apply (stops_include_in nm _ st (Some c)); auto.
      { constructor; [cbn [frame_small]; eapply expr_small; eauto|]. constructor; [exact I|exact Hst]. }
      intros h Hh. rewrite app_length in H. cbn [length] in H. rewrite Nat.add_assoc in H.
      apply H. rewrite Ec. exact Hh.
    + apply code_at_cons in Hc as [E _]. cbn [rbind] in *. rewrite <- Nat.add_assoc.
      eapply runs_go_in; [exact E|reflexivity|]. cbn [after_in]. apply (stops_include_in nm _ st None); auto.
  - rewrite s_stmt_if in *. rewrite rbind_assoc. cbn [stmt_lits] in Hlit. apply Forall_app in Hlit as [L1 L2]. apply Forall_app in L2 as [L2 L3].
    assert (A1 : alone -> all_self_contained thn) by (intros A; apply all_of_contained, (proj1 (Hal A))).
    assert (A2 : alone -> match els with Some l => all_self_contained l | None => True end).
    { intros A. pose proof (proj2 (Hal A)) as A2. destruct els as [l|]; [now apply all_of_contained|exact I]. }
    clear Hal. destruct els as [els|].
    + rewrite cstmt_if_else in *. cbv zeta in *. cbn [Work.cost]. fold (costs thn) (costs els).
      inversion Hok as [| | | | |? ? ? ? K1 K2 K3| |]; subst.
      apply code_at_app in Hc as [Hc1 Hc]. apply code_at_cons in Hc as [E Hc].
      apply code_at_app in Hc as [Hct Hc]. apply code_at_cons in Hc as [Ej Hce].
      rewrite <- Nat.add_assoc. apply runs_expr_in; auto. intros c' Ec.
      set (o1 := off + length (cexpr c) + 1) in *. set (ct := cscope o1 thn) in *.
      set (ce := cscope (o1 + length ct + 1) els) in *.
      assert (Hend : off + length (cexpr c ++ (if ng then IJumpIfTrue (Some (o1 + length ct + 1)) else IJumpIfFalse (Some (o1 + length ct + 1)))
         :: ct ++ IJump (Some (o1 + length ct + 1 + length ce)) :: ce) = o1 + length ct + 1 + length ce).
      { unfold o1. rewrite !app_length. cbn [length]. rewrite app_length. cbn [length]. lia. }
      rewrite Hend in H. rewrite Ec in H. cbn [RenderSpec.here name_err lift rmap_err rbind] in H.
      rewrite <- Nat.add_assoc.
      destruct (xorb ng (as_bool (cow_val c'))) eqn:Ex.
      * eapply runs_go_in; [exact E| |].
        { destruct ng; cbn [exec_instr unwrap lift rbind]; destruct (as_bool (cow_val c')); try discriminate; reflexivity. }
        cbn [after_in]. apply runs_le with (k := costs thn + (1 + k)); [|lia].
        apply runs_scope_in; auto. intros h Hh. eapply runs_go_in; [exact Ej|reflexivity|]. cbn [after_in]. now apply H.
      * eapply runs_go_in; [exact E| |].
        { destruct ng; cbn [exec_instr unwrap lift rbind]; destruct (as_bool (cow_val c')); try discriminate; reflexivity. }
        cbn [after_in]. apply runs_le with (k := costs els + k); [|lia]. apply runs_scope_in; auto.
    + rewrite cstmt_if in *. cbv zeta in *. cbn [Work.cost]. fold (costs thn).
      inversion Hok as [| | | |? ? ? K1 K2| | |]; subst.
      apply code_at_app in Hc as [Hc1 Hc]. apply code_at_cons in Hc as [E Hct].
      rewrite <- Nat.add_assoc. apply runs_expr_in; auto. intros c' Ec.
      set (o1 := off + length (cexpr c) + 1) in *. set (ct := cscope o1 thn) in *.
      assert (Hend : off + length (cexpr c ++ (if ng then IJumpIfTrue (Some (o1 + length ct)) else IJumpIfFalse (Some (o1 + length ct)))
         :: ct) = o1 + length ct).
      { unfold o1. rewrite !app_length. cbn [length]. lia. }
      rewrite Hend in H. rewrite Ec in H. cbn [RenderSpec.here name_err lift rmap_err rbind] in H.
      rewrite <- Nat.add_assoc.
      destruct (xorb ng (as_bool (cow_val c'))) eqn:Ex.
      * eapply runs_go_in; [exact E| |].
        { destruct ng; cbn [exec_instr unwrap lift rbind]; destruct (as_bool (cow_val c')); try discriminate; reflexivity. }
        cbn [after_in]. apply runs_scope_in; auto.
      * eapply runs_go_in; [exact E| |].
        { destruct ng; cbn [exec_instr unwrap lift rbind]; destruct (as_bool (cow_val c')); try discriminate; reflexivity. }
        cbn [after_in rbind]. apply runs_le with (k := k); [|lia]. apply H. reflexivity.
  - rewrite s_stmt_for in *. rewrite cstmt_for in *. cbv zeta in *. cbn [Work.cost stmt_lits] in *. fold (costs b). apply Forall_app in Hlit as [L1 L2].
    assert (A1 : alone -> all_self_contained b) by (intros A; apply all_of_contained, (Hal A)). clear Hal.
    inversion Hok as [| | | | | |? ? ? K1 K2 K3|]; subst. destruct (expr_span_total (E := error) source e K2) as (sp & Es).
    assert (Eo : span_or e = sp) by (unfold span_or; now rewrite Es). rewrite Es, Eo in *.
    apply code_at_app in Hc as [Hc1 Hc]. apply code_at_cons in Hc as [E Hc].
    rewrite !rbind_assoc. rewrite <- Nat.add_assoc. apply runs_expr_in; auto. intros c Ec. rewrite Ec in H.
    rewrite !here_ok in H. rewrite rbind_assoc, here_ok. rewrite s_loop_new in *. rewrite rbind_assoc, here_bind.
    rewrite <- Nat.add_assoc.
    eapply runs_lift_in with (nx := fun l => NGo (off + length (cexpr e) + 1) (FrLoop l :: st) None); [exact E|reflexivity|].
    intros l El. rewrite El in H. cbn [bind] in H. cbn [RenderSpec.here name_err lift rmap_err rbind] in H.
    cbn [after_in RenderSpec.here name_err lift rmap_err rbind].
    pose proof (expr_small n Hn inner Hmodest source st e Hst L1 c Ec) as Sc. apply (loop_new_small n source v c sp l Sc) in El. apply frames_small in El as (F1 & F2).
    change (match l with LList o i m iter _ => list_frames o i m iter | LMap o' kn vn m' iter' _ => map_frames o' kn vn m' iter' end) with (rem_frames l) in *.
    apply runs_le with (k := length (rem_frames l) * (costs b + 2) + 1 + k); [|apply (Nat.mul_le_mono_r _ _ (costs b + 2)) in F2; lia].
    apply (runs_each_in b (off + length (cexpr e) + 1) (off + length (cexpr e) + 1 + 1) st (costs b)); auto.
    + intros fr st' h k' Kk Hst' Hcb Hk. apply runs_scope_in; auto.
    + intros h Hh. specialize (H h Hh). rewrite app_length in H. cbn [length] in H. rewrite app_length in H. cbn [length] in H.
      match goal with HH : runs_in _ ?x _ _ _ _ |- runs_in _ ?y _ _ _ _ => replace y with x by lia; exact HH end.
    + exact Hn.
  - rewrite s_stmt_with in *. rewrite cstmt_with in *. cbv zeta in *. cbn [Work.cost stmt_lits] in *. fold (costs b). apply Forall_app in Hlit as [L1 L2].
    assert (A1 : alone -> all_self_contained b) by (intros A; apply all_of_contained, (Hal A)). clear Hal.
    inversion Hok as [| | | | | | |? ? ? K1 K2 K3]; subst.
    apply code_at_app in Hc as [Hc1 Hc]. apply code_at_cons in Hc as [E Hc]. apply code_at_app in Hc as [Hcb Hc].
    apply code_at_cons in Hc as [Ee _].
    rewrite rbind_assoc. rewrite <- Nat.add_assoc. apply runs_expr_in; auto. intros c Ec. rewrite Ec in H.
    cbn [RenderSpec.here name_err lift rmap_err rbind] in H |- *.
    rewrite <- Nat.add_assoc. eapply runs_go_in; [exact E|reflexivity|]. cbn [after_in]. rewrite <- Nat.add_assoc. apply runs_scope_in; auto.
    { constructor; [cbn [frame_small]; eapply expr_small; eauto|exact Hst]. }
    intros h Hh.
    eapply runs_go_in; [exact Ee|reflexivity|]. cbn [after_in].
    specialize (H h Hh). rewrite app_length in H. cbn [length] in H. rewrite app_length in H. cbn [length] in H.
    match goal with HH : runs_in _ ?x _ _ _ _ |- runs_in _ ?y _ _ _ _ => replace y with x by lia; exact HH end.
Qed.
End Stmts.
End One.

Lemma done_in t tname hs rest st0 st h tree k :
  rest = [] \/ (N.of_nat (1 + length rest) <= maxd)%N ->
  (if hs : bool then exists c, st = FrScope c :: FrBoundary :: st0 else st = st0) ->
  loop_in k rest st0 h tree -> runs_in t tname hs rest (1 + k) (length (t_instrs t)) st None h tree.
Proof.
  intros Hrest Hst Hk f Hf. destruct f as [|f]; [lia|]. rewrite work_end. unfold step_to.
  assert (Hm : (maxd <? N.of_nat (length rest))%N = false) by (apply N.ltb_ge; destruct Hrest as [->|]; cbn [length] in *; lia).
  destruct hs.
  - destruct Hst as (c & ->). cbn [pop_scope pop_boundary lift rbind]. rewrite Hm. apply Hk. lia.
  - subst st0. cbn [rbind]. rewrite Hm. apply Hk. lia.
Qed.
Lemma loop_of_runs_in t tname hs rest pc st hist tree k :
  runs_in t tname hs rest k pc st None hist tree -> loop_in k (mkact t tname pc hs :: rest) st hist tree.
Proof. intros H. exact H. Qed.

(** ** Whole templates *)
(** [B]: the cost of a template whose includes cost nothing. *)
Variable B : nat.
Hypothesis Hsourced : forall t, ~ alone -> named inner t -> sourced ast_of t.
Hypothesis Hlits : forall t, ~ alone -> named inner t -> Forall simple (flat_map stmt_lits (ast_of t)).
Hypothesis Hcost : forall t T, ~ alone -> named inner t -> costs T n (ast_of t) <= B * (T + 1).
(** Steps of a template with at most [d] nested includes below it. *)
Fixpoint within (d : nat) : nat := B * (match d with 0 => 0 | S d' => within d' end + 1) + 1.
Definition below (d : nat) : nat := match d with 0 => 0 | S d' => within d' end.

Lemma template_sim_in d : forall t l tname hs rest st0 st hist K k,
  t_instrs t = cscope 0 l -> Forall (stmt_ok (t_source t)) l -> Forall simple (flat_map stmt_lits l) -> (alone -> all_self_contained l) -> st_small st ->
  d = N.to_nat maxd - (1 + length rest) ->
  rest = [] \/ (N.of_nat (1 + length rest) <= maxd)%N ->
  (if hs : bool then exists c, st = FrScope c :: FrBoundary :: st0 else st = st0) ->
  (forall h, oks (s_part inner ast_of d (t_source t) tname l st hist) h -> loop_in k rest st0 h (K h)) ->
  loop_in (costs (below d) n l + 1 + k) (mkact t tname 0 hs :: rest) st hist (rbind (s_part inner ast_of d (t_source t) tname l st hist) K).
Proof.
  induction d as [|d IH]; intros t l tname hs rest st0 st hist K k Ecode Hok Hlit Hal Hsm Hd Hrest Hst H.
  - replace (costs (below 0) n l + 1 + k) with (costs 0 n l + (1 + k)) by (cbn [below]; lia). apply loop_of_runs_in. unfold s_part in *.
    apply (runs_scope_in t tname hs rest None 0 l); auto.
    + apply Forall_forall. intros s _. apply sim_in. intros Hna. lia.
    + exists [], []. rewrite Ecode. cbn [app]. now rewrite app_nil_r.
    + intros h Hh. rewrite <- Ecode. apply (done_in t tname hs rest st0); auto.
  - replace (costs (below (S d)) n l + 1 + k) with (costs (within d) n l + (1 + k)) by (cbn [below]; lia). apply loop_of_runs_in. unfold s_part in *.
    apply (runs_scope_in t tname hs rest (Some (s_template inner ast_of d)) (within d) l); auto.
    + apply Forall_forall. intros s _. apply sim_in. intros Hna. split; [lia|].
      intros t' nm pc hs' st1 st' hist' K' k' Hp' Hsm' Hst1 HK. destruct (Hsourced t' Hna Hp') as (E' & Hok').
      replace (s_template inner ast_of d t' nm st' hist') with (s_part inner ast_of d (t_source t') nm (ast_of t') st' hist') in * by (now destruct d).
      assert (Z : loop_in (costs (below d) n (ast_of t') + 1 + k') (mkact t' nm 0 hs' :: mkact t tname pc hs :: rest) st' hist'
        (rbind (s_part inner ast_of d (t_source t') nm (ast_of t') st' hist') K')).
      { apply (IH t' (ast_of t') nm hs' (mkact t tname pc hs :: rest) st1); auto; try (intros A; now destruct (Hna A)).
        * cbn [length]. lia.
        * right. cbn [length]. lia. }
      intros f Hf. apply Z. pose proof (Hcost t' (below d) Hna Hp') as C.
      assert (Ew : within d = B * (below d + 1) + 1) by (destruct d; reflexivity). lia.
    + exists [], []. rewrite Ecode. cbn [app]. now rewrite app_nil_r.
    + intros h Hh. rewrite <- Ecode. apply (done_in t tname hs rest st0); auto.
Qed.
End Timed.
