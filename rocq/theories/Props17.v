(** Property theorems: which Rust functions are filters (C45). *)
From Verif Require Import Base Utf8 Ext Errors Syntax AhoCorasick SearchSpec SyntaxSpec Value Ast Lexer LexSpec Wp
  GrammarSpec Parser AstOk Compiler CompileProof ParseMain Fmt Stack Filters Serde FilterImpls Render Engine EngineSpec CompileFacts
  RenderSpec RenderProof RenderErr MapFacts RenderMain RenderObs StackRel Parts IncludeFacts LookupSpec LookupProof
  BlockSpec BlockProof FilterSpec FilterProof FilterProof2 Props2 Demo Props3 Props8.

(** ** The functions that the documentation calls filters *)

(** A type that can be passed by value ([Str], [ListRef], [MapRef] and [ValueRef] stand for
    references; users cannot name them). *)
Definition by_value (t : arg_ty) : Prop :=
  match t with TyStr | TyListRef | TyMapRef | TyValueRef => False | _ => True end.
(** The first parameter: by value, or any of the four references.  Another parameter:
    by value or [&str]. *)
Definition value_param (p : rty) : Prop := match p with ROwned t => by_value t | _ => True end.
Definition other_param (p : rty) : Prop := match p with ROwned t => by_value t | RStr => True | _ => False end.
Definition filter_fn (ps : list rty) : Prop :=
  exists p rest, ps = p :: rest /\ value_param p /\ length rest <= 4 /\ Forall other_param rest.

(** ** The table *)
Inductive ref := OfStr | OfList | OfMap | OfValue.
Definition mode := option ref.
Definition marker (r : ref) : arg_ty := match r with OfStr => TyStr | OfList => TyListRef | OfMap => TyMapRef | OfValue => TyValueRef end.
Definition rref (r : ref) : rty := match r with OfStr => RStr | OfList => RSlice | OfMap => RMapRef | OfValue => RValueRef end.
Definition mode_of (p : rty) : mode :=
  match p with ROwned _ => None | RStr => Some OfStr | RSlice => Some OfList | RMapRef => Some OfMap | RValueRef => Some OfValue end.
Definition letters := [gV; gA; gB; gC; gD].
Definition names := [pv; pa; pb; pc; pd].
Definition head_of (x : mode * gvar) : mty := match fst x with None => MGen (snd x) | Some r => MArg (marker r) end.
Definition fn_of (x : mode * gvar) : fty := match fst x with None => FGen (snd x) | Some r => FTy (rref r) end.
Definition where_of (x : mode * gvar) : list (gvar * gvar) := match fst x with None => [(snd x, snd x)] | Some _ => [] end.
Definition canonical (m : list mode) : impl :=
  let l := combine m letters in let n := firstn (length m) names in
  mkimpl (map head_of l) (map fn_of l) (flat_map where_of l) (map head_of l, map fn_of l) n (map fn_of l) n.
Definition shape (i : impl) : list mode :=
  map (fun t => match t with FGen _ => None | FTy t => mode_of t end) (im_fn i).
Definition mode_eqb (a b : mode) : bool :=
  match a, b with
  | None, None | Some OfStr, Some OfStr | Some OfList, Some OfList | Some OfMap, Some OfMap | Some OfValue, Some OfValue => true
  | _, _ => false
  end.
Fixpoint shape_eqb (a b : list mode) : bool :=
  match a, b with [], [] => true | x :: a, y :: b => mode_eqb x y && shape_eqb a b | _, _ => false end.
Lemma shape_eqb_eq a b : shape_eqb a b = true <-> a = b.
Proof.
  revert b. induction a as [|x a IH]; intros [|y b]; cbn [shape_eqb]; try (split; [discriminate|discriminate || reflexivity]); [split; reflexivity|].
  rewrite andb_true_iff, IH. split.
  - intros [H ->]. f_equal. destruct x as [[]|], y as [[]|]; try discriminate H; reflexivity.
  - intros E. injection E as -> ->. split; auto. destruct y as [[]|]; reflexivity.
Qed.
Definition ok_shape (m : list mode) : bool :=
  match m with
  | [] => false
  | _ :: rest => (length rest <=? 4) && forallb (fun x => mode_eqb x None || mode_eqb x (Some OfStr)) rest
  end.
Lemma impls_canonical : impls = map canonical (map shape impls).
Proof. vm_compute. reflexivity. Qed.
Lemma impls_ok : forallb ok_shape (map shape impls) = true.
Proof. vm_compute. reflexivity. Qed.
Lemma impls_all m : ok_shape m = true -> In m (map shape impls).
Proof.
  intros H. assert (G : existsb (shape_eqb m) (map shape impls) = true).
  { unfold ok_shape in H. destruct m as [|x rest]; [discriminate|]. apply andb_prop in H as [H1 H2].
    assert (S : forall y, mode_eqb y None || mode_eqb y (Some OfStr) = true -> y = None \/ y = Some OfStr) by (intros [[]|]; auto; discriminate).
    assert (F : Forall (fun y => y = None \/ y = Some OfStr) rest).
    { apply Forall_forall. intros y Hy. apply S. rewrite forallb_forall in H2. now apply H2. }
    clear H2 S. destruct F as [|a ? Ha F]; [|destruct F as [|b ? Hb F]; [|destruct F as [|c ? Hc F]; [|destruct F as [|d ? Hd F]; [|destruct F; [|discriminate H1]]]]];
    repeat match goal with K : _ \/ _ |- _ => destruct K; subst end; destruct x as [[]|]; vm_compute; reflexivity. }
  apply existsb_exists in G as (m' & Hm & E). apply shape_eqb_eq in E. now subst.
Qed.
Lemma impl_shape i : In i impls -> i = canonical (shape i) /\ ok_shape (shape i) = true.
Proof.
  intros H. assert (G : In (shape i) (map shape impls)) by now apply in_map. split.
  - assert (K : Forall (fun j => j = canonical (shape j)) impls).
    { assert (P : forall l, l = map canonical (map shape l) -> Forall (fun j => j = canonical (shape j)) l).
      { induction l as [|j l IH]; intros E; constructor; cbn [map] in E.
        - exact (f_equal (hd j) E).
        - apply IH. exact (f_equal (@tl _) E). }
      apply P, impls_canonical. }
    rewrite Forall_forall in K. now apply K.
  - pose proof impls_ok as K. rewrite forallb_forall in K. now apply K.
Qed.
Lemma impl_in m : ok_shape m = true -> In (canonical m) impls.
Proof.
  intros H. apply impls_all in H. apply (in_map canonical) in H. now rewrite <- impls_canonical in H.
Qed.

(** ** Instances *)
Lemma ok_length m : ok_shape m = true -> 1 <= length m <= 5.
Proof. destruct m; [discriminate|]. cbn. intros H. apply andb_prop in H as [H _]. apply Nat.leb_le in H. lia. Qed.
Lemma ok_shape_fn m : ok_shape m = true <-> exists x rest, m = x :: rest /\ length rest <= 4 /\ Forall (fun y => y = None \/ y = Some OfStr) rest.
Proof.
  split.
  - destruct m as [|x rest]; [discriminate|]. cbn [ok_shape]. intros H. apply andb_prop in H as [H1 H2]. exists x, rest. split; auto.
    split; [now apply Nat.leb_le|]. apply Forall_forall. intros y Hy. rewrite forallb_forall in H2. specialize (H2 _ Hy). destruct y as [[]|]; auto; discriminate.
  - intros (x & rest & -> & H1 & H2). cbn [ok_shape]. rewrite (proj2 (Nat.leb_le _ _) H1). apply forallb_forall. intros y Hy. rewrite Forall_forall in H2.
    destruct (H2 _ Hy) as [->| ->]; reflexivity.
Qed.
Definition param (m : mode) (s : gvar -> arg_ty) (g : gvar) : rty := match m with None => ROwned (s g) | Some r => rref r end.
Definition arg (m : mode) (s : gvar -> arg_ty) (g : gvar) : arg_ty := match m with None => s g | Some r => marker r end.
Lemma inst_head s l : map (inst s) (map head_of l) = map (fun x => arg (fst x) s (snd x)) l.
Proof. rewrite map_map. apply map_ext. intros [[r|] g]; reflexivity. Qed.
Lemma inst_fn s l : map (instf s) (map fn_of l) = map (fun x => param (fst x) s (snd x)) l.
Proof. rewrite map_map. apply map_ext. intros [[r|] g]; reflexivity. Qed.
Lemma where_iff s l : Forall (fun c => output (s (fst c)) = ROwned (s (snd c))) (flat_map where_of l) <->
  Forall (fun x => output (arg (fst x) s (snd x)) = param (fst x) s (snd x)) l.
Proof.
  induction l as [|[[r|] g] l IH]; cbn [flat_map where_of fst snd app].
  - split; constructor.
  - rewrite IH. split; intros H; [constructor; [|exact H]|now inversion H]. destruct r; reflexivity.
  - split; intros H; inversion H; subst; constructor; auto; now apply IH.
Qed.
Lemma combine_length_5 (m : list mode) : length m <= 5 -> length (combine m letters) = length m.
Proof. intros H. rewrite combine_length. cbn [letters length]. lia. Qed.
(** What an instance of an impl is. *)
Lemma implements_iff i s ps A : implements i s ps A <->
  ok_shape (shape i) = true /\ i = canonical (shape i) /\ let l := combine (shape i) letters in
  ps = map (fun x => param (fst x) s (snd x)) l /\ A = map (fun x => arg (fst x) s (snd x)) l /\ map output A = ps.
Proof.
  split.
  - intros [Hi Hf Hh Hw Ha Ho]. destruct (impl_shape i Hi) as [E Hs]. split; auto. split; auto. rewrite E in Hf, Hh, Ho. cbn [canonical im_fn im_head im_output fst snd] in *.
    rewrite inst_fn in *. rewrite inst_head in *. split; auto. split; [congruence|]. congruence.
  - intros (Hs & E & Ep & EA & Eo). rewrite E. split.
    + now apply impl_in.
    + cbn [canonical im_fn]. now rewrite inst_fn.
    + cbn [canonical im_head]. now rewrite inst_head.
    + cbn [canonical im_where]. apply where_iff. subst A ps. rewrite map_map in Eo. revert Eo. generalize (combine (shape i) letters). intros l.
      induction l as [|x l IH]; intros Eo; constructor; cbn [map] in Eo; injection Eo as E1 E2; auto.
    + cbn [canonical im_output fst]. rewrite inst_head. unfold is_tuple. rewrite map_length. pose proof (ok_length _ Hs). rewrite combine_length_5; lia.
    + cbn [canonical im_output fst snd]. rewrite inst_head, inst_fn. congruence.
Qed.
Lemma modes_of m s : length m <= 5 -> map mode_of (map (fun x => param (fst x) s (snd x)) (combine m letters)) = m.
Proof.
  intros H. rewrite map_map. transitivity (map fst (combine m letters)).
  - apply map_ext. intros [[[]|] g]; reflexivity.
  - assert (G : forall (m : list mode) (l : list gvar), length m <= length l -> map fst (combine m l) = m).
    { clear. induction m as [|x m IH]; intros [|g l] H; cbn in *; auto; [lia|]. f_equal. apply IH. lia. }
    apply G. exact H.
Qed.
(** The types of the arguments, from those of the parameters. *)
Definition type_of (p : rty) : arg_ty := match p with ROwned t => t | RStr => TyStr | RSlice => TyListRef | RMapRef => TyMapRef | RValueRef => TyValueRef end.
Lemma types_of m s : map type_of (map (fun x => param (fst x) s (snd x)) (combine m letters)) = map (fun x => arg (fst x) s (snd x)) (combine m letters).
Proof. rewrite map_map. apply map_ext. intros [[[]|] g]; reflexivity. Qed.
Lemma output_value t : output t = ROwned t <-> by_value t.
Proof. destruct t; cbn; split; (tauto || reflexivity || discriminate). Qed.

(** C45.  Which functions are filters. *)
Theorem C45_filter_functions ps : filter_fn ps <-> exists i s A, implements i s ps A.
Proof.
  split.
  - intros (p & rest & -> & Hp & Hl & Hr). set (ps := p :: rest).
    assert (Hok : ok_shape (map mode_of ps) = true).
    { apply ok_shape_fn. exists (mode_of p), (map mode_of rest). split; [reflexivity|]. rewrite map_length. split; auto.
      rewrite Forall_map. eapply Forall_impl; [|exact Hr]. intros [t| | | |]; cbn; tauto. }
    set (s := fun g => type_of (nth (match g with gV => 0 | gA => 1 | gB => 2 | gC => 3 | gD => 4 end) ps RStr)).
    exists (canonical (map mode_of ps)), s, (map type_of ps).
    assert (Es : shape (canonical (map mode_of ps)) = map mode_of ps).
    { destruct (impl_shape _ (impl_in _ Hok)) as [_ _]. unfold shape. cbn [canonical im_fn]. rewrite map_map.
      transitivity (map fst (combine (map mode_of ps) letters)); [apply map_ext; intros [[[]|] g]; reflexivity|].
      clear - Hl. subst ps. destruct rest as [|a [|b [|c [|d [|e rest]]]]]; try reflexivity. cbn in Hl. lia. }
    assert (Ep : ps = map (fun x => param (fst x) s (snd x)) (combine (map mode_of ps) letters)).
    { assert (K : forall q g, type_of q = s g -> param (mode_of q) s g = q) by (intros [t| | | |] g E; cbn in *; congruence).
      clear - Hl K. subst ps. destruct rest as [|a [|b [|c [|d [|e rest]]]]]; cbn [map combine letters fst snd]; rewrite ?K; try reflexivity. cbn in Hl. lia. }
    apply implements_iff. rewrite Es. split; [exact Hok|]. split; [reflexivity|]. cbn zeta. split; [exact Ep|]. split.
    + rewrite Ep at 1. apply types_of.
    + rewrite map_map. assert (K : forall q, value_param q -> output (type_of q) = q) by (intros [t| | | |]; cbn; try reflexivity; apply output_value).
      assert (J : Forall value_param ps). { constructor; auto. eapply Forall_impl; [|exact Hr]. intros [t| | | |]; cbn; tauto. }
      clear - K J. induction J; cbn [map]; [reflexivity|]. f_equal; auto.
  - intros (i & s & A & H). apply implements_iff in H as (Hs & E & Ep & EA & Eo). pose proof (ok_length _ Hs) as L.
    pose proof (modes_of (shape i) s (proj2 L)) as M. rewrite <- Ep in M. rewrite <- M in Hs. apply ok_shape_fn in Hs as (x & rest & Em & Hl & Hr).
    destruct ps as [|p qs]; [discriminate Em|]. injection Em as Ex Er. subst rest. rewrite map_length in Hl. exists p, qs. split; auto.
    assert (J : Forall value_param (p :: qs)).
    { rewrite <- Eo. rewrite Forall_map, Forall_forall. intros t _. destruct t; exact I. }
    inversion J as [|? ? J1 J2]; subst. split; auto. split; auto. rewrite Forall_map in Hr.
    apply Forall_forall. intros q Hq. rewrite Forall_forall in Hr, J2. specialize (Hr _ Hq). specialize (J2 _ Hq). destruct q; cbn in *; auto; destruct Hr; discriminate.
Qed.
(** C45.  Only one impl applies, with one tuple of argument types (so type inference
    succeeds). *)
Theorem C45_one_way ps i s A i' s' A' : implements i s ps A -> implements i' s' ps A' -> i = i' /\ A = A'.
Proof.
  rewrite !implements_iff. intros (Hs & E & Ep & EA & Eo) (Hs' & E' & Ep' & EA' & Eo').
  pose proof (modes_of (shape i) s (proj2 (ok_length _ Hs))) as M. rewrite <- Ep in M.
  pose proof (modes_of (shape i') s' (proj2 (ok_length _ Hs'))) as M'. rewrite <- Ep' in M'. split; [congruence|].
  rewrite EA, EA', <- !types_of. congruence.
Qed.

Section Calls.
Context `{X : Ext}.
Lemma bound_all n args : length args = n -> n <= 5 -> map (bound (firstn n names) args) (firstn n names) = args.
Proof. intros <- H. destruct args as [|a [|b [|c [|d [|e [|f args]]]]]]; try reflexivity. cbn in H. lia. Qed.
Definition run_of (f : list arg_val -> fret) (a : arg_val) (avs : list arg_val) : value + str :=
  match f (a :: avs) with RetValue d => inl (value_from d) | RetResult (inl d) => inl (value_from d) | RetResult (inr m) => inr m end.
Lemma get_args_length tys source st l avs : get_args tys source st l = Ok avs -> length avs = length tys /\ length l = length tys.
Proof.
  revert l avs. induction tys as [|t tys IH]; intros [|b l] avs; cbn [get_args]; try discriminate.
  - intros E. injection E as <-. auto.
  - destruct (get_arg t source st b); cbn [bind]; try discriminate. destruct (get_args tys source st l) eqn:E; cbn [bind]; try discriminate.
    intros K. injection K as <-. apply IH in E as [E1 E2]. cbn. auto.
Qed.
Lemma from_state_spec t tys source name st c l : length tys <= 4 ->
  from_state (t :: tys) source name st c l =
  (let* _ := check_args (length tys) source name l in
   let* a := get_value t source name c in
   let* avs := get_args tys source st l in Ok (a :: avs)).
Proof.
  intros H. destruct tys as [|ta [|tb [|tc [|td [|te tys]]]]]; cbn [from_state length]; [| | | | |cbn in H; lia];
  unfold check_args; (match goal with |- context [length l =? ?n] => destruct (Nat.eqb_spec (length l) n) as [El|] end; [|unfold err_render; destruct (build_pretty _ _); reflexivity]); cbn [bind];
  destruct l as [|xa [|xb [|xc [|xd [|xe l]]]]]; try discriminate El; unfold get_arg_at; cbn [nth_error get_args];
  destruct (get_value t source name c); cbn [bind]; try reflexivity;
  repeat (match goal with |- context [get_arg ?t ?s ?st ?x] => destruct (get_arg t s st x) end; cbn [bind]; try reflexivity).
Qed.
(** The boxed filter is the filter that the model of rendering uses. *)
Lemma new_filter_call i s ps A f source name st c l : implements i s ps A ->
  exists t tys, A = t :: tys /\ length tys <= 4 /\
  new_filter i A f source name st c l = call_filter (mkfilter t tys (run_of f)) source name st c l.
Proof.
  intros H. apply implements_iff in H as (Hs & E & Ep & EA & Eo). pose proof (ok_length _ Hs) as L.
  assert (LA : length A = length (shape i)) by (rewrite EA, map_length, combine_length_5; lia).
  destruct A as [|t tys]; [cbn in LA; lia|]. exists t, tys. split; auto. split; [cbn in LA; lia|].
  unfold new_filter. rewrite from_state_spec by (cbn in LA; lia). unfold call_filter. cbn [fl_args fl_recv fl_run].
  destruct (check_args (length tys) source name l); cbn [bind]; auto. unfold get_value.
  destruct (match from_cow_mut t c with inl v => Ok v | inr e => err_expected_val e source (id_span name) end) as [a0|e0| |]; cbn [bind]; auto.
  destruct (get_args tys source st l) as [avs|e0| |] eqn:G; cbn [bind]; auto. apply get_args_length in G as [G _].
  unfold filter_method, run_of. rewrite E. cbn [canonical im_pat im_call]. rewrite bound_all; [|cbn in *; lia|lia].
  destruct (f (a0 :: avs)) as [d|[d|m]]; reflexivity.
Qed.
(** C45.  Such a function is called on the converted value and arguments, in the order in
    which they are written ([calls], FilterSpec.v), and what it returns becomes the value
    or the error.  The types of the conversions are those of its parameters. *)
Theorem C45_called i s ps A f source name st c l :
  implements i s ps A -> source <> [] -> span_ok source (id_span name) -> Forall (base_ok source) l -> vars_here source st ->
  map output A = ps /\ exists t tys, A = t :: tys /\
  exists r, calls source (mkfilter t tys (run_of f)) name st c l r /\
    match r with
    | inl (a, avs) => new_filter i A f source name st c l =
        match f (a :: avs) with
        | RetValue d | RetResult (inl d) => Ok (value_from d)
        | RetResult (inr m) => Err (mkerror KFilter None (Some m) None)
        end
    | inr (m, sp) => exists p, build_pretty source sp = Ok p /\ new_filter i A f source name st c l = Err (mkerror KRender None (Some m) (Some p))
    end.
Proof.
  intros H Hne Hn Hl Hv. split; [apply implements_iff in H; apply H|].
  destruct (new_filter_call i s ps A f source name st c l H) as (t & tys & EA & _ & E). exists t, tys. split; auto.
  destruct (C23_filter_calls (mkfilter t tys (run_of f)) source name st c l Hne Hn Hl Hv) as (r & Hr & _ & Hm). exists r. split; auto.
  rewrite E. destruct r as [[a avs]|[m sp]]; [|exact Hm]. rewrite Hm. cbn [fl_run]. unfold run_of. destruct (f (a :: avs)) as [d|[d|m]]; reflexivity.
Qed.
End Calls.
Print Assumptions C45_filter_functions.
Print Assumptions C45_one_way.
Print Assumptions C45_called.

Local Existing Instance ascii_ext.
(** Beside them: [fn join(l: &[Value], sep: &str, n: u8) -> String] is a filter, and
    [{{ x | join: ",", 2 }}] calls it; these are not: functions without parameters,
    functions with six, and [fn(String, &[Value])]. *)
Definition join_ps : list rty := [RSlice; RStr; ROwned (TyInt U8)].
Definition join_types : list arg_ty := [TyListRef; TyStr; TyInt U8].
Definition join_impl : impl := canonical [Some OfList; Some OfStr; None].
Definition echo (l : list arg_val) : fret :=
  match l with
  | [AvList [VInt z; _]; AvString sep; AvInt n] => RetResult (inl (IVec [IInt z; IString sep; IInt n]))
  | _ => RetResult (inr (s2b "no"))
  end.
Definition join_source : str := s2b "{{ x | join: "","", 2 }}".
Definition join_name : ident := mkident (mkspan 7 11).
Definition join_stack : stack := [FrScope (Borrowed (VMap [(s2b "x", VList [VInt 5; VNone])]))].
Definition join_args : list base_expr := [BLit (VStr (s2b ",")) (mkspan 13 16); BLit (VInt 2) (mkspan 18 19)].
Example C45_case :
  (exists s, implements join_impl s join_ps join_types) /\
  join_source <> [] /\ span_ok join_source (id_span join_name) /\ Forall (base_ok join_source) join_args /\ vars_here join_source join_stack /\
  new_filter join_impl join_types echo join_source join_name join_stack (Borrowed (VList [VInt 5; VNone])) join_args
    = Ok (VList [VInt 5; VStr (s2b ","); VInt 2]) /\
  ~ filter_fn [] /\ ~ filter_fn [ROwned TyString; RSlice] /\
  ~ filter_fn [RStr; RStr; RStr; RStr; RStr; RStr].
Proof.
  split.
  { exists (fun _ => TyInt U8). apply implements_iff. split; [reflexivity|]. split; [reflexivity|]. cbn zeta. split; [reflexivity|]. split; reflexivity. }
  assert (K : forall m n, (m <=? n) && boundary join_source m && boundary join_source n = true -> span_ok join_source (mkspan m n)).
  { intros m n E. apply andb_prop in E as [E E3]. apply andb_prop in E as [E1 E2]. split; [now apply Nat.leb_le|auto]. }
  split; [discriminate|]. split; [apply K; vm_compute; reflexivity|]. split.
  { apply Forall_cons; [|apply Forall_cons; [|apply Forall_nil]]; apply K; vm_compute; reflexivity. }
  split; [apply Forall_cons; [exact I|apply Forall_nil]|]. split; [vm_compute; reflexivity|].
  split; [intros (? & ? & E & _); discriminate E|]. split.
  - intros (p & rest & E & _ & _ & H). injection E as <- <-. inversion H. contradiction.
  - intros (p & rest & E & _ & H & _). injection E as <- <-. cbn in H. lia.
Qed.
