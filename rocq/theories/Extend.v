(** More variables, functions, templates and depth do not change a rendering that
    succeeds without them (C49). *)
From Verif Require Import Base Utf8 Ext Errors Syntax Value Ast Wp AstOk Compiler CompileProof Fmt Stack Filters Render RenderSpec
  RenderProof RenderErr ExtendSpec.

(** [grows x y]: [y] is [x] except where [x] does not succeed. *)
Definition rgrows {A} (x y : res A) : Prop := forall a, x = Ok a -> y = Ok a.
Inductive grows {A} (R : A -> A -> Prop) : rt A -> rt A -> Prop :=
| gr_fail r y : (forall a, r <> Ok a) -> grows R (RRet r) y
| gr_ret a b : R a b -> grows R (RRet (Ok a)) (RRet (Ok b))
| gr_write s o1 e1 o2 e2 : grows R o1 o2 -> grows R e1 e2 -> grows R (RWrite s o1 e1) (RWrite s o2 e2).

Lemma rgrows_refl {A} (x : res A) : rgrows x x.
Proof. intros a. auto. Qed.
Lemma rgrows_bind {A B} (x y : res A) (f g : A -> res B) : rgrows x y -> (forall a, rgrows (f a) (g a)) -> rgrows (bind x f) (bind y g).
Proof. intros Hx Hf b E. destruct x as [a| | |]; try discriminate. rewrite (Hx a eq_refl). cbn in *. now apply Hf. Qed.
Lemma grows_bind {A B} (R : A -> A -> Prop) (Q : B -> B -> Prop) x y f g : grows R x y -> (forall a b, R a b -> grows Q (f a) (g b)) ->
  grows Q (rbind x f) (rbind y g).
Proof.
  induction 1 as [r y Hr|a b Hab|s o1 e1 o2 e2 Ho IHo He IHe]; intros Hf.
  - destruct r as [a|e| |]; cbn; [destruct (Hr a eq_refl)|constructor; discriminate..].
  - cbn. auto.
  - cbn. constructor; auto.
Qed.
Lemma grows_lift {A} (x y : res A) : rgrows x y -> grows eq (lift x) (lift y).
Proof. intros H. destruct x as [a|e| |]; [rewrite (H a eq_refl); now constructor|constructor; discriminate..]. Qed.
Lemma grows_name {A} (R : A -> A -> Prop) n n' x y : grows R x y -> grows R (name_err n x) (name_err n' y).
Proof.
  unfold name_err. induction 1 as [r y Hr|a b Hab|s o1 e1 o2 e2 Ho IHo He IHe]; cbn.
  - destruct r; constructor; auto; discriminate.
  - now constructor.
  - now constructor.
Qed.
Lemma grows_here {A} n n' (x y : res A) : rgrows x y -> grows eq (here n x) (here n' y).
Proof. intros H. apply grows_name. now apply grows_lift. Qed.
Lemma grows_refl {A} (R : A -> A -> Prop) x : (forall a, R a a) -> grows R x x.
Proof. intros HR. induction x as [[]|]; constructor; auto; discriminate. Qed.

(** Stacks that differ in the context only. *)
Inductive stack_grows : stack -> stack -> Prop :=
| sg_value v1 v2 : value_extends v1 v2 -> stack_grows [FrScope (Borrowed v1)] [FrScope (Borrowed v2)]
| sg_fn f1 f2 : (forall path v, f1 path = inl v -> f2 path = inl v) -> stack_grows [FrValueFn f1] [FrValueFn f2]
| sg_same fr st1 st2 : stack_grows st1 st2 -> stack_grows (fr :: st1) (fr :: st2).

Section Extend.
Context `{X : Ext}.

Lemma render_fails {A} reason source sp (a : A) : err_render reason source sp <> Ok a.
Proof. unfold err_render. destruct (build_pretty source sp); discriminate. Qed.
Lemma not_found_fails {A} source (v : var) (a : A) : err_not_found source v <> Ok a.
Proof. unfold err_not_found. destruct (var_first v); cbn; try discriminate. apply render_fails. Qed.
Lemma scope_grows source v1 v2 (v : var) : v <> [] -> value_extends v1 v2 ->
  rgrows (lookup_path_maybe source (Borrowed v1) v) (lookup_path_maybe source (Borrowed v2) v) \/
  forall x, lookup_path_maybe source (Borrowed v1) v <> Ok (Some x).
Proof.
  intros Hne H. destruct v as [|p v]; [now destruct Hne|]. unfold lookup_path_maybe. cbn [is_owned cow_val lookup_path_maybe_loop].
  assert (N : forall reason (f : value -> res (option cow)) x, match err_render reason source (mb_span p) with
    | Ok (Some v') => f v' | Ok None => Ok None | Err _ => Ok None | Panic => Panic | OutOfFuel => OutOfFuel end <> Ok (Some x)).
  { intros reason f x. destruct (err_render reason source (mb_span p)) as [a| | |] eqn:E; try discriminate. destruct (render_fails _ _ _ _ E). }
  destruct H as [v0|m1 m2 H|v1 v2 Hl Hm].
  - left. apply rgrows_refl.
  - unfold lookup. destruct (mb_access p) as [i sp|id]; [right; apply N|].
    destruct (index_span source (id_span id)) as [k|e| |]; cbn [bind]; [|right; discriminate..].
    destruct (map_get k m1) as [x|] eqn:E.
    + rewrite (H _ _ E). left. apply rgrows_refl.
    + right. destruct (mb_op p); [apply N|discriminate].
  - right. unfold lookup. destruct v1; try now (destruct (mb_access p); apply N). + now destruct (Hl l). + now destruct (Hm m).
Qed.
Lemma lookup_grows source (v : var) : v <> [] -> forall st1 st2, stack_grows st1 st2 -> rgrows (lookup_var st1 source v) (lookup_var st2 source v).
Proof.
  intros Hne. induction 1 as [v1 v2 H|f1 f2 H|fr st1 st2 H IH].
  - cbn [lookup_var]. destruct (scope_grows source v1 v2 v Hne H) as [K|K].
    + intros a E. destruct (lookup_path_maybe source (Borrowed v1) v) as [[x|]| | |]; try discriminate.
      * rewrite (K _ eq_refl). exact E.
      * rewrite (K _ eq_refl). exact E.
    + intros a E. destruct (lookup_path_maybe source (Borrowed v1) v) as [[x|]| | |]; try discriminate; [destruct (K _ eq_refl)|].
      destruct (not_found_fails source v a E).
  - cbn [lookup_var]. apply rgrows_bind; [apply rgrows_refl|]. intros path. destruct (f1 path) as [x|r] eqn:E.
    + rewrite (H _ _ E). apply rgrows_refl.
    + intros a K. destruct (var_span v); cbn in K; try discriminate. destruct (render_fails _ _ _ _ K).
  - destruct fr as [f|c|n c|l|]; cbn [lookup_var].
    + apply rgrows_refl.
    + apply rgrows_bind; [apply rgrows_refl|]. intros [x|]; [apply rgrows_refl|exact IH].
    + apply rgrows_bind; [apply rgrows_refl|]. intros first. apply rgrows_bind; [apply rgrows_refl|]. intros a.
      apply rgrows_bind; [apply rgrows_refl|]. intros b. destruct (str_eqb a b); [apply rgrows_refl|exact IH].
    + apply rgrows_bind; [apply rgrows_refl|]. intros [x|]; [apply rgrows_refl|exact IH].
    + apply rgrows_refl.
Qed.

(** ** The interpreter *)
Variable inner1 inner2 : renderer_inner.
Hypothesis HE : renderer_extends inner1 inner2.
Variable ast_of : template -> scope.
Definition asked (h1 h2 : list str) : Prop := ri_template_fn inner1 <> None -> ri_template_fn inner2 <> None -> h1 = h2.

Lemma arg_grows t source st1 st2 a : base_ok source a -> stack_grows st1 st2 -> rgrows (get_arg t source st1 a) (get_arg t source st2 a).
Proof.
  intros Ha Hs. destruct a as [v|x sp]; cbn [get_arg]; [|apply rgrows_refl]. apply rgrows_bind; [|intros; apply rgrows_refl].
  apply lookup_grows; auto. destruct Ha as (id & sp & ms & -> & _). discriminate.
Qed.
Lemma args_grow source st1 st2 : stack_grows st1 st2 -> forall l tys, Forall (base_ok source) l -> rgrows (get_args tys source st1 l) (get_args tys source st2 l).
Proof.
  intros Hs. induction l as [|a l IH]; intros [|ty tys] Hl; cbn [get_args]; try apply rgrows_refl. inversion Hl; subst.
  apply rgrows_bind; [now apply arg_grows|]. intros av. apply rgrows_bind; [now apply IH|]. intros; apply rgrows_refl.
Qed.
Lemma call_grows f source name st1 st2 c l : Forall (base_ok source) l -> stack_grows st1 st2 ->
  rgrows (call_filter f source name st1 c l) (call_filter f source name st2 c l).
Proof.
  intros Hl Hs. unfold call_filter. apply rgrows_bind; [apply rgrows_refl|]. intros _. apply rgrows_bind; [apply rgrows_refl|]. intros r.
  apply rgrows_bind; [now apply args_grow|]. intros; apply rgrows_refl.
Qed.
Lemma enrich_grows {A} (x y : res A) source sp : rgrows x y ->
  rgrows (match x with Ok a => Ok a | Err e => err_enrich e source sp | Panic => Panic | OutOfFuel => OutOfFuel end)
    (match y with Ok a => Ok a | Err e => err_enrich e source sp | Panic => Panic | OutOfFuel => OutOfFuel end).
Proof.
  intros H. destruct x as [a|e| |]; [rewrite (H _ eq_refl); apply rgrows_refl| |discriminate..].
  intros a E. unfold err_enrich in E. destruct (e_pretty e); [discriminate|]. destruct (build_pretty source sp); discriminate.
Qed.
Lemma apply_grows source st1 st2 name l c : Forall (base_ok source) l -> stack_grows st1 st2 ->
  rgrows (s_apply inner1 source st1 name l c) (s_apply inner2 source st2 name l c).
Proof.
  intros Hl Hs. unfold s_apply. apply rgrows_bind; [apply rgrows_refl|]. intros nm.
  destruct (map_get nm (en_functions (ri_engine inner1))) as [[f|f]|] eqn:E.
  - intros a K. destruct (render_fails _ _ _ _ K).
  - rewrite (ext_functions _ _ HE _ _ E). apply enrich_grows. now apply call_grows.
  - intros a K. destruct (render_fails _ _ _ _ K).
Qed.
Lemma expr_grows source st1 st2 e : expr_ok source e -> stack_grows st1 st2 -> rgrows (s_expr inner1 source st1 e) (s_expr inner2 source st2 e).
Proof.
  intros He Hs. induction e as [[v|x sp]|name a recv IH sp]; cbn [s_expr expr_ok] in *.
  - apply lookup_grows; auto. destruct He as (id & sp & ms & -> & _). discriminate.
  - apply rgrows_refl.
  - destruct He as (_ & Ha & Hr & _). apply rgrows_bind; [now apply IH|]. intros c. apply rgrows_bind; [|intros; apply rgrows_refl].
    apply apply_grows; auto. destruct a as [a|]; cbn in *; [apply Ha|constructor].
Qed.
Lemma default_same source v sp : s_default inner1 source v sp = s_default inner2 source v sp.
Proof. unfold s_default. now rewrite (ext_formatter _ _ HE). Qed.
Lemma inline_grows source st1 st2 e : expr_ok source e -> stack_grows st1 st2 -> grows eq (s_inline inner1 source st1 e) (s_inline inner2 source st2 e).
Proof.
  intros He Hs.
  assert (G : grows eq (let% c := lift (s_expr inner1 source st1 e) in let% sp := lift (expr_span e) in s_default inner1 source (cow_val c) sp)
    (let% c := lift (s_expr inner2 source st2 e) in let% sp := lift (expr_span e) in s_default inner2 source (cow_val c) sp)).
  { eapply grows_bind; [apply grows_lift; now apply expr_grows|]. intros c ? <-. eapply grows_bind; [apply grows_lift, rgrows_refl|].
    intros sp ? <-. rewrite default_same. now apply grows_refl. }
  destruct e as [b|name [a|] recv sp]; [exact G|exact G|]. cbn [s_inline]. clear G. destruct He as (_ & _ & Hr & _).
  eapply grows_bind; [apply grows_lift; now apply expr_grows|]. intros c ? <-. eapply grows_bind; [apply grows_lift, rgrows_refl|]. intros nm ? <-.
  destruct (map_get nm (en_functions (ri_engine inner1))) as [[f|f]|] eqn:E.
  - rewrite (ext_functions _ _ HE _ _ E). now apply grows_refl.
  - rewrite (ext_functions _ _ HE _ _ E). eapply grows_bind; [apply grows_lift; now apply apply_grows|]. intros v ? <-. rewrite default_same. now apply grows_refl.
  - constructor. intros a. apply render_fails.
Qed.
Lemma find_grows source name n1 n2 h1 h2 : asked h1 h2 ->
  grows (fun p q => fst p = fst q /\ asked (snd p) (snd q)) (here n1 (s_find inner1 source name h1)) (here n2 (s_find inner2 source name h2)).
Proof.
  intros Hh. unfold here. apply grows_name.
  destruct (s_find inner1 source name h1) as [[t h1']|e| |] eqn:E; [|constructor; discriminate..].
  assert (O : offers inner1 h1 (as_name name) t /\ h1' = match ri_template_fn inner1 with Some _ => as_name name :: h1 | None => h1 end).
  { unfold s_find, offers in *. destruct (ri_template_fn inner1) as [f|].
    - destruct (f h1 (as_name name)) as [t0|r]; [injection E as -> <-; auto|destruct (render_fails _ _ _ _ E)].
    - destruct (map_get _ _) as [t0|]; [injection E as -> <-; auto|destruct (render_fails _ _ _ _ E)]. }
  destruct O as [O ->]. pose proof (ext_templates _ _ HE h1 h2 _ _ Hh O) as O2. unfold offers, s_find, asked in *.
  destruct (ri_template_fn inner2) as [f2|] eqn:E2; rewrite O2; constructor; cbn; (split; [reflexivity|]); intros K1 K2.
  - destruct (ri_template_fn inner1); [|now destruct K1]. f_equal. now apply Hh.
  - now destruct K2.
Qed.

Lemma e_if inner inc source tname n c thn els st hist : s_stmt inner inc source tname (SIf n c thn els) st hist =
    (let% v := here tname (s_expr inner source st c) in
    if xorb n (as_bool (cow_val v)) then s_scope inner inc source tname thn st hist
    else match els with Some l => s_scope inner inc source tname l st hist | None => RRet (Ok hist) end).
Proof. reflexivity. Qed.
Lemma e_for inner inc source tname vars e body st hist : s_stmt inner inc source tname (SFor vars e body) st hist =
    (let% c := here tname (s_expr inner source st e) in
    let% sp := here tname (expr_span e) in
    let% frs := here tname (s_loop source vars c sp) in
    s_each (s_scope inner inc source tname body) st frs hist).
Proof. reflexivity. Qed.
Lemma e_with inner inc source tname e name body st hist : s_stmt inner inc source tname (SWith e name body) st hist =
    (let% c := here tname (s_expr inner source st e) in
    s_scope inner inc source tname body (FrVar name c :: st) hist).
Proof. reflexivity. Qed.
Section Stmts.
Variable source : str.
Variable n1 n2 : option str.
Variable inc1 inc2 : option rend.
Hypothesis Hinc : forall run1, inc1 = Some run1 -> exists run2, inc2 = Some run2 /\ forall h0 name t n1 n2 st1 st2 h1 h2,
  offers inner1 h0 name t -> stack_grows st1 st2 -> asked h1 h2 -> grows asked (run1 t n1 st1 h1) (run2 t n2 st2 h2).
Notation s_stmt1 := (s_stmt inner1 inc1 source n1).
Notation s_stmt2 := (s_stmt inner2 inc2 source n2).
Notation s_scope1 := (s_scope inner1 inc1 source n1).
Notation s_scope2 := (s_scope inner2 inc2 source n2).
Definition stmt_grows (s : stmt) : Prop := stmt_ok source s -> forall st1 st2 h1 h2, stack_grows st1 st2 -> asked h1 h2 ->
  grows asked (s_stmt1 s st1 h1) (s_stmt2 s st2 h2).
Lemma scope_grow l : Forall stmt_grows l -> Forall (stmt_ok source) l -> forall st1 st2 h1 h2, stack_grows st1 st2 -> asked h1 h2 ->
  grows asked (s_scope1 l st1 h1) (s_scope2 l st2 h2).
Proof.
  induction 1 as [|s l Hs Hl IH]; intros Hok st1 st2 h1 h2 Hst Hh; cbn [RenderSpec.s_scope]; [now constructor|].
  inversion Hok; subst. eapply grows_bind; [apply Hs; eauto|]. intros; apply IH; auto.
Qed.
Lemma each_grow b1 b2 st1 st2 : (forall fr h1 h2, asked h1 h2 -> grows asked (b1 (fr :: st1) h1) (b2 (fr :: st2) h2)) -> forall frs h1 h2, asked h1 h2 ->
  grows asked (s_each b1 st1 frs h1) (s_each b2 st2 frs h2).
Proof. intros Hb. induction frs as [|fr frs IH]; intros h1 h2 Hh; cbn [s_each]; [now constructor|]. eapply grows_bind; [now apply Hb|]. intros; now apply IH. Qed.
Lemma include_grows nm st1 st2 h1 h2 : stack_grows st1 st2 -> asked h1 h2 ->
  grows asked (let% (t, hist) := here n1 (s_find inner1 source nm h1) in match inc1 with None => lift (err_max_include_depth (max_include_depth inner1)) | Some run => run t (Some (as_name nm)) st1 hist end)
   (let% (t, hist) := here n2 (s_find inner2 source nm h2) in match inc2 with None => lift (err_max_include_depth (max_include_depth inner2)) | Some run => run t (Some (as_name nm)) st2 hist end).
Proof.
  intros Hst Hh. pose proof (find_grows source nm n1 n2 h1 h2 Hh) as G.
  assert (O : forall t h, oks (here n1 (s_find inner1 source nm h1)) (t, h) -> offers inner1 h1 (as_name nm) t).
  { intros t h Ho. unfold here in Ho. apply oks_name_err in Ho. unfold s_find, offers in *. destruct (ri_template_fn inner1) as [f|].
    - destruct (f h1 (as_name nm)) as [t0|r]; cbn in Ho; [congruence|]. unfold err_render in Ho. destruct (build_pretty _ _); cbn in Ho; contradiction.
    - destruct (map_get _ _) as [t0|]; cbn in Ho; [congruence|]. unfold err_render in Ho. destruct (build_pretty _ _); cbn in Ho; contradiction. }
  revert G O. generalize (here n2 (s_find inner2 source nm h2)). intros y G O.
  inversion G as [r y' Hr E1 E2|[t1 h1'] [t2 h2'] [K1 K2] E1 E2|s o1 e1 o2 e2 Ho He E1 E2]; subst y.
  - destruct r as [a| | |]; [destruct (Hr a eq_refl)|constructor; discriminate..].
  - cbn in K1, K2. subst t2. cbn [rbind]. destruct inc1 as [run1|]; [|constructor; discriminate].
    destruct (Hinc run1 eq_refl) as (run2 & -> & Hrun). eapply Hrun; eauto. apply (O t1 h1'). rewrite <- E1. reflexivity.
  - exfalso. unfold here, name_err, lift in E1. cbn in E1. destruct (s_find inner1 source nm h1); discriminate.
Qed.
Lemma stmt_grows_all s : stmt_grows s.
Proof.
  induction s as [sp|e sp|nm g|neg c thn els IHt IHe|v e b Hb|e nm b Hb] using stmt_ind'; intros Hok st1 st2 h1 h2 Hst Hh; inversion Hok; subst.
  - cbn [RenderSpec.s_stmt]. eapply grows_bind; [apply grows_here, rgrows_refl|]. intros raw ? <-. constructor; [now constructor|]. constructor. discriminate.
  - cbn [RenderSpec.s_stmt]. eapply grows_bind; [apply grows_name; now apply inline_grows|]. intros _ _ _. now constructor.
  - cbn [RenderSpec.s_stmt rbind]. now apply include_grows.
  - cbn [RenderSpec.s_stmt]. rewrite !rbind_assoc. eapply grows_bind; [apply grows_here; apply expr_grows; eauto|]. intros c ? <-.
    cbn [rbind]. apply include_grows; auto. now do 2 apply sg_same.
  - rewrite !e_if. eapply grows_bind; [apply grows_here; apply expr_grows; eauto|]. intros c' ? <-. destruct (xorb neg _); [now apply scope_grow|now constructor].
  - rewrite !e_if. eapply grows_bind; [apply grows_here; apply expr_grows; eauto|]. intros c' ? <-. destruct (xorb neg _); now apply scope_grow.
  - rewrite !e_for. eapply grows_bind; [apply grows_here; apply expr_grows; eauto|]. intros c' ? <-. eapply grows_bind; [apply grows_here, rgrows_refl|]. intros sp ? <-.
    eapply grows_bind; [apply grows_here, rgrows_refl|]. intros frs ? <-. apply each_grow; auto. intros. apply scope_grow; auto. now apply sg_same.
  - rewrite !e_with. eapply grows_bind; [apply grows_here; apply expr_grows; eauto|]. intros c' ? <-. apply scope_grow; auto. now apply sg_same.
Qed.
End Stmts.

Hypothesis Hast : forall t, provided inner1 t -> Forall (stmt_ok (t_source t)) (ast_of t).
Lemma offers_provided h name t : offers inner1 h name t -> provided inner1 t.
Proof.
  unfold offers. intros H. right. unfold named. destruct (ri_template_fn inner1) as [f|]; [left; eauto|right; eauto].
Qed.
Lemma template_grows d1 : forall d2 t n1 n2 st1 st2 h1 h2, d1 <= d2 -> provided inner1 t -> stack_grows st1 st2 -> asked h1 h2 ->
  grows asked (s_template inner1 ast_of d1 t n1 st1 h1) (s_template inner2 ast_of d2 t n2 st2 h2).
Proof.
  induction d1 as [|d1 IH]; intros d2 t n1 n2 st1 st2 h1 h2 Hd Ht Hst Hh; cbn [s_template].
  - destruct d2; cbn [s_template]; (apply scope_grow; auto; apply Forall_forall; intros s _; apply stmt_grows_all; discriminate).
  - destruct d2 as [|d2]; [lia|]. cbn [s_template]. apply scope_grow; auto. apply Forall_forall. intros s _. apply stmt_grows_all.
    intros run1 E. injection E as <-. exists (s_template inner2 ast_of d2). split; [reflexivity|]. intros. apply IH; auto; [lia|]. eapply offers_provided; eauto.
Qed.
Theorem render_grows st1 st2 : stack_grows st1 st2 -> grows eq (s_render inner1 ast_of st1) (s_render inner2 ast_of st2).
Proof.
  intros Hst. unfold s_render. eapply grows_bind; [|intros; now constructor].
  pose proof (ext_depth _ _ HE). rewrite <- (ext_root _ _ HE). apply template_grows; auto; [lia|now left|]. intros _ _. reflexivity.
Qed.
End Extend.

(** ** What is observed *)
Lemma grows_string x y : @grows unit eq x y -> forall buf s a, run_string buf x = (s, Ok a) -> run_string buf y = (s, Ok a).
Proof.
  induction 1 as [r y Hr|a b ->|s o1 e1 o2 e2 Ho IHo He IHe]; intros buf s' a' E; cbn in *.
  - destruct r; try discriminate. now destruct (Hr a).
  - exact E.
  - now apply IHo.
Qed.
Lemma grows_run k x y : @grows unit eq x y -> forall w er w' er' a, run k w er x = (w', er', Ok a) -> run k w er y = (w', er', Ok a).
Proof.
  induction 1 as [r y Hr|a b ->|s o1 e1 o2 e2 Ho IHo He IHe]; intros w er w' er' a' E; cbn in *.
  - destruct r; try discriminate. now destruct (Hr a).
  - exact E.
  - destruct (sk_write k w s) as [w1 [c|]]; auto.
Qed.
