(** Rendering with a function that looks into a value, against rendering with the
    value: the same up to the point where one of them fails. *)
From Verif Require Import Base Utf8 Ext Errors Syntax AhoCorasick SearchSpec SyntaxSpec Value Ast Lexer LexSpec Wp
  GrammarSpec Parser AstOk Compiler CompileProof ParseMain Fmt Stack Filters Render Engine EngineSpec CompileFacts
  RenderSpec RenderProof RenderErr MapFacts RenderMain RenderObs StackRel LookupSpec LookupProof ContextSpec ContextProof.

(** Both succeed, with related results. *)
Definition both {A B} (R : A -> B -> Prop) (x : res A) (y : res B) : Prop :=
  match x, y with Ok a, Ok b => R a b | _, _ => True end.
Fixpoint lax {A} (R : A -> A -> Prop) (x y : rt A) {struct x} : Prop :=
  match x with
  | RRet (Ok a) => match y with RRet r => both R (Ok a) r | RWrite _ _ _ => False end
  | RRet _ => True
  | RWrite s o e => match y with
                    | RRet (Ok _) => False
                    | RRet _ => True
                    | RWrite s' o' e' => s = s' /\ lax R o o' /\ lax R e e'
                    end
  end.
Lemma lax_ret {A} (R : A -> A -> Prop) x y : both R x y -> lax R (RRet x) (RRet y).
Proof. destruct x; cbn; auto. Qed.
Lemma lax_refl {A} (R : A -> A -> Prop) x : (forall a, R a a) -> lax R x x.
Proof. intros H. induction x as [[]|s o IHo e IHe]; cbn; auto. Qed.
Lemma lax_left {A} (R : A -> A -> Prop) x y : (forall a, x <> Ok a) -> lax R (RRet x) y.
Proof. intros H. destruct x; cbn; auto. now destruct (H a). Qed.
Lemma lax_right {A} (R : A -> A -> Prop) x y : (forall a, y <> Ok a) -> lax R x (RRet y).
Proof. intros H. destruct x as [[]|]; cbn; auto; destruct y; auto; now destruct (H a0) || destruct (H a). Qed.
Lemma lax_bind {A B} (R : A -> A -> Prop) (R' : B -> B -> Prop) x y f g : lax R x y -> (forall a b, R a b -> lax R' (f a) (g b)) ->
  lax R' (rbind x f) (rbind y g).
Proof.
  revert y. induction x as [r|s o IHo e IHe]; intros y H Hf; cbn [lax] in H.
  - destruct r as [a|er| |]; try exact I. destruct y as [[b|er| |]|s o e]; try contradiction.
    + now apply Hf.
    + apply lax_right. discriminate.
    + apply lax_right. discriminate.
    + apply lax_right. discriminate.
  - destruct y as [[b|er| |]|s' o' e']; try contradiction; try exact I. cbn [rbind lax]. destruct H as (-> & H1 & H2). auto.
Qed.
Lemma lax_map_err {A} (R : A -> A -> Prop) f x y : lax R x y -> lax R (rmap_err f x) (rmap_err f y).
Proof.
  revert y. induction x as [r|s o IHo e IHe]; intros y H; cbn [lax] in H.
  - destruct r as [a|er| |]; cbn; auto. destruct y as [[b|er| |]|s o e]; try contradiction; exact H.
  - destruct y as [[b|er| |]|s' o' e']; try contradiction; cbn; auto. destruct H as (-> & H1 & H2). auto.
Qed.
Lemma lax_string {A} (R : A -> A -> Prop) x y : lax R x y -> forall buf s a s' b,
  run_string buf x = (s, Ok a) -> run_string buf y = (s', Ok b) -> s = s' /\ R a b.
Proof.
  revert y. induction x as [r|w o IHo e IHe]; intros y H buf s a s' b E E'; cbn [lax run_string] in *.
  - injection E as <- ->. destruct y as [r|]; [|contradiction]. cbn in E'. injection E' as <- ->. now split.
  - destruct y as [r|w' o' e']; cbn [run_string] in E'.
    + injection E' as <- ->. contradiction.
    + destruct H as (-> & H & _). eapply IHo; eauto.
Qed.
Lemma lax_run {A} (R : A -> A -> Prop) k x y : lax R x y -> forall w er s a s' b,
  run k w er x = (s, Ok a) -> run k w er y = (s', Ok b) -> s = s' /\ R a b.
Proof.
  revert y. induction x as [r|u o IHo e IHe]; intros y H w er s a s' b E E'; cbn [lax run] in *.
  - injection E as <- ->. destruct y as [r|]; [|contradiction]. cbn in E'. injection E' as <- ->. now split.
  - destruct y as [r|u' o' e']; cbn [run] in E'.
    + injection E' as <- ->. contradiction.
    + destruct H as (-> & H1 & H2). destruct (sk_write k w u') as [w' [c|]]; eauto.
Qed.
Lemma both_bind {A B A' B'} (R : A -> A' -> Prop) (R' : B -> B' -> Prop) x y f g : both R x y -> (forall a b, R a b -> both R' (f a) (g b)) ->
  both R' (bind x f) (bind y g).
Proof.
  destruct x as [a| | |]; cbn; auto. destruct y as [b| | |]; cbn; auto. all: destruct (f a); cbn; auto.
Qed.
Lemma both_refl {A} (R : A -> A -> Prop) x : (forall a, R a a) -> both R x x.
Proof. intros H. destruct x; cbn; auto. Qed.
Lemma both_no {A B} (R : A -> B -> Prop) x y : (forall a, x <> Ok a) -> both R x y.
Proof. intros H. destruct x; cbn; auto. now destruct (H a). Qed.
Lemma render_no_ok `{X : Ext} {A} m source sp (a : A) : err_render m source sp <> Ok a.
Proof. unfold err_render. destruct (build_pretty source sp); discriminate. Qed.
Lemma both_err `{X : Ext} {A B} (R : A -> B -> Prop) m source sp y : both R (err_render m source sp) y.
Proof. apply both_no. intros a. apply render_no_ok. Qed.
Lemma both_err_r `{X : Ext} {A B} (R : A -> B -> Prop) m source sp x : both R x (err_render m source sp).
Proof. pose proof (@render_no_ok X B m source sp) as K. destruct x as [a| | |]; cbn; auto. destruct (err_render m source sp) as [b| | |]; auto. now destruct (K b). Qed.

(** The same values, whoever owns them. *)
Definition ceq (c c' : cow) : Prop := cow_val c = cow_val c'.
Definition strip (l : loop_state) : loop_state :=
  match l with LList _ i n it cur => LList false i n it cur | LMap _ k v n it cur => LMap false k v n it cur end.
Inductive feq : frame -> frame -> Prop :=
| feq_scope c c' : ceq c c' -> feq (FrScope c) (FrScope c')
| feq_var n c c' : ceq c c' -> feq (FrVar n c) (FrVar n c')
| feq_loop l l' : strip l = strip l' -> feq (FrLoop l) (FrLoop l')
| feq_boundary : feq FrBoundary FrBoundary.
Definition oeq (x y : option cow) : Prop :=
  match x, y with Some c, Some c' => ceq c c' | None, None => True | _, _ => False end.

Section Lazy.
Context `{X : Ext}.
Variable inner : renderer_inner.
Variable ast_of : template -> scope.
Variable root : value.
Variable f : value_fn.
Hypothesis Hf : looks_into f root.

Definition lz (st st' : stack) : Prop :=
  exists fs fs', Forall2 feq fs fs' /\ st = fs ++ [FrScope (Borrowed root)] /\ st' = fs' ++ [FrValueFn f].
Lemma lz_push fr fr' st st' : feq fr fr' -> lz st st' -> lz (fr :: st) (fr' :: st').
Proof. intros H (fs & fs' & F & -> & ->). exists (fr :: fs), (fr' :: fs'). auto. Qed.

Section Lookups.
Variable source : str.
Lemma ceq_path_loop o o' path : forall v, both ceq (lookup_path_loop source o v path) (lookup_path_loop source o' v path).
Proof.
  induction path as [|p path IH]; intros v; cbn [lookup_path_loop].
  - destruct o, o'; reflexivity.
  - destruct (lookup source v p) as [[x|]| | |]; cbn; auto. reflexivity.
Qed.
Lemma ceq_maybe_loop o o' path : forall b v, both oeq (lookup_path_maybe_loop source o v path b) (lookup_path_maybe_loop source o' v path b).
Proof.
  induction path as [|p path IH]; intros b v; cbn [lookup_path_maybe_loop].
  - destruct o, o'; reflexivity.
  - destruct (lookup source v p) as [[x|]| | |]; cbn; auto; destruct b; cbn; auto. reflexivity.
Qed.
Lemma both_option_map o o' (r : res (option value)) : both oeq (let* r := r in Ok (option_map (mk_cow o) r)) (let* r := r in Ok (option_map (mk_cow o') r)).
Proof. destruct r as [[x|]| | |]; cbn; auto. now destruct o, o'. Qed.
Lemma ceq_loop l l' v : strip l = strip l' -> both oeq (loop_lookup_var l source v) (loop_lookup_var l' source v).
Proof.
  intros H. unfold loop_lookup_var. destruct (var_first v) as [m| | |]; cbn [bind]; try exact I.
  destruct (mb_access m) as [ix s|id]; [exact I|]. destruct (index_span source (id_span id)) as [w| | |]; cbn [bind]; try exact I.
  destruct (str_eqb w (s2b "loop")).
  - assert (E : lookup_loop l source v = lookup_loop l' source v).
    { unfold lookup_loop. replace (current_index_and_rem l') with (current_index_and_rem l); [reflexivity|].
      destruct l, l'; try discriminate H; injection H; intros; subst; reflexivity. }
    rewrite E. apply both_refl. intros [c|]; [reflexivity|exact I].
  - destruct l as [o i n it cur|o k vn n it cur], l' as [o' i' n' it' cur'|o' k' vn' n' it' cur']; try discriminate H; injection H; intros; subst.
    + destruct cur' as [[k y]|]; [|exact I]. destruct (str_eqb w i'); [|exact I]. apply both_option_map.
    + destruct cur' as [[k [k1 y]]|]; [|exact I]. destruct (str_eqb w k').
      * destruct (var_rest v); [reflexivity|]. apply both_err.
      * destruct (str_eqb w vn'); [|exact I]. apply both_option_map.
Qed.
Lemma walk_at_path o path : forall v p, value_path source path = Ok p -> forall x, at_path v p x ->
  both (fun c y => cow_val c = y) (lookup_path_loop source o v path) (@Ok error _ x).
Proof.
  induction path as [|m path IH]; intros v p E x Hx; cbn [value_path] in E.
  - injection E as <-. inversion Hx; subst. destruct o; reflexivity.
  - cbn [lookup_path_loop].
    destruct m as [op [i s|id] sp]; cbn [mb_access mb_op] in E.
    + cbn [bind] in E. destruct (value_path source path) as [p'| | |] eqn:Ep; cbn [bind] in E; try discriminate E. injection E as <-.
      unfold lookup. cbn [mb_access mb_op mb_span]. inversion Hx as [|?|? ? ? y ? ? En Hy| |? ? ? En]; subst.
      * rewrite list_get_nth, En. cbn [bind]. now apply (IH y p').
      * rewrite list_get_nth, En. reflexivity.
    + destruct (index_span source (id_span id)) as [k| | |] eqn:Ei; cbn [bind] in E; try discriminate E.
      destruct (value_path source path) as [p'| | |] eqn:Ep; cbn [bind] in E; try discriminate E. injection E as <-.
      unfold lookup. cbn [mb_access mb_op mb_span]. inversion Hx as [|? ? ? y ? ? En Hy|?|? ? ? En|]; subst.
      * rewrite Ei. cbn [bind]. rewrite En. cbn [bind]. now apply (IH y p').
      * rewrite Ei. cbn [bind]. rewrite En. reflexivity.
Qed.
Lemma maybe_is_path o v path b c : lookup_path_maybe_loop source o v path b = Ok (Some c) -> lookup_path_loop source o v path = Ok c.
Proof.
  revert v b. induction path as [|m path IH]; intros v b E; cbn [lookup_path_maybe_loop lookup_path_loop] in *.
  - now injection E as ->.
  - destruct (lookup source v m) as [[x|]| | |]; cbn [bind]; [eauto|destruct b; [discriminate E|now injection E as <-]|destruct b; discriminate E|discriminate E|discriminate E].
Qed.
Lemma lz_lookup v st st' : lz st st' -> both ceq (lookup_var st source v) (lookup_var st' source v).
Proof.
  intros (fs & fs' & F & -> & ->). induction F as [|fr fr' fs fs' Hfr F IH]; cbn [app].
  - cbn [lookup_var]. destruct (lookup_path_maybe source (Borrowed root) v) as [[c|]| | |] eqn:E; cbn [bind]; try exact I.
    + unfold lookup_path_maybe in E. apply maybe_is_path in E. cbn [is_owned cow_val] in E.
      destruct (value_path source v) as [p| | |] eqn:Ep; cbn [bind both]; try exact I.
      destruct (f p) as [x|r] eqn:Ef.
      * pose proof (walk_at_path false v root p Ep x (Hf _ _ Ef)) as K. rewrite E in K. exact K.
      * destruct (var_span v) as [sp| | |]; cbn [bind]; try exact I. apply (both_err_r ceq r source sp (Ok c)).
    + unfold err_not_found. destruct (var_first v) as [m| | |]; cbn [bind]; try exact I. apply both_err.
  - destruct Hfr as [c c' Hc|n c c' Hc|l l' Hl|]; cbn [lookup_var].
    + unfold lookup_path_maybe. red in Hc. rewrite Hc. apply (both_bind oeq); [apply ceq_maybe_loop|].
      intros [a|] [b|]; cbn [oeq]; try contradiction; auto.
    + destruct (var_first v) as [m| | |]; cbn [bind]; try exact I. destruct (index_span source (access_span _)) as [a| | |]; cbn [bind]; try exact I.
      destruct (index_span source (id_span n)) as [b| | |]; cbn [bind]; try exact I. destruct (str_eqb a b); auto.
      unfold lookup_path. red in Hc. rewrite Hc. apply ceq_path_loop.
    + apply (both_bind oeq); [now apply ceq_loop|]. intros [a|] [b|]; cbn [oeq]; try contradiction; auto.
    + unfold err_not_found. destruct (var_first v) as [m| | |]; cbn [bind]; try exact I. apply both_err.
Qed.
Lemma from_value_sub t x av : from_value t x = inl av -> from_value_ref t x = inl av.
Proof. destruct t; cbn; auto; destruct x; intros E; discriminate E || exact E. Qed.
Lemma lz_arg t b st st' : lz st st' -> both eq (get_arg t source st b) (get_arg t source st' b).
Proof.
  intros H. destruct b as [v|v sp]; cbn [get_arg]; [|apply both_refl; reflexivity].
  apply (both_bind ceq); [now apply lz_lookup|]. intros c c' Hc.
  assert (L : forall e' y, both (@eq arg_val) (let* sp := var_span v in err_expected_arg e' source sp) y).
  { intros e' y. destruct (var_span v) as [sp| | |]; cbn [bind]; try exact I. unfold err_expected_arg. apply both_err. }
  assert (L' : forall e' x, both (@eq arg_val) x (let* sp := var_span v in err_expected_arg e' source sp)).
  { intros e' x. destruct (var_span v) as [sp| | |]; cbn [bind]; [|destruct x; exact I..]. unfold err_expected_arg. apply both_err_r. }
  destruct c as [x|x], c' as [x'|x']; red in Hc; cbn [cow_val] in Hc; subst x'.
  - destruct (from_value_ref t x); [reflexivity|apply L].
  - destruct (from_value_ref t x) as [av|e1] eqn:E1, (from_value t x) as [av'|e2] eqn:E2; auto. apply from_value_sub in E2. cbn. congruence.
  - destruct (from_value_ref t x) as [av|e1] eqn:E1, (from_value t x) as [av'|e2] eqn:E2; auto. apply from_value_sub in E2. cbn. congruence.
  - destruct (from_value t x); [reflexivity|apply L].
Qed.
Lemma lz_args l : forall tys st st', lz st st' -> both eq (get_args tys source st l) (get_args tys source st' l).
Proof.
  induction l as [|b l IH]; intros tys st st' H; destruct tys as [|ty tys]; cbn [get_args]; try exact I; [reflexivity|].
  apply (both_bind eq); [now apply lz_arg|]. intros a a' <-. apply (both_bind eq); [now apply IH|]. now intros r r' <-.
Qed.
Lemma lz_apply name l c c' st st' : lz st st' -> ceq c c' -> both eq (s_apply inner source st name l c) (s_apply inner source st' name l c').
Proof.
  intros H Hc. unfold s_apply. destruct (index_span source (id_span name)) as [nm| | |]; try exact I. cbn [bind].
  destruct (map_get nm _) as [[g|g]|]; [apply both_err| |apply both_err].
  assert (K : both eq (call_filter g source name st c l) (call_filter g source name st' c' l)).
  { unfold call_filter. apply (both_bind eq); [apply both_refl; reflexivity|]. intros _ _ _.
    unfold from_cow_mut. red in Hc. rewrite Hc. apply (both_bind eq); [apply both_refl; reflexivity|]. intros r r' <-.
    apply (both_bind eq); [now apply lz_args|]. intros a a' <-. apply both_refl. reflexivity. }
  assert (N : forall e sp v, err_enrich e source sp <> @Ok error value v).
  { intros e sp v. unfold err_enrich. destruct e as [? ? ? []]; [discriminate|]. cbn. destruct (build_pretty source sp); discriminate. }
  destruct (call_filter g source name st c l) as [v|e| |], (call_filter g source name st' c' l) as [v'|e'| |]; try exact I; try exact K.
  - unfold both. destruct (err_enrich e' source _) as [v'| | |] eqn:E; auto. now apply N in E.
  - apply both_no. intros v. apply N.
  - apply both_no. intros v. apply N.
  - apply both_no. intros v. apply N.
  - apply both_no. intros v. apply N.
Qed.
Lemma lz_expr e : forall st st', lz st st' -> both ceq (s_expr inner source st e) (s_expr inner source st' e).
Proof.
  induction e as [[v|v sp]|name a recv IH sp]; intros st st' H; cbn [s_expr].
  - now apply lz_lookup.
  - reflexivity.
  - apply (both_bind ceq); [now apply IH|]. intros c c' Hc. apply (both_bind eq); [now apply lz_apply|]. intros v v' <-. reflexivity.
Qed.
Lemma lz_inline e st st' : lz st st' -> lax eq (s_inline inner source st e) (s_inline inner source st' e).
Proof.
  intros H. assert (D : forall e, lax eq (let% c := lift (s_expr inner source st e) in let% sp := lift (expr_span e) in s_default inner source (cow_val c) sp)
      (let% c := lift (s_expr inner source st' e) in let% sp := lift (expr_span e) in s_default inner source (cow_val c) sp)).
  { intros e0. apply (lax_bind ceq); [apply lax_ret; now apply lz_expr|]. intros c c' Hc. red in Hc. rewrite Hc. apply lax_refl. reflexivity. }
  destruct e as [b|name [a|] recv sp]; [apply D|apply D|]. cbn [s_inline].
  apply (lax_bind ceq); [apply lax_ret; now apply lz_expr|]. intros c c' Hc. apply (lax_bind eq); [apply lax_refl; reflexivity|]. intros nm nm' <-.
  destruct (map_get nm _) as [[g|g]|].
  - red in Hc. rewrite Hc. apply lax_refl. reflexivity.
  - apply (lax_bind eq); [apply lax_ret; now apply lz_apply|]. intros v v' <-. apply lax_refl. reflexivity.
  - apply lax_refl. reflexivity.
Qed.
Lemma lz_frames c c' vars sp : ceq c c' -> both (Forall2 feq) (s_loop source vars c sp) (s_loop source vars c' sp).
Proof.
  intros Hc. unfold s_loop. red in Hc. rewrite <- Hc.
  assert (L : forall o o' i xs k, Forall2 feq (list_frames o i k xs) (list_frames o' i k xs)).
  { intros o o' i xs. induction xs as [|x xs IH]; intros k; cbn [list_frames]; constructor; auto. now constructor. }
  assert (M : forall o o' kn vn xs k, Forall2 feq (map_frames o kn vn k xs) (map_frames o' kn vn k xs)).
  { intros o o' kn vn xs. induction xs as [|x xs IH]; intros k; cbn [map_frames]; constructor; auto. now constructor. }
  destruct (cow_val c), vars; try apply both_err.
  - destruct (index_span source _); cbn; auto.
  - destruct (index_span source (id_span key)); cbn [bind]; try exact I. destruct (index_span source (id_span value)); cbn; auto.
Qed.
End Lookups.

Section One.
Variable inc : option rend.
Variable t0 : template.
Notation source := (t_source t0).
Variable tname : option str.
Hypothesis Hinc : forall run t n st st' h, inc = Some run -> named inner t -> lz st st' -> lax eq (run t n st h) (run t n st' h).
Lemma lax_here {A} (R : A -> A -> Prop) x y : both R x y -> lax R (here tname x) (here tname y).
Proof. intros H. apply lax_map_err. now apply lax_ret. Qed.
Definition lz_stmt (s : stmt) : Prop := forall st st' hist, lz st st' ->
  lax eq (s_stmt inner inc source tname s st hist) (s_stmt inner inc source tname s st' hist).
Lemma lz_scope l : Forall lz_stmt l -> forall st st' hist, lz st st' ->
  lax eq (s_scope inner inc source tname l st hist) (s_scope inner inc source tname l st' hist).
Proof.
  induction 1 as [|s l Hs Hl IH]; intros st st' hist H; cbn [s_scope]; [reflexivity|].
  apply (lax_bind eq); [now apply Hs|]. intros h h' <-. now apply IH.
Qed.
Lemma lax_bind_oks {A B} (x : rt A) (g h : A -> rt B) : (forall a, oks x a -> lax eq (g a) (h a)) -> lax eq (rbind x g) (rbind x h).
Proof.
  intros H. induction x as [[a| | |]|s o IHo e IHe]; cbn [rbind]; try (apply lax_left; discriminate).
  - apply H. reflexivity.
  - cbn [lax]. split; [reflexivity|]. split; [apply IHo|apply IHe]; intros a Ha; apply H; cbn [oks]; auto.
Qed.
Lemma lz_find name g st st' hist : lz st st' ->
  lax eq (let% (t, hist) := here tname (s_find inner source name hist) in
          match inc with None => lift (err_max_include_depth g) | Some run => run t (Some (as_name name)) st hist end)
         (let% (t, hist) := here tname (s_find inner source name hist) in
          match inc with None => lift (err_max_include_depth g) | Some run => run t (Some (as_name name)) st' hist end).
Proof.
  intros H. apply lax_bind_oks. intros [t h] Ho. apply (find_named inner t0) in Ho.
  destruct inc as [run|] eqn:Ei; [now apply (Hinc run)|]. apply lax_refl. reflexivity.
Qed.
Lemma lz_stmt_all s : lz_stmt s.
Proof.
  induction s as [sp|e sp|nm g|neg c thn els Ht He|v e b Hb|e nm b Hb] using stmt_ind'; intros st st' hist H.
  - apply lax_refl. reflexivity.
  - cbn [s_stmt]. apply (lax_bind eq); [apply lax_map_err; now apply lz_inline|]. now intros _ _ _.
  - cbn [s_stmt]. destruct g as [e|].
    + rewrite !rbind_assoc. apply (lax_bind ceq); [apply lax_here; now apply lz_expr|]. intros c c' Hc. cbn [rbind]. apply lz_find.
      apply lz_push; [now constructor|]. apply lz_push; [constructor|exact H].
    + cbn [rbind]. now apply lz_find.
  - rewrite !s_stmt_if. apply (lax_bind ceq); [apply lax_here; now apply lz_expr|]. intros v v' Hv. red in Hv. rewrite Hv.
    destruct (xorb neg _); [now apply lz_scope|]. destruct els; [now apply lz_scope|reflexivity].
  - rewrite !s_stmt_for. apply (lax_bind ceq); [apply lax_here; now apply lz_expr|]. intros c c' Hc.
    apply (lax_bind eq); [apply lax_refl; reflexivity|]. intros sp ? <-.
    apply (lax_bind (Forall2 feq)); [apply lax_here; now apply lz_frames|]. intros frs frs' F. revert hist.
    induction F as [|fr fr' frs frs' Hfr F IH]; intros hist; cbn [s_each]; [reflexivity|].
    apply (lax_bind eq); [apply lz_scope; auto; now apply lz_push|]. intros h ? <-. apply IH.
  - rewrite !s_stmt_with. apply (lax_bind ceq); [apply lax_here; now apply lz_expr|]. intros c c' Hc. apply lz_scope; auto.
    apply lz_push; auto. now constructor.
Qed.
End One.
Lemma lz_template d : forall t n st st' hist, lz st st' ->
  lax eq (s_template inner ast_of d t n st hist) (s_template inner ast_of d t n st' hist).
Proof.
  induction d as [|d IH]; intros t n st st' hist H; cbn [s_template]; apply lz_scope; auto; apply Forall_forall; intros s _; apply lz_stmt_all.
  - discriminate.
  - intros run t' n' s1 s2 h E _ Hr. injection E as <-. now apply IH.
Qed.
Lemma lz_render : lax eq (s_render inner ast_of [FrScope (Borrowed root)]) (s_render inner ast_of [FrValueFn f]).
Proof.
  unfold s_render. apply (lax_bind eq); [|now intros _ _ _]. apply lz_template. exists [], []. auto.
Qed.
End Lazy.
