(** Contexts that agree on the names a template mentions. *)
From Verif Require Import Base Utf8 Ext Errors Syntax AhoCorasick SearchSpec SyntaxSpec Value Ast Lexer LexSpec Wp
  GrammarSpec Parser AstOk Compiler CompileProof ParseMain Fmt Stack Filters Render Engine EngineSpec CompileFacts
  RenderSpec RenderProof RenderErr MapFacts RenderMain RenderObs StackRel LookupSpec LookupProof.

(** [mentions source l name]: a variable in the statements [l] of [source] begins
    with [name]. *)
Definition mentions (source : str) (l : scope) (name : str) : Prop :=
  exists first rest, In (first :: rest) (flat_map stmt_vars l) /\ names source first name.

(** ** Occurrences that can reach the context *)

(** The text of a span. *)
Definition word (source : str) (sp : span) : str := match @index_span error source sp with Ok s => s | _ => [] end.
(** The first name of a variable. *)
Definition head_word (source : str) (v : var) : str :=
  match v with m :: _ => word source (access_span (mb_access m)) | [] => [] end.
Definition is_optional (m : member) : bool := match mb_op m with Optional => true | Direct => false end.

(** A name bound by an enclosing block.  The item of a loop catches only accesses
    without an optional member (in the code the search for [x?.a] goes on outside
    the loop if [a] is missing, see C20). *)
Inductive local := LAll (n : str) | LItem (n : str).
Definition catches (source : str) (b : local) (v : var) : bool :=
  match b with
  | LAll n => str_eqb (head_word source v) n
  | LItem n => str_eqb (head_word source v) n && negb (existsb is_optional (tl v))
  end.
Definition loop_locals (source : str) (vars : loop_vars) : list local :=
  match vars with
  | LVItem item => [LAll (s2b "loop"); LItem (word source (id_span item))]
  | LVKeyValue key value _ => [LAll (s2b "loop"); LAll (word source (id_span key)); LItem (word source (id_span value))]
  end.
Definition uncaught (source : str) (B : list local) (l : list var) : list var :=
  List.filter (fun v => negb (existsb (fun b => catches source b v) B)) l.
(** The occurrences in a statement not caught by enclosing blocks. *)
Fixpoint open_vars (source : str) (B : list local) (s : stmt) : list var :=
  match s with
  | SRaw _ => []
  | SInline e _ => uncaught source B (expr_vars e)
  | SInclude _ g => match g with Some e => uncaught source B (expr_vars e) | None => [] end
  | SIf _ c thn els =>
    uncaught source B (expr_vars c) ++ flat_map (open_vars source B) thn
      ++ match els with Some l => flat_map (open_vars source B) l | None => [] end
  | SFor vars e b => uncaught source B (expr_vars e) ++ flat_map (open_vars source (loop_locals source vars ++ B)) b
  | SWith e name b => uncaught source B (expr_vars e) ++ flat_map (open_vars source (LAll (word source (id_span name)) :: B)) b
  end.
(** [asks source l path]: the path of such an occurrence. *)
Definition asks (source : str) (l : scope) (path : list vmember) : Prop :=
  exists v, In v (flat_map (open_vars source []) l) /\ Forall2 (reads source) v path.

(** [agree P g g']: the contexts [g] and [g'] have the same values under the names
    in [P]. *)
Inductive agree (P : str -> Prop) : globals -> globals -> Prop :=
| agree_values g g' v v' :
    initial_stack g = Ok [FrScope (Borrowed v)] -> initial_stack g' = Ok [FrScope (Borrowed v')] ->
    (forall n, P n -> entry v n = entry v' n) -> agree P g g'
| agree_fns f f' :
    (forall n path, P n -> f (mkvmember Direct (VAKey n) :: path) = f' (mkvmember Direct (VAKey n) :: path)) ->
    agree P (GFn f) (GFn f').

Section Context.
Context `{X : Ext}.
Lemma lookup_push fr source v st st' : lookup_var st source v = lookup_var st' source v ->
  lookup_var (fr :: st) source v = lookup_var (fr :: st') source v.
Proof.
  intros IH. destruct fr; cbn [lookup_var]; auto.
  - destruct (lookup_path_maybe _ _ _) as [[x|]| | |]; auto.
  - destruct (var_first v) as [m| | |]; auto. cbn [bind]. destruct (index_span _ (access_span _)) as [a| | |]; auto. cbn [bind].
    destruct (index_span _ (id_span name)) as [b| | |]; auto. cbn [bind]. now rewrite IH.
  - destruct (loop_lookup_var _ _ _) as [[x|]| | |]; auto.
Qed.
Lemma lookup_over source v x x' l : lookup_var [x] source v = lookup_var [x'] source v ->
  lookup_var (l ++ [x]) source v = lookup_var (l ++ [x']) source v.
Proof. intros E. induction l as [|fr l IH]; cbn [app]; [exact E|]. now apply lookup_push. Qed.
Lemma scope_entry source id sp rest name v v' : index_span source (id_span id) = @Ok error _ name -> entry v name = entry v' name ->
  lookup_var [FrScope (Borrowed v)] source (mkmember Direct (AKey id) sp :: rest) =
  lookup_var [FrScope (Borrowed v')] source (mkmember Direct (AKey id) sp :: rest).
Proof.
  intros Hn He. cbn [lookup_var]. unfold lookup_path_maybe. cbn [is_owned cow_val lookup_path_maybe_loop].
  assert (K : forall u x, entry u name = Some x -> lookup source u (mkmember Direct (AKey id) sp) = Ok (Some x)).
  { intros u x E. destruct u; try discriminate E. unfold lookup. cbn [mb_access mb_op]. rewrite Hn. cbn [bind]. cbn in E. now rewrite E. }
  assert (K2 : forall u, entry u name = None -> exists msg, lookup source u (mkmember Direct (AKey id) sp) = err_render msg source sp).
  { intros u E. destruct u; unfold lookup; cbn [mb_access mb_op mb_span]; eauto. rewrite Hn. cbn [bind]. cbn in E. rewrite E. eauto. }
  destruct (entry v name) as [x|] eqn:E1.
  - rewrite (K v x E1), (K v' x); auto.
  - destruct (K2 v E1) as (m1 & ->). destruct (K2 v' (eq_sym He)) as (m2 & ->). unfold err_render. now destruct (build_pretty source sp).
Qed.
Lemma var_name source id sp ms : Forall (member_ok source) (mkmember Direct (AKey id) sp :: ms) ->
  exists name, names source (mkmember Direct (AKey id) sp) name /\ @index_span error source (id_span id) = Ok name.
Proof.
  intros Ho. destruct (names_ok source (mkmember Direct (AKey id) sp)) as [(n & H)|(i & s & E0)]; [now inversion Ho| |discriminate E0].
  exists n. split; [exact H|]. destruct H as (id' & E0 & En). cbn in E0. now injection E0 as <-.
Qed.
Lemma agree_base P g g' st st' source v : agree P g g' -> initial_stack g = Ok st -> initial_stack g' = Ok st' ->
  var_ok source v -> (forall first rest n, v = first :: rest -> names source first n -> P n) ->
  lookup_var st source v = lookup_var st' source v.
Proof.
  intros Ha Hs Hs' (id & sp & ms & -> & Ho) HP. destruct (var_name source id sp ms Ho) as (name & Hn & En).
  assert (Pn : P name) by (eapply HP; eauto). destruct Ha as [g g' v v' E E' He|f f' Hf].
  - rewrite E in Hs. rewrite E' in Hs'. injection Hs as <-. injection Hs' as <-. now apply (scope_entry source id sp ms name); auto.
  - injection Hs as <-. injection Hs' as <-. cbn [lookup_var value_path mb_access mb_op]. rewrite En. cbn [bind].
    destruct (value_path source ms) as [p| | |]; auto. cbn [bind]. now rewrite (Hf name p Pn).
Qed.
Lemma reads_path source ms : Forall (member_ok source) ms -> exists p, value_path source ms = Ok p /\ Forall2 (reads source) ms p.
Proof.
  induction 1 as [|m ms (H1 & H2) Hms (p & E & IH)]; [now exists []|]. cbn [value_path]. rewrite E.
  destruct m as [op [i s|id] msp]; cbn [mb_access mb_op bind].
  - eexists. split; [reflexivity|]. constructor; auto. right. exists i. split; [|reflexivity]. now exists s.
  - cbn [mb_access access_span] in H1. rewrite (index_span_ok source _ H1). cbn [bind].
    eexists. split; [reflexivity|]. constructor; auto. left. eexists. split; [|reflexivity]. exists id. split; auto. now rewrite (index_span_ok source _ H1).
Qed.
Lemma asked_base f f' source v : var_ok source v -> (forall p, Forall2 (reads source) v p -> f p = f' p) ->
  lookup_var [FrValueFn f] source v = lookup_var [FrValueFn f'] source v.
Proof.
  intros (id & sp & ms & -> & Ho) H. destruct (reads_path _ _ Ho) as (p & E & Hp). cbn [lookup_var]. rewrite E. cbn [bind]. now rewrite (H p Hp).
Qed.
(** ** Well-formed statements have well-formed variables *)
Lemma expr_vars_ok source e : expr_ok source e -> Forall (var_ok source) (expr_vars e).
Proof.
  induction e as [[v|v sp]|name a recv IH sp]; cbn [expr_ok expr_vars base_vars]; intros H.
  - constructor; [exact H|constructor].
  - constructor.
  - destruct H as (_ & Ha & Hr & _). apply Forall_app. split; [auto|].
    destruct a as [a|]; cbn [arg_list] in *; [|constructor]. cbn in Ha. destruct Ha as (Ha & _) || idtac.
    induction (a_values a) as [|b l IHl]; cbn [flat_map]; [constructor|]. inversion Ha as [|? ? Hb Hl]; subst.
    apply Forall_app. split; [|now apply IHl]. destruct b as [v|v s]; cbn [base_vars]; constructor; [exact Hb|constructor].
Qed.

Lemma stmt_vars_ok source s : stmt_ok source s -> Forall (var_ok source) (stmt_vars s).
Proof.
  assert (L : forall l, Forall (fun s => stmt_ok source s -> Forall (var_ok source) (stmt_vars s)) l -> Forall (stmt_ok source) l ->
    Forall (var_ok source) (flat_map stmt_vars l)).
  { induction 1 as [|x l Hx Hl IH]; intros Ho; [constructor|]. inversion Ho; subst. cbn [flat_map]. apply Forall_app. auto. }
  induction s as [sp|e sp|nm g|neg c thn els Ht He|v e b Hb|e nm b Hb] using stmt_ind'; intros H; inversion H; subst; cbn [stmt_vars];
    rewrite ?app_nil_r, ?Forall_app; auto using expr_vars_ok.
Qed.
Lemma uncaught_incl source B l : incl (uncaught source B l) l.
Proof. intros v H. now apply filter_In in H. Qed.
Lemma open_vars_incl source s : forall B, incl (open_vars source B s) (stmt_vars s).
Proof.
  assert (L : forall l, Forall (fun s => forall B, incl (open_vars source B s) (stmt_vars s)) l -> forall B, incl (flat_map (open_vars source B) l) (flat_map stmt_vars l)).
  { induction 1 as [|x l Hx Hl IH]; intros B; [easy|]. cbn [flat_map]. apply incl_app; [apply incl_appl|apply incl_appr]; auto. }
  induction s as [sp|e sp|nm g|neg c thn els Ht He|v e b Hb|e nm b Hb] using stmt_ind'; intros B; cbn [open_vars stmt_vars].
  - easy.
  - apply uncaught_incl.
  - destruct g; [apply uncaught_incl|easy].
  - apply incl_app; [apply incl_appl, uncaught_incl|apply incl_appr]. apply incl_app; [apply incl_appl; auto|apply incl_appr]. destruct els; [auto|easy].
  - apply incl_app; [apply incl_appl, uncaught_incl|apply incl_appr]; auto.
  - apply incl_app; [apply incl_appl, uncaught_incl|apply incl_appr]; auto.
Qed.
Lemma open_scope_incl source l : incl (flat_map (open_vars source []) l) (flat_map stmt_vars l).
Proof. induction l as [|s l IH]; [easy|]. cbn [flat_map]. apply incl_app; [apply incl_appl, open_vars_incl|now apply incl_appr]. Qed.
Lemma scope_vars_ok source l : Forall (stmt_ok source) l -> Forall (var_ok source) (flat_map stmt_vars l).
Proof. induction 1; [constructor|]. cbn [flat_map]. apply Forall_app. auto using stmt_vars_ok. Qed.

(** ** The same local variables over two contexts *)
Section Open.
Variable inner : renderer_inner.
Variable ast_of : template -> scope.
Variable base base' : frame.

Definition held (source : str) (l : list frame) (b : local) : Prop :=
  forall v x x', var_ok source v -> catches source b v = true -> lookup_var (l ++ [x]) source v = lookup_var (l ++ [x']) source v.
Definition within (source : str) (B : list local) (st st' : stack) : Prop :=
  exists l, st = l ++ [base] /\ st' = l ++ [base'] /\ Forall (held source l) B.

Lemma held_push source fr l b : held source l b -> held source (fr :: l) b.
Proof. intros H v x x' Hv Hc. cbn [app]. apply lookup_push. now apply H. Qed.
Lemma within_push source B fr st st' : within source B st st' -> within source B (fr :: st) (fr :: st').
Proof. intros (l & -> & -> & H). exists (fr :: l). split; [reflexivity|]. split; [reflexivity|]. eapply Forall_impl; [|exact H]. intros b. apply held_push. Qed.
Lemma within_bind source B B' fr st st' : (forall l, Forall (held source (fr :: l)) B') -> within source B st st' ->
  within source (B' ++ B) (fr :: st) (fr :: st').
Proof.
  intros Hb (l & -> & -> & H). exists (fr :: l). split; [reflexivity|]. split; [reflexivity|]. apply Forall_app. split; [apply Hb|].
  eapply Forall_impl; [|exact H]. intros b. apply held_push.
Qed.
Lemma within_none source B st st' source' : within source B st st' -> within source' [] st st'.
Proof. intros (l & -> & -> & H). exists l. auto. Qed.

Lemma word_ok source sp : span_ok source sp -> @index_span error source sp = Ok (word source sp).
Proof. intros H. unfold word. now rewrite (index_span_ok source sp H). Qed.
Lemma held_with source id c l : span_ok source (id_span id) -> held source (FrVar id c :: l) (LAll (word source (id_span id))).
Proof.
  intros Hi v x x' (k & sp & ms & -> & Hok) Hc. cbn [app lookup_var]. unfold var_first. cbn [hd_error unwrap bind mb_access access_span].
  inversion Hok as [|? ? (H1 & H2) _]; subst. cbn [mb_access access_span] in H1. rewrite (word_ok _ _ H1), (word_ok _ _ Hi). cbn [bind].
  cbn [catches head_word mb_access access_span] in Hc. now rewrite Hc.
Qed.
Lemma resolve_found source v rest : existsb is_optional rest = false -> forall r, resolve source v rest = Ok r -> r <> None.
Proof.
  revert v. induction rest as [|m rest IH]; intros v Ho r E; cbn [resolve] in E; [now injection E as <-|].
  cbn [existsb] in Ho. apply orb_false_elim in Ho as [Hm Ho].
  destruct (lookup source v m) as [[x|]| | |] eqn:El; cbn [bind] in E; try discriminate E; [now apply (IH x)|].
  exfalso. unfold lookup, is_optional, err_render in *. destruct (mb_op m); [|discriminate Hm].
  destruct v as [| | | | |ls|mp], (mb_access m) as [ix isp|id]; try (destruct (build_pretty _ _); discriminate El).
  - destruct (list_get ls ix); [discriminate El|]. destruct (build_pretty _ _); discriminate El.
  - destruct (index_span _ _) as [w| | |]; cbn [bind] in El; try discriminate El. destruct (map_get w mp); [discriminate El|]. destruct (build_pretty _ _); discriminate El.
Qed.
(** A loop frame in an iteration. *)
Definition current (l : loop_state) : bool :=
  match l with LList _ _ _ _ (Some _) | LMap _ _ _ _ _ (Some _) => true | _ => false end.
Lemma held_loop source lp b l : current lp = true ->
  match b, lp with
  | LAll n, LList _ _ _ _ _ => n = s2b "loop"
  | LAll n, LMap _ k _ _ _ _ => n = s2b "loop" \/ n = k
  | LItem n, LList _ i _ _ _ => n = i
  | LItem n, LMap _ _ v _ _ _ => n = v
  end -> held source (FrLoop lp :: l) b.
Proof.
  intros Hcur Hb v x x' (id & sp & ms & -> & Hok) Hc. cbn [app lookup_var]. 
  enough (K : loop_lookup_var lp source (mkmember Direct (AKey id) sp :: ms) <> Ok None).
  { destruct (loop_lookup_var _ _ _) as [[y|]| | |]; cbn [bind]; auto. now destruct K. }
  unfold loop_lookup_var, var_first. cbn [hd_error unwrap bind mb_access]. inversion Hok as [|? ? (H1 & H2) _]; subst. cbn [mb_access access_span] in H1.
  rewrite (word_ok _ _ H1). cbn [bind]. set (w := word source (id_span id)) in *.
  assert (Hl : str_eqb w (s2b "loop") = true -> lookup_loop lp source (mkmember Direct (AKey id) sp :: ms) <> Ok None).
  { intros _. unfold lookup_loop. assert (Hp : exists i rem, current_index_and_rem lp = Some (i, rem)).
    { destruct lp as [o i n it [[k y]|]|o k vn n it [[k0 [k1 y]]|]]; try discriminate Hcur; cbn [current_index_and_rem]; eauto. }
    destruct Hp as (i & rem & ->). destruct ms as [|m [|m2 ms]]; [discriminate|..]; unfold err_render.
    - destruct (mb_access m); [destruct (build_pretty _ _); discriminate|]. destruct (index_span _ _) as [a| | |]; cbn [bind]; try discriminate.
      repeat match goal with |- context [if ?c then _ else _] => destruct c; cbn [bind]; try discriminate end.
      all: destruct (mb_op m); cbn [bind]; try discriminate; destruct (build_pretty _ _); discriminate.
    - destruct (mb_access m); [destruct (build_pretty _ _); discriminate|]. destruct (index_span _ _) as [a| | |]; cbn [bind]; try discriminate.
      repeat match goal with |- context [if ?c then _ else _] => destruct c; cbn [bind]; try (destruct (build_pretty _ _); discriminate) end.
      all: destruct (mb_op m); cbn [bind]; repeat (destruct (build_pretty _ _); cbn [bind]; try discriminate). }
  destruct (str_eqb w (s2b "loop")) eqn:Ew; [now apply Hl|].
  assert (Hr : forall o y, existsb is_optional ms = false -> (let* r := resolve source y ms in Ok (option_map (mk_cow o) r)) <> Ok None).
  { intros o y Ho. destruct (resolve source y ms) as [r| | |] eqn:Er; cbn [bind]; try discriminate. pose proof (resolve_found _ _ _ Ho _ Er). now destruct r. }
  destruct b as [n|n]; cbn [catches head_word mb_access access_span tl] in Hc; fold w in Hc.
  - destruct lp as [o i nx it [[k y]|]|o k vn nx it [[k0 [k1 y]]|]]; try discriminate Hcur.
    + subst n. rewrite Ew in Hc. discriminate Hc.
    + destruct Hb as [-> | ->]; [rewrite Ew in Hc; discriminate Hc|]. rewrite Hc. destruct ms; cbn [var_rest tl]; [discriminate|]; unfold err_render. destruct (build_pretty _ _); discriminate.
  - apply andb_prop in Hc as [Hc Ho]. apply negb_true_iff in Ho.
    destruct lp as [o i nx it [[k y]|]|o k vn nx it [[k0 [k1 y]]|]]; try discriminate Hcur; subst n; rewrite Hc.
    + now apply Hr.
    + destruct (str_eqb w k); [destruct ms; cbn [var_rest tl]; [discriminate|]; unfold err_render; destruct (build_pretty _ _); discriminate|]. now apply Hr.
Qed.
Lemma held_frames source vars c sp frs fr l : loop_vars_ok source vars -> s_loop source vars c sp = Ok frs -> In fr frs ->
  Forall (held source (fr :: l)) (loop_locals source vars).
Proof.
  intros Hv E Hi. unfold s_loop in E.
  assert (L : forall o i k xs, In fr (list_frames o i k xs) -> exists n it cur, fr = FrLoop (LList o i n it (Some cur))).
  { intros o i k xs. revert k. induction xs as [|x xs IH]; intros k H; [destruct H|]. destruct H as [<-|H]; eauto. }
  assert (M : forall o kn vn k xs, In fr (map_frames o kn vn k xs) -> exists n it cur, fr = FrLoop (LMap o kn vn n it (Some cur))).
  { intros o kn vn k xs. revert k. induction xs as [|x xs IH]; intros k H; [destruct H|]. destruct H as [<-|H]; eauto. }
  unfold err_render in E.
  destruct (cow_val c), vars as [item|key value vsp]; try (destruct (build_pretty _ _); discriminate E).
  - cbn in Hv. rewrite (word_ok _ _ Hv) in E. cbn [bind] in E. injection E as <-. destruct (L _ _ _ _ Hi) as (n & it & cur & ->).
    cbn [loop_locals]. apply Forall_cons; [|apply Forall_cons; [|apply Forall_nil]]; apply held_loop; reflexivity.
  - cbn in Hv. destruct Hv as (H1 & H2 & H3). rewrite (word_ok _ _ H1), (word_ok _ _ H2) in E. cbn [bind] in E. injection E as <-.
    destruct (M _ _ _ _ _ Hi) as (n & it & cur & ->).
    cbn [loop_locals]. apply Forall_cons; [|apply Forall_cons; [|apply Forall_cons; [|apply Forall_nil]]]; apply held_loop; try reflexivity; auto.
Qed.

Section One.
Variable t : template.
Variable tname : option str.
Variable inc : option rend.
Notation source := (t_source t).
Hypothesis Hinc : forall run t n st st' h, inc = Some run -> named inner t -> within (t_source t) [] st st' -> run t n st h = run t n st' h.
Definition base_same (l : list var) : Prop := forall v, In v l -> lookup_var [base] source v = lookup_var [base'] source v.
Lemma base_same_app l l' : base_same (l ++ l') -> base_same l /\ base_same l'.
Proof. intros H. split; intros v Hv; apply H; apply in_or_app; auto. Qed.
Lemma open_same B l : Forall (var_ok source) l -> base_same (uncaught source B l) -> same (within source B) t l.
Proof.
  intros Hok H v st st' Hv (fs & -> & -> & Hh). rewrite Forall_forall in Hok.
  destruct (existsb (fun b => catches source b v) B) eqn:Ec.
  - apply existsb_exists in Ec as (b & Hb & Hc). rewrite Forall_forall in Hh. now apply (Hh b Hb); [apply Hok|].
  - apply lookup_over. apply H. apply filter_In. split; auto. now rewrite Ec.
Qed.
Notation s_stmt := (s_stmt inner inc source tname).
Notation s_scope := (s_scope inner inc source tname).
Definition open_rel (s : stmt) : Prop := stmt_ok source s -> forall B, base_same (open_vars source B s) ->
  forall st st' hist, within source B st st' -> s_stmt s st hist = s_stmt s st' hist.
Lemma open_scope l : Forall open_rel l -> Forall (stmt_ok source) l -> forall B, base_same (flat_map (open_vars source B) l) ->
  forall st st' hist, within source B st st' -> s_scope l st hist = s_scope l st' hist.
Proof.
  induction 1 as [|s l Hs Hl IH]; intros Hok B H st st' hist Hr; cbn [RenderSpec.s_scope]; auto. inversion Hok as [|? ? O1 O2]; subst.
  cbn [flat_map] in H. apply base_same_app in H as [H1 H2]. rewrite (Hs O1 B H1 st st' hist Hr). apply rbind_ext. intros h. now apply (IH O2 B).
Qed.
Lemma open_expr e B st st' : expr_ok source e -> base_same (uncaught source B (expr_vars e)) -> within source B st st' ->
  s_expr inner source st e = s_expr inner source st' e.
Proof.
  intros Ho H Hr. apply (rel_expr inner (within source B) t); auto. apply open_same; auto. now apply expr_vars_ok.
Qed.
Lemma open_rel_all s : open_rel s.
Proof.
  induction s as [sp|e sp|nm g|neg c thn els Ht He|v e b Hb|e nm b Hb] using stmt_ind'; intros Hok B H st st' hist Hr; cbn [open_vars] in H.
  - reflexivity.
  - inversion Hok; subst. cbn [RenderSpec.s_stmt].
    rewrite (rel_inline inner (within source B) t e st st'); auto. apply open_same; auto. now apply expr_vars_ok.
  - cbn [RenderSpec.s_stmt]. destruct g as [e|]; inversion Hok; subst.
    + rewrite (open_expr e B st st') by auto. rewrite !rbind_assoc. apply rbind_ext. intros c. cbn [rbind].
      apply rbind_ext_oks. intros [t' h'] Ho. destruct inc as [run|] eqn:Ei; auto. apply (Hinc run); auto; [now apply find_named in Ho|].
      apply (within_none source B). now do 2 apply within_push.
    + cbn [rbind]. apply rbind_ext_oks. intros [t' h'] Ho. destruct inc as [run|] eqn:Ei; auto. apply (Hinc run); auto; [now apply find_named in Ho|].
      now apply (within_none source B).
  - rewrite !s_stmt_if. apply base_same_app in H as [H1 H]. apply base_same_app in H as [H2 H3].
    inversion Hok; subst; rewrite (open_expr c B st st') by auto; apply rbind_ext; intros v; (destruct (xorb neg _); [now apply (open_scope _ Ht) with (B := B)|]); auto.
    now apply (open_scope _ He) with (B := B).
  - rewrite !s_stmt_for. apply base_same_app in H as [H1 H2]. inversion Hok as [| | | | | |? ? ? O1 O2 O3|]; subst.
    rewrite (open_expr e B st st') by auto.
    apply rbind_ext. intros c. apply rbind_ext. intros sp. apply rbind_ext_oks. intros frs Hf.
    assert (K : forall fr, In fr frs -> forall l, Forall (held source (fr :: l)) (loop_locals source v)).
    { apply oks_name_err in Hf. destruct (s_loop source v c sp) as [frs'| | |] eqn:El; try contradiction. cbn in Hf. subst frs'.
      intros fr Hi l. eapply held_frames; eauto. }
    clear Hf. revert hist. induction frs as [|fr frs IH]; intros hist; cbn [s_each]; auto.
    rewrite (open_scope b Hb O3 _ H2 (fr :: st) (fr :: st') hist).
    + apply rbind_ext. intros h. apply IH. intros f Hf. apply K. now right.
    + apply within_bind; auto. intros l. apply K. now left.
  - rewrite !s_stmt_with. apply base_same_app in H as [H1 H2]. inversion Hok as [| | | | | | |? ? ? O1 O2 O3]; subst.
    rewrite (open_expr e B st st') by auto. apply rbind_ext. intros c. apply (open_scope b Hb O3 _ H2).
    apply (within_bind source B [LAll (word source (id_span nm))]); auto. intros l. apply Forall_cons; [|apply Forall_nil]. now apply held_with.
Qed.
End One.

Hypothesis Hast : forall t, provided inner t -> Forall (stmt_ok (t_source t)) (ast_of t) /\ base_same t (flat_map (open_vars (t_source t) []) (ast_of t)).
Lemma open_template d : forall t n st st' hist, provided inner t -> within (t_source t) [] st st' ->
  s_template inner ast_of d t n st hist = s_template inner ast_of d t n st' hist.
Proof.
  induction d as [|d IH]; intros t n st st' hist Hp Hr; cbn [s_template]; destruct (Hast t Hp) as (H1 & H2).
  - apply (open_scope t n None (ast_of t)) with (B := []); auto. apply Forall_forall. intros s _. apply open_rel_all. discriminate.
  - apply (open_scope t n _ (ast_of t)) with (B := []); auto. apply Forall_forall. intros s _. apply open_rel_all.
    intros run t' n' s1 s2 h E Hp' Hr'. injection E as <-. apply IH; auto. now right.
Qed.
Lemma open_render : s_render inner ast_of [base] = s_render inner ast_of [base'].
Proof.
  unfold s_render. rewrite (open_template _ _ _ [base] [base']); auto; [now left|]. exists []. split; [reflexivity|]. split; [reflexivity|]. constructor.
Qed.
End Open.
End Context.
