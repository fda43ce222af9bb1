(** Property C54: a block does what its body does in a larger context. *)
From Verif Require Import Base Utf8 Ext Errors Syntax AhoCorasick SearchSpec SyntaxSpec Value Ast Lexer LexSpec Wp LexProof
  GrammarSpec Parser AstOk Compiler CompileProof ParseMain Fmt Stack Filters Render Engine EngineSpec CompileFacts
  RenderSpec RenderProof RenderErr MapFacts RenderMain RenderObs DepthProof Props2 Demo Meaning MeaningProof RefactorSpec Refactor Inline
  Props14 Props18 TreeSpec BlockSpec BlockProof BodySpec Body.

Section C54.
Context `{X : Ext}.
(** An engine, in whose templates there is no include (without [with]) inside of a
    [with] block, as in C40. *)
Variable sx : syntax.
Variable e : engine.
Hypothesis Hu : user_syntax sx.
Hypothesis Hc : closers_ok sx.
Hypothesis He : engine_for sx e.
(** The statements of a template of the engine. *)
Definition in_library (b : list pstmt) : Prop :=
  exists n t l, In (n, t) (en_templates e) /\ derives sx (t_source t) l /\ b = bare (t_source t) l.
Hypothesis Hlib : forall b, in_library b -> confined_all false b.
(** [t] was compiled from a source with the statements [p]. *)
Definition compiled_from (p : list pstmt) (t : template) : Prop :=
  exists source, is_template sx source p /\ engine_compile source e = Ok t.
(** What rendering gives, but for the place of an error. *)
Definition rendering (inner : renderer_inner) (g : globals) (r : res str) : Prop :=
  exists r', renders inner g r' /\ r = without_place r'.

(** *** From rendering to meaning *)
Definition ast_of (t : template) : scope := match parse_template (en_searcher e) (t_source t) with Ok l => l | _ => [] end.
Definition the_world : world := world_of (mkinner e (mktemplate [] []) None None None) ast_of.
Lemma ast_derived t : template_of sx t -> derives sx (t_source t) (ast_of t).
Proof.
  intros (_ & Ht & V & e' & He' & Ec). apply (compile_iff _ Hu _ (engine_searcher _ _ He') _ V Ht) in Ec as (l & D & _).
  unfold ast_of. pose proof (proj2 (proj1 (C08_accepted_iff_grammatical _ e _ Hu Ht He V) l) D) as E. now rewrite E.
Qed.
Lemma template_of_compiled p t : compiled_from p t -> template_of sx t /\ bare (t_source t) (ast_of t) = p.
Proof.
  intros (source & (V & l & D & El) & Ec). pose proof (compile_source _ _ _ Ec) as Es.
  assert (T : template_of sx t). { split; [exact Hu|]. split; [now apply closers_trims|]. rewrite Es. split; [exact V|]. eauto. }
  split; [exact T|]. pose proof (ast_derived t T) as D'. rewrite Es in D' |- *.
  now rewrite (proj2 (proj2 (C08_accepted_iff_grammatical _ e source Hu (closers_trims _ _ Hc) He V)) _ _ D' D).
Qed.
Lemma meant t name p g st r : template_of sx t -> bare (t_source t) (ast_of t) = p -> confined_all false p -> initial_stack g = Ok st ->
  rendering (mkinner e t name None None) g r -> r = string_result (m_render the_world p name (start g)).
Proof.
  intros T Ep Cp Hg (r' & R & ->).
  assert (W : well_made (mkinner e t name None None) (fun _ => sx)) by (apply engine_well_made; auto; intros; now apply closers_trims).
  assert (S : statements (mkinner e t name None None) (fun _ => sx) ast_of).
  { intros t' Hp. pose proof (W t' Hp) as T'. split; [exact T'|]. now apply ast_derived. }
  assert (C : forall t', provided (mkinner e t name None None) t' -> confined_all false (bare (t_source t') (ast_of t'))).
  { intros t' Hp. destruct Hp as [->|[(f & h & n & Ef & _)|(_ & n & En)]]; cbn in *.
    - now rewrite Ep.
    - discriminate Ef.
    - apply Hlib. exists n, t', (ast_of t'). split; [eapply map_get_In; eauto|]. split; [|reflexivity]. apply S. right. right. eauto. }
  destruct (C40_meaning _ _ ast_of g S C st Hg) as ((r2 & R2 & E) & _). rewrite (renders_fun _ _ _ _ R R2), E.
  unfold root_of. cbn [ri_template ri_template_name]. rewrite Ep. reflexivity.
Qed.
Lemma meant_in t name p v r : template_of sx t -> bare (t_source t) (ast_of t) = p -> confined_all false p ->
  rendering (mkinner e t name None None) (GBorrowed v) r -> r = string_result (m_render the_world p name [BScope (Borrowed v)]).
Proof. intros T E C. exact (meant t name p (GBorrowed v) _ r T E C eq_refl). Qed.
Lemma steady_world asked name : match w_find the_world asked name with inl (_, asked') => asked' = asked | inr _ => True end.
Proof. cbn. destruct (map_get name (en_templates e)); auto. Qed.
Lemma in_world asked n b h : w_find the_world asked n = inl (b, h) -> in_library b.
Proof.
  cbn. destruct (map_get n (en_templates e)) as [t|] eqn:E; [|discriminate]. intros H. injection H as <- _. exists n, t, (ast_of t).
  split; [now apply map_get_In|]. split; [|reflexivity]. apply ast_derived. apply map_get_In in E. apply (engine_templates sx e Hu He n t E). now apply closers_trims.
Qed.
Lemma expr_world ex en : m_expr the_world en ex = m_expr (mkworld (fun n => map_get n (en_functions e)) (en_default_formatter e) 0 (fun _ _ => inr [])) en ex.
Proof. reflexivity. Qed.
Definition depth : nat := N.to_nat (w_limit the_world) - 1.
Definition inc : option meaning := match depth with 0 => None | S d => Some (m_template the_world d) end.
Lemma inc_steady : match inc with Some m => forall body n en h, gives h (m body n en h) | None => True end.
Proof. unfold inc. destruct depth; [exact I|]. intros. apply steady_template. exact steady_world. Qed.
Lemma render_scope p n en : string_result (m_render the_world p n en) =
  match run_string [] (m_scope the_world inc n p en []) with (s, Ok _) => Ok s | (_, Err er) => Err er | (_, Panic) => Panic | (_, OutOfFuel) => OutOfFuel end.
Proof.
  unfold m_render. fold depth.
  assert (M : m_template the_world depth p n en [] = m_scope the_world inc n p en []) by (unfold inc; destruct depth; reflexivity). rewrite M.
  unfold string_result. rewrite (run_bind _ _ []) by (apply steady_scope; [exact steady_world|exact inc_steady]).
  destruct (run_string [] (m_scope the_world inc n p en [])) as [s [h| | |]]; reflexivity.
Qed.
Lemma same_scope p p' n en en' : m_scope the_world inc n p en [] = m_scope the_world inc n p' en' [] ->
  string_result (m_render the_world p n en) = string_result (m_render the_world p' n en').
Proof. intros E. now rewrite !render_scope, E. Qed.

Lemma library_ast b : in_library b -> exists n t, In (n, t) (en_templates e) /\ b = bare (t_source t) (ast_of t).
Proof.
  intros (n & t & l & Hi & D & ->). exists n, t. split; [exact Hi|].
  assert (T : template_of sx t) by (apply (engine_templates sx e Hu He n t Hi); now apply closers_trims).
  destruct T as (_ & _ & V & T). assert (D' : derives sx (t_source t) (ast_of t)) by (apply ast_derived; split; [exact Hu|]; split; [now apply closers_trims|auto]).
  now rewrite (proj2 (proj2 (C08_accepted_iff_grammatical _ e _ Hu (closers_trims _ _ Hc) He V)) _ _ D D').
Qed.

(** *** The theorems *)

(** C54.  A conditional gives what the branch gives that the value of the condition
    chooses. *)
Lemma choice neg v thn els b : chosen neg v thn els b -> b = if xorb neg (as_bool v) then thn else or_empty els.
Proof.
  pose proof (as_bool_truthy v) as K. intros [H|H]; destruct neg, (as_bool v) eqn:A; cbn [xorb]; try reflexivity; exfalso.
  all: first [exact (proj1 K eq_refl H)|discriminate (proj2 K H)].
Qed.
Theorem C54_if neg ex thn els branch t1 t2 g c r1 r2 :
  compiled_from [PIf neg ex thn els] t1 -> confined_all false [PIf neg ex thn els] -> value_in e g ex (inl c) ->
  chosen neg (cow_val c) thn els branch -> compiled_from branch t2 ->
  rendering (template_renderer t1 e) g r1 -> rendering (template_renderer t2 e) g r2 -> r1 = r2.
Proof.
  intros T1 C1 V Ch T2 R1 R2. rewrite (choice _ _ _ _ _ Ch) in T2. destruct (template_of_compiled _ _ T1) as (O1 & E1). destruct (template_of_compiled _ _ T2) as (O2 & E2).
  destruct (initial_stack g) as [st|er| |] eqn:Hg.
  2-4: destruct R1 as (x1 & (_ & n1 & R1) & ->), R2 as (x2 & (_ & n2 & R2) & ->); rewrite <- (R1 n1), <- (R2 n2) by auto; unfold to_string; now rewrite Hg.
  assert (C2 : confined_all false (if xorb neg (as_bool (cow_val c)) then thn else or_empty els)).
  { destruct C1 as ((C1 & C1') & _). destruct (xorb _ _); [exact C1|]. destruct els; [exact C1'|exact I]. }
  rewrite (meant _ _ _ _ _ _ O1 E1 C1 Hg R1), (meant _ _ _ _ _ _ O2 E2 C2 Hg R2). apply same_scope. rewrite m_scope_one, m_stmt_if, expr_world.
  unfold value_in in V. rewrite V. destruct (xorb _ _); [reflexivity|]. destruct els; reflexivity.
Qed.

(** What the context makes of arguments that are stored and of those that are not. *)
Lemma by_value_args : by_value e -> forall name f, w_function the_world name = Some (EFilter f) -> Forall (fun t => forall v, from_value t v = from_value_ref t v) (fl_args f).
Proof.
  intros B name f Ef. specialize (B name f Ef). eapply Forall_impl; [|exact B]. intros t N v. unfold takes_reference in N. destruct t; try reflexivity; exfalso; apply N; auto.
Qed.
Lemma weaken s : confined true s -> confined false s.
Proof.
  assert (K : forall l, Forall (fun s => confined true s -> confined false s) l -> confined_all true l -> confined_all false l).
  { induction 1 as [|x l Hx _ IH]; [auto|]. intros (A & B). split; auto. }
  induction s as [t|ex|name arg|neg c thn els IHt IHe|item ex b IHb|kn vn ex b IHb|ex name b IHb] using pstmt_ind'; auto.
  - destruct arg; [auto|discriminate].
  - intros (A & B). split; [exact (K thn IHt A)|]. destruct els as [l|]; [exact (K l IHe B)|exact I].
  - exact (K b IHb).
  - exact (K b IHb).
Qed.
Lemma weaken_all l : confined_all true l -> confined_all false l.
Proof. induction l as [|s l IH]; [auto|]. intros (A & B). split; [now apply weaken|auto]. Qed.
Lemma find_scope c n r : m_find [BScope c] n r = match cow_val c with VMap m => match map_get n m with Some x => got_of (is_owned c) (follow x r) | None => inr (s2b "not found in this scope") end | _ => inr (s2b "not found in this scope") end.
Proof. cbn [m_find ask]. destruct (cow_val c); try reflexivity. destruct (map_get n m); reflexivity. Qed.

(** C54.  [{% with .. as x %}] gives what its body gives in the context with [x]. *)
Theorem C54_with ex x body t1 t2 m c r1 r2 :
  compiled_from [PWith ex x body] t1 -> confined_all false [PWith ex x body] -> value_in e (GBorrowed (VMap m)) ex (inl c) ->
  is_owned c = false \/ by_value e ->
  compiled_from body t2 ->
  rendering (template_renderer t1 e) (GBorrowed (VMap m)) r1 ->
  rendering (template_renderer t2 e) (GBorrowed (VMap (map_insert x (cow_val c) m))) r2 -> r1 = r2.
Proof.
  intros T1 C1 V B T2 R1 R2. destruct (template_of_compiled _ _ T1) as (O1 & E1). destruct (template_of_compiled _ _ T2) as (O2 & E2).
  rewrite (meant_in _ _ _ _ _ O1 E1 C1 R1), (meant_in _ _ _ _ _ O2 E2 (weaken_all _ (proj1 C1)) R2). apply same_scope.
  rewrite m_scope_one, m_stmt_with, expr_world. unfold value_in in V. cbn [start] in V. rewrite V.
  apply (scope_so the_world (by_value e) by_value_args) with (ok := everything); [|now apply any_block|].
  - unfold inc. destruct depth; [exact I|]. now apply template_so, by_value_args.
  - intros f r _. cbn [m_find ask]. destruct (str_eqb f x) eqn:Ef.
    + apply str_eqb_eq in Ef as ->. cbn [cow_val]. rewrite map_get_insert_same. apply got_of_alike. exact B.
    + cbn [cow_val]. rewrite map_get_insert_other; [apply gots_refl|]. intros ->. rewrite (proj2 (str_eqb_eq x x) eq_refl) in Ef. discriminate Ef.
Qed.

(** The rounds of a loop, one after the other. *)
Lemma each_order body n en bs : forall ps, Forall2 (fun b p => string_result (m_render the_world body n (b :: en)) = p) bs ps ->
  match run_string [] (m_each (m_scope the_world inc n body) en bs []) with (s, Ok _) => Ok s | (_, Err er) => Err er | (_, Panic) => Panic | (_, OutOfFuel) => OutOfFuel end = in_order ps.
Proof.
  intros ps H. induction H as [|b p bs ps Hp _ IH]; cbn [m_each in_order run_string]; [reflexivity|].
  rewrite (run_bind _ _ []) by (apply steady_scope; [exact steady_world|exact inc_steady]). rewrite render_scope in Hp.
  destruct (run_string [] (m_scope the_world inc n body (b :: en) [])) as [s [h| | |]]; cbn [fst snd] in *; subst p; try reflexivity.
  rewrite run_buf. rewrite <- IH. destruct (run_string [] (m_each _ en bs [])) as [s' [h'| | |]]; reflexivity.
Qed.

Lemma inc_so (P : Prop) : (P -> forall name f, w_function the_world name = Some (EFilter f) -> Forall (fun t => forall v, from_value t v = from_value_ref t v) (fl_args f)) ->
  match inc with Some m => meaning_so the_world P m | None => True end.
Proof. intros H. unfold inc. destruct depth; [exact I|]. now apply template_so. Qed.
Lemma used (use : patom -> Prop) (ok : str -> list pstep -> Prop) body : (forall a, use a -> okatom ok a) -> used_so use in_library body -> block_so the_world ok body.
Proof.
  intros H. unfold used_so, block_so. intros B. refine (in_block_both _ _ _ _ _ _ _ _ _ body _ _ _ B B); auto. intros L _ asked n b h E.
  pose proof (L b (in_world _ _ _ _ E)) as B'. refine (in_block_both _ _ _ _ _ _ _ _ _ b _ _ _ B' B'); auto.
Qed.
Lemma found_loop o k n rest : k < n -> by_value e /\ (rest = [] \/ exists o k, rest = [mkpstep o (KName k)]) ->
  gots (by_value e) (loop_path k (n - S k) rest) (got_of o (follow (loop_value k n) rest)).
Proof.
  intros Hk (B & H). assert (El : loop_map k (n - S k) = loop_value k n).
  { unfold loop_map, loop_value. replace (n - S k =? 0) with (S k =? n); [reflexivity|]. apply Bool.eq_iff_eq_true. rewrite !Nat.eqb_eq. lia. }
  unfold loop_path. rewrite El. destruct H as [->|(op & key & ->)]; cbn [ps_key ps_optional follow got_of].
  - right. split; [exact B|]. now destruct o.
  - unfold loop_value. destruct (map_get key _) as [v|]; cbn [got_of gots].
    + right. split; [exact B|]. now destruct o.
    + destruct op; [|reflexivity]. right. split; [exact B|reflexivity].
Qed.
Lemma item_alike m x o k n v : x <> s2b "loop" -> k < n -> o = false \/ by_value e ->
  rel (by_value e) (fun f r => item_use e x (PVar f r)) [BItem x o v k (n - S k); BScope (Borrowed (VMap m))] [BScope (Borrowed (VMap (item_context m x k n v)))].
Proof.
  intros Hx Hk Ho f r (L & U). cbn [m_find ask cow_val is_owned]. unfold item_context. destruct (str_eqb f (s2b "loop")) eqn:El.
  - apply str_eqb_eq in El as ->. rewrite map_get_insert_same. exact (found_loop false k n r Hk (L eq_refl)).
  - assert (Nl : f <> s2b "loop") by (intros ->; rewrite eqb_refl in El; discriminate El). rewrite map_get_insert_other by exact Nl.
    destruct (str_eqb f x) eqn:Ex.
    + apply str_eqb_eq in Ex as ->. rewrite map_get_insert_same. unfold item_path. pose proof (direct_follow v r (U eq_refl)) as D.
      destruct (follow v r) eqn:Ef; [|congruence|]; apply got_of_alike; exact Ho.
    + assert (Nx : f <> x) by (intros ->; rewrite eqb_refl in Ex; discriminate Ex). rewrite map_get_insert_other by exact Nx. apply gots_refl.
Qed.
Lemma items_at x o l : forall i, length (item_rounds x o i l) = length l /\
  forall k b, nth_error (item_rounds x o i l) k = Some b -> exists v, nth_error l k = Some v /\ b = BItem x o v (i + k) (length l - S k).
Proof.
  induction l as [|v l IH]; intros i; cbn [item_rounds length]; [split; [reflexivity|intros [|k] b; discriminate]|].
  destruct (IH (S i)) as (L & N). split; [now rewrite L|]. intros [|k] b; cbn [nth_error].
  - intros H. injection H as <-. exists v. split; [reflexivity|]. f_equal; lia.
  - intros H. destruct (N k b H) as (v' & Hv & ->). exists v'. split; [exact Hv|]. f_equal; lia.
Qed.
Lemma Forall2_nth {A B} (R : A -> B -> Prop) l1 l2 : length l1 = length l2 ->
  (forall k a b, nth_error l1 k = Some a -> nth_error l2 k = Some b -> R a b) -> Forall2 R l1 l2.
Proof.
  revert l2. induction l1 as [|a l1 IH]; intros [|b l2] L H; try discriminate L; constructor.
  - exact (H 0 a b eq_refl eq_refl).
  - apply IH; [now injection L|]. intros k. exact (H (S k)).
Qed.

(** C54.  A loop over a list gives, one after the other, what its body gives in the
    contexts of the rounds: with the item and [loop]. *)
Theorem C54_for x ex body t1 t2 m c items r rs :
  compiled_from [PFor x ex body] t1 -> confined_all false [PFor x ex body] -> value_in e (GBorrowed (VMap m)) ex (inl c) ->
  cow_val c = VList items -> is_owned c = false \/ by_value e ->
  x <> s2b "loop" -> used_so (item_use e x) in_library body ->
  compiled_from body t2 ->
  rendering (template_renderer t1 e) (GBorrowed (VMap m)) r ->
  length rs = length items ->
  (forall k v rk, nth_error items k = Some v -> nth_error rs k = Some rk ->
     rendering (template_renderer t2 e) (GBorrowed (VMap (item_context m x k (length items) v))) rk) ->
  r = in_order rs.
Proof.
  intros T1 C1 V Ec B Hx U T2 R Hl Hr. destruct (template_of_compiled _ _ T1) as (O1 & E1). destruct (template_of_compiled _ _ T2) as (O2 & E2).
  rewrite (meant_in _ _ _ _ _ O1 E1 C1 R). rewrite render_scope, m_scope_one, m_stmt_for, expr_world. unfold value_in in V. cbn [start] in V. rewrite V, Ec.
  destruct (items_at x (is_owned c) items 0) as (L & N).
  apply each_order. apply Forall2_nth; [congruence|]. intros k b rk Hb Hk. destruct (N k b Hb) as (v & Hv & ->).
  rewrite (meant_in _ _ _ _ _ O2 E2 (proj1 C1) (Hr k v rk Hv Hk)). apply same_scope.
  apply (scope_so the_world (by_value e) by_value_args inc (inc_so _ by_value_args) None (fun f r => item_use e x (PVar f r))).
  - revert U. apply used. now intros [f p|lit].
  - cbn [Nat.add]. apply item_alike; auto. apply nth_error_Some. rewrite Hv. discriminate.
Qed.

Lemma entry_alike m kn vn o k n kv : kn <> s2b "loop" -> vn <> s2b "loop" -> k < n -> o = false \/ by_value e ->
  rel (by_value e) (fun f r => entry_use e kn vn (PVar f r)) [BEntry kn vn o (fst kv) (snd kv) k (n - S k); BScope (Borrowed (VMap m))] [BScope (Borrowed (VMap (entry_context m kn vn k n kv)))].
Proof.
  intros Hkn Hvn Hk Ho f r (L & U1 & U2). cbn [m_find ask cow_val is_owned]. unfold entry_context. destruct (str_eqb f (s2b "loop")) eqn:El.
  - apply str_eqb_eq in El as ->. rewrite map_get_insert_same. exact (found_loop false k n r Hk (L eq_refl)).
  - assert (Nl : f <> s2b "loop") by (intros ->; rewrite eqb_refl in El; discriminate El). rewrite map_get_insert_other by exact Nl.
    destruct (str_eqb f kn) eqn:Ek.
    + apply str_eqb_eq in Ek as ->. destruct (U1 eq_refl) as (B & ->). rewrite map_get_insert_same. cbn. right. split; [exact B|reflexivity].
    + assert (Nk : f <> kn) by (intros ->; rewrite eqb_refl in Ek; discriminate Ek). rewrite map_get_insert_other by exact Nk.
      destruct (str_eqb f vn) eqn:Ex.
      * apply str_eqb_eq in Ex as ->. rewrite map_get_insert_same. unfold item_path. pose proof (direct_follow (snd kv) r (U2 eq_refl Nk)) as D.
        destruct (follow (snd kv) r) eqn:Ef; [|congruence|]; apply got_of_alike; exact Ho.
      * assert (Nx : f <> vn) by (intros ->; rewrite eqb_refl in Ex; discriminate Ex). rewrite map_get_insert_other by exact Nx. apply gots_refl.
Qed.
Lemma entries_at kn vn o l : forall i, length (entry_rounds kn vn o i l) = length l /\
  forall k b, nth_error (entry_rounds kn vn o i l) k = Some b -> exists kv, nth_error l k = Some kv /\ b = BEntry kn vn o (fst kv) (snd kv) (i + k) (length l - S k).
Proof.
  induction l as [|[key v] l IH]; intros i; cbn [entry_rounds length]; [split; [reflexivity|intros [|k] b; discriminate]|].
  destruct (IH (S i)) as (L & N). split; [now rewrite L|]. intros [|k] b; cbn [nth_error].
  - intros H. injection H as <-. exists (key, v). split; [reflexivity|]. cbn [fst snd]. f_equal; lia.
  - intros H. destruct (N k b H) as (v' & Hv & ->). exists v'. split; [exact Hv|]. f_equal; lia.
Qed.
(** C54.  The same for a loop over a map. *)
Theorem C54_for_entries kn vn ex body t1 t2 m c entries r rs :
  compiled_from [PForEntries kn vn ex body] t1 -> confined_all false [PForEntries kn vn ex body] -> value_in e (GBorrowed (VMap m)) ex (inl c) ->
  cow_val c = VMap entries -> is_owned c = false \/ by_value e ->
  kn <> s2b "loop" -> vn <> s2b "loop" -> used_so (entry_use e kn vn) in_library body ->
  compiled_from body t2 ->
  rendering (template_renderer t1 e) (GBorrowed (VMap m)) r ->
  length rs = length entries ->
  (forall k kv rk, nth_error entries k = Some kv -> nth_error rs k = Some rk ->
     rendering (template_renderer t2 e) (GBorrowed (VMap (entry_context m kn vn k (length entries) kv))) rk) ->
  r = in_order rs.
Proof.
  intros T1 C1 V Ec B Hk Hv U T2 R Hl Hr. destruct (template_of_compiled _ _ T1) as (O1 & E1). destruct (template_of_compiled _ _ T2) as (O2 & E2).
  rewrite (meant_in _ _ _ _ _ O1 E1 C1 R). rewrite render_scope, m_scope_one, m_stmt_entries, expr_world. unfold value_in in V. cbn [start] in V. rewrite V, Ec.
  destruct (entries_at kn vn (is_owned c) entries 0) as (L & N).
  apply each_order. apply Forall2_nth; [congruence|]. intros k b rk Hb Hrk. destruct (N k b Hb) as (kv & Hkv & ->).
  rewrite (meant_in _ _ _ _ _ O2 E2 (proj1 C1) (Hr k kv rk Hkv Hrk)). apply same_scope.
  apply (scope_so the_world (by_value e) by_value_args inc (inc_so _ by_value_args) None (fun f r => entry_use e kn vn (PVar f r))).
  - revert U. apply used. now intros [f p|lit].
  - cbn [Nat.add]. apply entry_alike; auto. apply nth_error_Some. rewrite Hkv. discriminate.
Qed.

(** C54.  An include gives what the template gives by itself, in the same context or,
    with [with], in that value; or the include is too deep. *)
Definition included_in (g : globals) (arg : option pexpr) (g' : globals) : Prop :=
  match arg with
  | None => g' = g
  | Some ex => exists c, value_in e g ex (inl c) /\ (is_owned c = false \/ by_value e) /\ g' = GBorrowed (cow_val c)
  end.
Theorem C54_include n arg t1 t g g' st r1 r2 :
  compiled_from [PInclude n arg] t1 -> map_get n (en_templates e) = Some t ->
  included_in g arg g' -> initial_stack g = Ok st ->
  rendering (template_renderer t1 e) g r1 -> rendering (template_ref_renderer (n, t) e) g' r2 ->
  match r1 with
  | Ok out => r2 = Ok out
  | Err e1 => too_deep (en_max_include_depth e) e1 \/ exists e2, r2 = Err e2 /\ e_kind e1 = e_kind e2 /\ e_reason e1 = e_reason e2
  | r => r2 = r
  end.
Proof.
  intros T1 Ht Hi Hg R1 R2. destruct (template_of_compiled _ _ T1) as (O1 & E1).
  assert (O2 : template_of sx t) by (apply (engine_templates sx e Hu He n t (map_get_In _ _ _ Ht)); now apply closers_trims).
  assert (C1 : confined_all false [PInclude n arg]) by (split; [destruct arg; [exact I|reflexivity]|exact I]).
  assert (C2 : confined_all false (bare (t_source t) (ast_of t))).
  { apply Hlib. exists n, t, (ast_of t). split; [exact (map_get_In _ _ _ Ht)|]. split; [now apply ast_derived|reflexivity]. }
  assert (Hg' : exists st', initial_stack g' = Ok st') by (destruct arg; cbn in Hi; [destruct Hi as (c & _ & _ & ->); cbn; eauto|subst g'; eauto]).
  destruct Hg' as (st' & Hg'). rewrite (meant _ _ _ _ _ _ O1 E1 C1 Hg R1), (meant _ (Some n) _ _ _ _ O2 eq_refl C2 Hg' R2).
  rewrite !render_scope, m_scope_one. set (body := bare (t_source t) (ast_of t)) in *.
  assert (K : exists en', m_stmt the_world inc None (PInclude n arg) (start g) [] =
      match inc with None => m_fail None (KRender, s2b "reached maximum include depth (" ++ show_N (w_limit the_world) ++ s2b ")") | Some m => m body (Some n) en' [] end /\
      rel (by_value e) everything en' (start g')).
  { assert (W : w_find the_world [] n = inl (body, [])) by (cbn; rewrite Ht; reflexivity). cbn [m_stmt]. destruct arg as [ex|]; cbn in Hi.
    - destruct Hi as (c & V & B & ->). rewrite expr_world. unfold value_in in V. rewrite V, W. exists [BScope c]. split; [reflexivity|].
      cbn [start]. apply push_scope; [|intros f r _; reflexivity]. destruct B as [B|B]; [left; destruct c; [reflexivity|discriminate B]|right; split; [exact B|reflexivity]].
    - subst g'. rewrite W. exists (start g). split; [reflexivity|]. intros f r _. apply gots_refl. }
  destruct K as (en' & -> & Rel).
  assert (L : leads (w_limit the_world) (match inc with None => m_fail None (KRender, s2b "reached maximum include depth (" ++ show_N (w_limit the_world) ++ s2b ")") | Some m => m body (Some n) en' [] end)
    (m_scope the_world inc (Some n) body (start g') [])).
  { rewrite <- (scope_so the_world (by_value e) by_value_args inc (inc_so _ by_value_args) (Some n) everything body) with (en1 := en'); [|now apply any_block|exact Rel].
    unfold inc. destruct depth as [|d]; [apply leads_deep|]. exact (deeper_template _ the_world eq_refl d body (Some n) (Some n) en' []). }
  change (en_max_include_depth e) with (w_limit the_world). specialize (L []).
  match goal with |- context [run_string [] ?x] => destruct (run_string [] x) as [b1 [a1|x1| |]] eqn:Ex end;
  destruct (run_string [] (m_scope the_world inc (Some n) body (start g') [])) as [b2 [a2|x2| |]]; cbn [seen as_far] in L; try discriminate L; try reflexivity; try congruence.
  - destruct L as [L|(e' & E' & L)]; [now left|discriminate E'].
  - destruct L as [L|(e' & E' & L1 & L2)]; [now left|]. injection E' as <-. right. eauto.
  - destruct L as [L|(e' & E' & L)]; [now left|discriminate E'].
  - destruct L as [L|(e' & E' & L)]; [now left|discriminate E'].
Qed.

(** C54.  If the expression of a block fails, so does the block, with that error; nor can
    one loop over anything else than a list, or a map with two variables. *)
Definition expression_of (s : pstmt) : option pexpr :=
  match s with
  | PIf _ ex _ _ | PFor _ ex _ | PForEntries _ _ ex _ | PWith ex _ _ | PInclude _ (Some ex) => Some ex
  | _ => None
  end.
Theorem C54_errors s rest t g st r :
  compiled_from (s :: rest) t -> confined_all false (s :: rest) -> initial_stack g = Ok st -> rendering (template_renderer t e) g r ->
  (forall ex kind reason, expression_of s = Some ex -> value_in e g ex (inr (kind, reason)) -> r = Err (mkerror kind None (Some reason) None)) /\
  (forall x ex body c, s = PFor x ex body -> value_in e g ex (inl c) -> (forall l, cow_val c <> VList l) ->
     exists reason, r = Err (mkerror KRender None (Some reason) None) /\
       reason = match cow_val c with VMap _ => s2b "cannot unpack map item into one variable" | v => s2b "expected iterable, but expression evaluated to " ++ LookupSpec.kind_word v end) /\
  (forall kn vn ex body c, s = PForEntries kn vn ex body -> value_in e g ex (inl c) -> (forall m, cow_val c <> VMap m) ->
     exists reason, r = Err (mkerror KRender None (Some reason) None) /\
       reason = match cow_val c with VList _ => s2b "cannot unpack list item into two variables" | v => s2b "expected iterable, but expression evaluated to " ++ LookupSpec.kind_word v end).
Proof.
  intros T1 C1 Hg R. destruct (template_of_compiled _ _ T1) as (O1 & E1). rewrite (meant _ _ _ _ _ _ O1 E1 C1 Hg R), render_scope. cbn [m_scope].
  split; [|split].
  - intros ex k reason Es V. unfold value_in in V.
    assert (K : m_stmt the_world inc None s (start g) [] = m_fail None (k, reason)).
    { destruct s as [|?|n0 [a|]|neg c0 thn els|x e0 b|kn vn e0 b|e0 n0 b]; cbn [expression_of] in Es; try discriminate Es; injection Es as ->.
      - cbn [m_stmt]. now rewrite expr_world, V.
      - now rewrite m_stmt_if, expr_world, V.
      - now rewrite m_stmt_for, expr_world, V.
      - now rewrite m_stmt_entries, expr_world, V.
      - now rewrite m_stmt_with, expr_world, V. }
    rewrite K. reflexivity.
  - intros x ex body c -> V N. unfold value_in in V. rewrite m_stmt_for, expr_world, V.
    destruct (cow_val c); try (eexists; split; [reflexivity|reflexivity]). now destruct (N l).
  - intros kn vn ex body c -> V N. unfold value_in in V. rewrite m_stmt_entries, expr_world, V.
    destruct (cow_val c); try (eexists; split; [reflexivity|reflexivity]). now destruct (N m).
Qed.

(** C54.  [{{ first.rest }}] shows what is at the end of the path in the context, with the
    default formatter; none if an optional member is missing; else the error. *)
Definition formatted (v : value) : res str :=
  string_result (run_fmt (en_default_formatter e v) (fun m => Err (mkerror KFormat None m None))).
Theorem C54_path first rest t m r :
  compiled_from [PShow (PAtom (PVar first rest))] t -> rendering (template_renderer t e) (GBorrowed (VMap m)) r ->
  r = match map_get first m with
      | None => Err (mkerror KRender None (Some (s2b "not found in this scope")) None)
      | Some x =>
        match follow x rest with
        | Found v => formatted v
        | Absent => formatted VNone
        | Stuck reason => Err (mkerror KRender None (Some reason) None)
        end
      end.
Proof.
  intros T1 R. destruct (template_of_compiled _ _ T1) as (O1 & E1). rewrite (meant_in _ _ _ _ _ O1 E1 (conj I I) R), render_scope, m_scope_one.
  cbn [m_stmt m_show m_expr m_find ask cow_val is_owned]. 
  assert (F : forall v, match run_string [] (let% _ := run_fmt (w_default the_world v) (fun m => Err (mkerror KFormat None m None)) in RRet (Ok (@nil str))) with
    | (s, Ok _) => Ok s | (_, Err er) => Err er | (_, Panic) => Panic | (_, OutOfFuel) => OutOfFuel end = formatted v :> res str).
  { intros v. unfold formatted, string_result. change (w_default the_world) with (en_default_formatter e). rewrite run_string_bind.
    destruct (run_string [] (run_fmt (en_default_formatter e v) _)) as [s [[]|x| |]]; reflexivity. }
  destruct (map_get first m) as [x|]; [|reflexivity]. destruct (follow x rest); cbn [got_of mk_cow cow_val]; [apply F|apply F|reflexivity].
Qed.
End C54.
Print Assumptions C54_if.
Print Assumptions C54_with.
Print Assumptions C54_for.
Print Assumptions C54_for_entries.
Print Assumptions C54_include.
Print Assumptions C54_errors.
Print Assumptions C54_path.

(** ** Concrete cases, in the engine of Demo.v *)
Local Existing Instance ascii_ext.
Lemma compiled_by e s l p t : engine_for default_syntax e -> asciib s = true -> parse_template (en_searcher e) s = Ok l -> bare s l = p -> engine_compile s e = Ok t ->
  compiled_from default_syntax e p t.
Proof.
  intros He A P B C. exists s. split; [|exact C]. split; [now apply asciib_valid|]. exists l. split; [|exact B].
  apply (C08_accepted_iff_grammatical _ e _ default_user_syntax (default_trims_ok _) He (asciib_valid _ A)). exact P.
Qed.
Definition demo_trees : list (list pstmt) :=
  map (fun nt => bare (t_source (snd nt)) (ast_of demo_engine (snd nt))) (en_templates demo_engine).
Lemma demo_trees_all b : in_library default_syntax demo_engine b -> In b demo_trees.
Proof.
  intros H. destruct (library_ast default_syntax demo_engine default_user_syntax default_closers_ok demo_for b H) as (n & t & Hi & ->).
  exact (in_map (fun nt => bare (t_source (snd nt)) (ast_of demo_engine (snd nt))) _ _ Hi).
Qed.
Lemma demo_library : forall b, in_library default_syntax demo_engine b -> confined_all false b.
Proof.
  intros b H. apply demo_trees_all in H. apply confinedb_all.
  assert (K : forallb (fun b => forallb (confinedb false) b) demo_trees = true) by (vm_compute; reflexivity).
  exact (proj1 (forallb_forall _ _) K b H).
Qed.
Lemma demo_by_value : by_value demo_engine.
Proof.
  intros name f H. assert (E : en_functions demo_engine = [(s2b "upper", EFilter upper)]) by (vm_compute; reflexivity). rewrite E in H. cbn [map_get] in H.
  destruct (str_eqb name (s2b "upper")); [|discriminate H]. injection H as <-. constructor.
Qed.
Definition compile_demo (s : str) : template := match engine_compile s demo_engine with Ok t => t | _ => mktemplate [] [] end.
Definition tree_demo (s : str) : list pstmt := match parse_template (en_searcher demo_engine) s with Ok l => bare s l | _ => [] end.
Lemma demo_compiled s : asciib s = true -> (match engine_compile s demo_engine with Ok _ => true | _ => false end) = true ->
  (match parse_template (en_searcher demo_engine) s with Ok _ => true | _ => false end) = true -> compiled_from default_syntax demo_engine (tree_demo s) (compile_demo s).
Proof.
  intros A C P. unfold tree_demo, compile_demo. destruct (parse_template (en_searcher demo_engine) s) as [l| | |] eqn:E; try discriminate P.
  destruct (engine_compile s demo_engine) as [t| | |] eqn:E2; try discriminate C. exact (compiled_by demo_engine s l _ t demo_for A E eq_refl E2).
Qed.
Definition demo_map : list (str * value) := match demo_value with VMap m => m | _ => [] end.
Ltac ready := apply demo_compiled; vm_compute; reflexivity.
(** Render by computing. *)
Lemma computed inner g n r : to_string n inner g = r -> r <> OutOfFuel -> rendering inner g (without_place r).
Proof. intros E N. exists r. split; [now apply (renders_by _ n)|reflexivity]. Qed.
Ltac computes r := apply (computed _ _ 60 r); [vm_compute; reflexivity|discriminate].

(** The loop of the page, whose body includes a template that uses the item and [loop]. *)
Definition loop_source : str := s2b "{% for item in items %}{% include ""row"" %}{% endfor %}".
Definition loop_body : str := s2b "{% include ""row"" %}".
Lemma loop_trees : tree_demo loop_source = [PFor (s2b "item") (PAtom (PVar (s2b "items") [])) [PInclude (s2b "row") None]] /\ tree_demo loop_body = [PInclude (s2b "row") None].
Proof. split; vm_compute; reflexivity. Qed.
Definition item_useb (x : str) (a : patom) : bool :=
  match a with
  | PVar first rest =>
    (if str_eqb first (s2b "loop") then match rest with [] => true | [mkpstep _ (KName _)] => true | _ => false end else true) &&
    (if str_eqb first x then forallb (fun s => negb (ps_optional s)) rest else true)
  | PLit _ => true
  end.
Lemma item_useb_ok e x a : by_value e -> item_useb x a = true -> item_use e x a.
Proof.
  intros B H. destruct a as [first rest|v]; [|exact I]. cbn in H. apply andb_prop in H as (H1 & H2). split.
  - intros ->. split; [exact B|]. rewrite eqb_refl in H1. destruct rest as [|[o [k|i]] [|s2 rest]]; try discriminate H1; eauto.
  - intros ->. rewrite eqb_refl in H2. apply Forall_forall. intros s Hs. pose proof (proj1 (forallb_forall _ _) H2 s Hs) as K. cbn beta in K. now apply Bool.negb_true_iff in K.
Qed.
Section EachB.
Variable f : patom -> bool.
Fixpoint in_exprb (e : pexpr) : bool :=
  match e with PAtom a => f a | PCall recv _ args => in_exprb recv && match args with Some l => forallb f l | None => true end end.
Fixpoint in_stmtb (s : pstmt) : bool :=
  match s with
  | PText _ => true
  | PShow e => in_exprb e
  | PInclude _ None => true
  | PInclude _ (Some e) => in_exprb e
  | PIf _ c thn els => in_exprb c && forallb in_stmtb thn && match els with Some l => forallb in_stmtb l | None => true end
  | PFor _ e b | PForEntries _ _ e b | PWith e _ b => in_exprb e && forallb in_stmtb b
  end.
Variable Q : patom -> Prop.
Hypothesis HQ : forall a, f a = true -> Q a.
Lemma in_exprb_ok e : in_exprb e = true -> in_expr Q e.
Proof.
  induction e as [a|recv IH name args]; cbn [in_exprb in_expr]; [apply HQ|]. intros H. apply andb_prop in H as (H1 & H2). split; [auto|].
  destruct args as [l|]; [|exact I]. apply Forall_forall. intros a Ha. apply HQ. exact (proj1 (forallb_forall _ _) H2 a Ha).
Qed.
Lemma in_blockb_ok l : forallb in_stmtb l = true -> in_block Q (fun _ => True) True l.
Proof.
  assert (K : forall l, Forall (fun s => in_stmtb s = true -> in_stmt Q (fun _ => True) True s) l -> forallb in_stmtb l = true -> in_block Q (fun _ => True) True l).
  { clear l. induction 1 as [|s l Hs _ IH]; [intros _; exact I|]. cbn [forallb]. intros H. apply andb_prop in H as (H1 & H2). split; auto. }
  apply K. apply Forall_forall. intros s _. clear l.
  induction s as [t|ex|name arg|neg c thn els IHt IHe|item ex b IHb|kn vn ex b IHb|ex name b IHb] using pstmt_ind'; cbn [in_stmtb]; intros H.
  - exact I.
  - now apply in_exprb_ok.
  - destruct arg; [now apply in_exprb_ok|exact I].
  - apply andb_prop in H as (H & H3). apply andb_prop in H as (H1 & H2). split; [now apply in_exprb_ok|]. split; [exact (K thn IHt H2)|]. destruct els as [l|]; [exact (K l IHe H3)|exact I].
  - apply andb_prop in H as (H1 & H2). split; [exact I|]. split; [now apply in_exprb_ok|exact (K b IHb H2)].
  - apply andb_prop in H as (H1 & H2). split; [exact I|]. split; [exact I|]. split; [now apply in_exprb_ok|exact (K b IHb H2)].
  - apply andb_prop in H as (H1 & H2). split; [exact I|]. split; [now apply in_exprb_ok|exact (K b IHb H2)].
Qed.
End EachB.
Example C54_case_for r : rendering (template_renderer (compile_demo loop_source) demo_engine) (GBorrowed (VMap demo_map)) r -> r = Ok (s2b "<x>, <7>").
Proof.
  intros R.
  assert (T1 : compiled_from default_syntax demo_engine (tree_demo loop_source) (compile_demo loop_source)) by ready.
  assert (T2 : compiled_from default_syntax demo_engine (tree_demo loop_body) (compile_demo loop_body)) by ready.
  destruct loop_trees as (E1 & E2). rewrite E1 in T1. rewrite E2 in T2.
  assert (U : used_so (item_use demo_engine (s2b "item")) (in_library default_syntax demo_engine) [PInclude (s2b "row") None]).
  { split; [|exact I]. intros b Hb. apply demo_trees_all in Hb. apply (in_blockb_ok (item_useb (s2b "item"))); [intros a; apply item_useb_ok, demo_by_value|].
    assert (K : forallb (fun b => forallb (in_stmtb (item_useb (s2b "item"))) b) demo_trees = true) by (vm_compute; reflexivity).
    exact (proj1 (forallb_forall _ _) K b Hb). }
  refine (C54_for default_syntax demo_engine default_user_syntax default_closers_ok demo_for demo_library _ _ _ _ _ demo_map
    (Borrowed (VList [VMap [(s2b "name", VStr (s2b "x"))]; VMap [(s2b "name", VInt 7)]])) [VMap [(s2b "name", VStr (s2b "x"))]; VMap [(s2b "name", VInt 7)]] r
    [Ok (s2b "<x>, "); Ok (s2b "<7>")] T1 _ _ eq_refl (or_introl eq_refl) _ U T2 R eq_refl _).
  - apply confinedb_all. vm_compute. reflexivity.
  - vm_compute. reflexivity.
  - discriminate.
  - intros [|[|k]] v rk Hv Hk; cbn [nth_error] in Hv, Hk.
    + injection Hv as <-. injection Hk as <-. computes (@Ok error _ (s2b "<x>, ")).
    + injection Hv as <-. injection Hk as <-. computes (@Ok error _ (s2b "<7>")).
    + destruct k; discriminate Hk.
Qed.
(** A [with] block, a conditional, an include with [with], a path. *)
Definition with_source : str := s2b "{% with user as u %}{{ u.name | upper }}{% include ""foot"" with u %}{% endwith %}".
Definition with_body : str := s2b "{{ u.name | upper }}{% include ""foot"" with u %}".
Definition with_tree : list pstmt := tree_demo with_body.
Example C54_case_with r : rendering (template_renderer (compile_demo with_source) demo_engine) (GBorrowed (VMap demo_map)) r -> r = Ok (s2b "ANN-ANN-").
Proof.
  intros R.
  assert (T1 : compiled_from default_syntax demo_engine (tree_demo with_source) (compile_demo with_source)) by ready.
  assert (T2 : compiled_from default_syntax demo_engine with_tree (compile_demo with_body)) by ready.
  assert (E1 : tree_demo with_source = [PWith (PAtom (PVar (s2b "user") [])) (s2b "u") with_tree]) by (vm_compute; reflexivity). rewrite E1 in T1.
  refine (C54_with default_syntax demo_engine default_user_syntax default_closers_ok demo_for demo_library _ _ _ _ _ demo_map
    (Borrowed (VMap [(s2b "name", VStr (s2b "ann"))])) r (Ok (s2b "ANN-ANN-")) T1 _ _ (or_introl eq_refl) T2 R _).
  - apply confinedb_all. vm_compute. reflexivity.
  - vm_compute. reflexivity.
  - computes (@Ok error _ (s2b "ANN-ANN-")).
Qed.
Example C54_case_if r : rendering (template_renderer (compile_demo (s2b "{% if not items %}a{% else %}{{ title }}{% endif %}")) demo_engine) (GBorrowed demo_value) r -> r = Ok (s2b "T").
Proof.
  intros R.
  assert (T1 : compiled_from default_syntax demo_engine (tree_demo (s2b "{% if not items %}a{% else %}{{ title }}{% endif %}")) (compile_demo (s2b "{% if not items %}a{% else %}{{ title }}{% endif %}"))) by ready.
  assert (T2 : compiled_from default_syntax demo_engine (tree_demo (s2b "{{ title }}")) (compile_demo (s2b "{{ title }}"))) by ready.
  assert (E1 : tree_demo (s2b "{% if not items %}a{% else %}{{ title }}{% endif %}") = [PIf true (PAtom (PVar (s2b "items") [])) [PText (s2b "a")] (Some (tree_demo (s2b "{{ title }}")))]) by (vm_compute; reflexivity). rewrite E1 in T1.
  refine (C54_if default_syntax demo_engine default_user_syntax default_closers_ok demo_for demo_library _ _ _ _ _ _ _ (GBorrowed demo_value)
    (Borrowed (VList [VMap [(s2b "name", VStr (s2b "x"))]; VMap [(s2b "name", VInt 7)]])) r (Ok (s2b "T")) T1 _ _ (chosen_else true _ _ (Some _) _) T2 R _).

  - apply confinedb_all. vm_compute. reflexivity.
  - vm_compute. reflexivity.
  - intros F. inversion F.
  - computes (@Ok error _ (s2b "T")).
Qed.
(** Both ends of C54_include: the template by itself, and the limit. *)
Lemma foot_there : exists t, map_get (s2b "foot") (en_templates demo_engine) = Some t /\ rendering (template_ref_renderer (s2b "foot", t) demo_engine) (GBorrowed (VMap [(s2b "name", VStr (s2b "ann"))])) (Ok (s2b "-ANN-")).
Proof. eexists. split; [vm_compute; reflexivity|]. computes (@Ok error _ (s2b "-ANN-")). Qed.
Example C54_case_include r : rendering (template_renderer (compile_demo (s2b "{% include ""foot"" with user %}")) demo_engine) (GBorrowed demo_value) r ->
  (exists er, r = Err er) \/ r = Ok (s2b "-ANN-").
Proof.
  intros R. destruct foot_there as (t & Et & R2).
  assert (T1 : compiled_from default_syntax demo_engine (tree_demo (s2b "{% include ""foot"" with user %}")) (compile_demo (s2b "{% include ""foot"" with user %}"))) by ready.
  assert (E1 : tree_demo (s2b "{% include ""foot"" with user %}") = [PInclude (s2b "foot") (Some (PAtom (PVar (s2b "user") [])))]) by (vm_compute; reflexivity). rewrite E1 in T1.
  assert (V : included_in demo_engine (GBorrowed demo_value) (Some (PAtom (PVar (s2b "user") []))) (GBorrowed (VMap [(s2b "name", VStr (s2b "ann"))]))).
  { exists (Borrowed (VMap [(s2b "name", VStr (s2b "ann"))])). split; [vm_compute; reflexivity|]. split; [left; reflexivity|reflexivity]. }
  pose proof (C54_include default_syntax demo_engine default_user_syntax default_closers_ok demo_for demo_library (s2b "foot") (Some (PAtom (PVar (s2b "user") []))) _ t
    (GBorrowed demo_value) (GBorrowed (VMap [(s2b "name", VStr (s2b "ann"))])) _ r _ T1 Et V eq_refl R R2) as K.
  clear - K. revert K. generalize (s2b "-ANN-"). intros out K.
  destruct r as [o|er| |]; [|left; eauto|discriminate K|discriminate K]. right. symmetry. exact K.
Qed.
Example C54_case_path r : rendering (template_renderer (compile_demo (s2b "{{ items.1.age }}")) demo_engine) (GBorrowed (VMap demo_map)) r ->
  r = Err (mkerror KRender None (Some (s2b "not found in map")) None).
Proof.
  intros R. assert (T1 : compiled_from default_syntax demo_engine (tree_demo (s2b "{{ items.1.age }}")) (compile_demo (s2b "{{ items.1.age }}"))) by ready.
  assert (E1 : tree_demo (s2b "{{ items.1.age }}") = [PShow (PAtom (PVar (s2b "items") [mkpstep false (KIndex 1); mkpstep false (KName (s2b "age"))]))]) by (vm_compute; reflexivity). rewrite E1 in T1.
  rewrite (C54_path default_syntax demo_engine default_user_syntax default_closers_ok demo_for demo_library _ _ _ _ _ T1 R). vm_compute. reflexivity.
Qed.
Example C54_case_error r : rendering (template_renderer (compile_demo (s2b "{% for k, v in items %}a{% endfor %}b")) demo_engine) (GBorrowed (VMap demo_map)) r ->
  r = Err (mkerror KRender None (Some (s2b "cannot unpack list item into two variables")) None).
Proof.
  intros R. assert (T1 : compiled_from default_syntax demo_engine (tree_demo (s2b "{% for k, v in items %}a{% endfor %}b")) (compile_demo (s2b "{% for k, v in items %}a{% endfor %}b"))) by ready.
  assert (E1 : tree_demo (s2b "{% for k, v in items %}a{% endfor %}b") = [PForEntries (s2b "k") (s2b "v") (PAtom (PVar (s2b "items") [])) [PText (s2b "a")]; PText (s2b "b")]) by (vm_compute; reflexivity). rewrite E1 in T1.
  assert (Cn : confined_all false [PForEntries (s2b "k") (s2b "v") (PAtom (PVar (s2b "items") [])) [PText (s2b "a")]; PText (s2b "b")]) by (apply confinedb_all; vm_compute; reflexivity).
  destruct (C54_errors default_syntax demo_engine default_user_syntax default_closers_ok demo_for demo_library _ _ _ (GBorrowed (VMap demo_map)) _ _ T1 Cn eq_refl R) as (_ & _ & K).
  assert (V : value_in demo_engine (GBorrowed (VMap demo_map)) (PAtom (PVar (s2b "items") [])) (inl (Borrowed (VList [VMap [(s2b "name", VStr (s2b "x"))]; VMap [(s2b "name", VInt 7)]])))) by (vm_compute; reflexivity).
  assert (N : forall m, cow_val (Borrowed (VList [VMap [(s2b "name", VStr (s2b "x"))]; VMap [(s2b "name", VInt 7)]])) <> VMap m) by (intros m; discriminate).
  destruct (K _ _ _ _ _ eq_refl V N) as (reason & -> & ->). reflexivity.
Qed.
(** A loop over a map. *)
Example C54_case_entries r : rendering (template_renderer (compile_demo (s2b "{% for k, v in user %}{{ k }}={{ v | upper }}{{ loop.last }}{% endfor %}")) demo_engine) (GBorrowed (VMap demo_map)) r ->
  r = Ok (s2b "name=ANNtrue").
Proof.
  intros R. assert (T1 : compiled_from default_syntax demo_engine (tree_demo (s2b "{% for k, v in user %}{{ k }}={{ v | upper }}{{ loop.last }}{% endfor %}")) (compile_demo (s2b "{% for k, v in user %}{{ k }}={{ v | upper }}{{ loop.last }}{% endfor %}"))) by ready.
  assert (T2 : compiled_from default_syntax demo_engine (tree_demo (s2b "{{ k }}={{ v | upper }}{{ loop.last }}")) (compile_demo (s2b "{{ k }}={{ v | upper }}{{ loop.last }}"))) by ready.
  set (body := tree_demo (s2b "{{ k }}={{ v | upper }}{{ loop.last }}")) in *.
  assert (E1 : tree_demo (s2b "{% for k, v in user %}{{ k }}={{ v | upper }}{{ loop.last }}{% endfor %}") = [PForEntries (s2b "k") (s2b "v") (PAtom (PVar (s2b "user") [])) body]) by (vm_compute; reflexivity). rewrite E1 in T1.
  refine (C54_for_entries default_syntax demo_engine default_user_syntax default_closers_ok demo_for demo_library _ _ _ _ _ _ demo_map
    (Borrowed (VMap [(s2b "name", VStr (s2b "ann"))])) [(s2b "name", VStr (s2b "ann"))] r [Ok (s2b "name=ANNtrue")] T1 _ _ eq_refl (or_introl eq_refl) _ _ _ T2 R eq_refl _).
  - apply confinedb_all. vm_compute. reflexivity.
  - vm_compute. reflexivity.
  - discriminate.
  - discriminate.
  - pose proof demo_by_value as B. assert (Eb : body = [PShow (PAtom (PVar (s2b "k") [])); PText (s2b "="); PShow (PCall (PAtom (PVar (s2b "v") [])) (s2b "upper") None); PShow (PAtom (PVar (s2b "loop") [mkpstep false (KName (s2b "last"))]))]) by (vm_compute; reflexivity).
    clearbody body. subst body. revert B. generalize demo_engine. intros e B. unfold used_so. cbn [in_block in_stmt in_expr entry_use].
    assert (N : forall a b : str, a = b -> str_eqb a b = false -> False) by (intros a b -> H; rewrite eqb_refl in H; discriminate H).
    split; [|split; [exact I|split; [split; [|exact I]|split; [|exact I]]]].
    + split; [intros E; exact (False_ind _ (N _ _ E eq_refl))|]. split; [intros _; split; [exact B|reflexivity]|intros E; exact (False_ind _ (N _ _ E eq_refl))].
    + split; [intros E; exact (False_ind _ (N _ _ E eq_refl))|]. split; [intros E; exact (False_ind _ (N _ _ E eq_refl))|intros _ _; constructor].
    + split; [intros _; split; [exact B|right; eauto]|]. split; [intros E; exact (False_ind _ (N _ _ E eq_refl))|intros E; exact (False_ind _ (N _ _ E eq_refl))].
  - intros [|k] v rk Hv Hk; cbn [nth_error] in Hv, Hk; [|destruct k; discriminate Hk].
    injection Hv as <-. injection Hk as <-. computes (@Ok error _ (s2b "name=ANNtrue")).
Qed.
