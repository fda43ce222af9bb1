(** Templates consisting of one expression tag of the default syntax. *)
From Verif Require Import Base Utf8 Ext Errors Syntax AhoCorasick SearchSpec SyntaxSpec Value Ast Lexer LexSpec Wp
  GrammarSpec Parser AstOk Compiler CompileProof ParseMain Fmt Stack Filters Render Engine EngineSpec CompileFacts Props2.

Section Wrap.
Context `{X : Ext}.
Notation sx := default_syntax.

(** Tokens with their texts, and the spans of such tokens one after the other. *)
Fixpoint lay (at_ : nat) (l : list (token * str)) : list tok :=
  match l with [] => [] | (t, s) :: l' => (t, mkspan at_ (at_ + length s)) :: lay (at_ + length s) l' end.
Definition texts (l : list (token * str)) : str := concat (map snd l).

(** No delimiter at the start. *)
Definition nodel (r : str) : Prop := forall k p t, In (k, p) sx -> r <> p ++ t.
Lemma nodel_first b r : ~ In b [x7b; x7d; x25; x23; x2d] -> nodel (b :: r).
Proof.
  intros H k p t Hi E. apply H. clear H. vm_compute in Hi.
  repeat (destruct Hi as [Hi|Hi]; [injection Hi as _ <-; cbn in E; injection E as -> _; cbn; tauto|]). destruct Hi.
Qed.
Lemma nodel_minus b r : ~ In b [x7d; x25; x23] -> nodel (x2d :: b :: r).
Proof.
  intros H k p t Hi E. apply H. clear H. vm_compute in Hi.
  repeat (destruct Hi as [Hi|Hi]; [injection Hi as _ <-; cbn in E; (discriminate E || (injection E as -> _; cbn; tauto))|]). destruct Hi.
Qed.

(** [run path l rest]: [l] are tokens of a tag, and [rest] comes after. *)
Inductive run : bool -> list (token * str) -> str -> Prop :=
| run_nil path rest : run path [] rest
| run_cons path t s l rest : s <> [] -> valid_utf8 s -> nodel (s ++ texts l ++ rest) -> lexeme path t s ->
    maximal t (texts l ++ rest) -> run (after_tok path t) l rest -> run path ((t, s) :: l) rest.
Lemma run_valid path l rest : run path l rest -> valid_utf8 (texts l).
Proof. induction 1; [apply valid_nil|]. cbn. now apply valid_app. Qed.

Lemma occurs_skip p pre r : occurs_at p (pre ++ r) (length pre) -> exists t, r = p ++ t.
Proof. intros (_ & t & E). rewrite skipn_app, skipn_all, Nat.sub_diag in E. eauto. Qed.
Lemma sub_mid (a b c : str) : sub (a ++ b ++ c) (length a) (length a + length b) = b.
Proof.
  unfold sub. rewrite skipn_app, skipn_all, Nat.sub_diag. cbn [skipn app]. replace (length a + length b - length a) with (length b) by lia.
  rewrite firstn_app, firstn_all, Nat.sub_diag. cbn. apply app_nil_r.
Qed.
Lemma skip_end (a c : str) : skipn (length a) (a ++ c) = c.
Proof. rewrite skipn_app, skipn_all, Nat.sub_diag. reflexivity. Qed.

Fixpoint path_after (path : bool) (l : list (token * str)) : bool :=
  match l with [] => path | (t, _) :: l' => path_after (after_tok path t) l' end.
Lemma run_tiling full e path l rest ts : run path l rest -> valid_utf8 rest -> forall pre,
  tiling sx (pre ++ texts l ++ rest) full (length pre + length (texts l)) (MTag e (path_after path l)) ts ->
  tiling sx (pre ++ texts l ++ rest) full (length pre) (MTag e path) (lay (length pre) l ++ ts).
Proof.
  intros H Hr. induction H as [path rest|path t s l rest Hs Hv Hd Hl Hm H IH]; intros pre Ht.
  - cbn [lay texts map concat length app path_after] in *. now rewrite Nat.add_0_r in Ht.
  - cbn [lay app]. assert (Vl : valid_utf8 (texts l ++ rest)) by (apply valid_app; auto; eapply run_valid; eauto).
    assert (Esrc : pre ++ texts ((t, s) :: l) ++ rest = (pre ++ s) ++ texts l ++ rest) by (cbn; now rewrite <- !app_assoc).
    assert (Esrc2 : pre ++ texts ((t, s) :: l) ++ rest = pre ++ s ++ texts l ++ rest) by (cbn; now rewrite <- !app_assoc).
    pose proof (app_length pre s) as Elen.
    apply ti_tok.
    + destruct s; [now destruct Hs|]. cbn. lia.
    + rewrite Esrc, !app_length. apply Nat.le_add_r.
    + rewrite Esrc2. apply boundary_app. now apply valid_app.
    + rewrite Esrc, <- Elen. now apply boundary_app.
    + intros k p Hi Ho. rewrite Esrc2 in Ho. apply occurs_skip in Ho as (t' & E). exact (Hd k p t' Hi E).
    + rewrite Esrc2, sub_mid. exact Hl.
    + rewrite Esrc, <- Elen, skip_end. exact Hm.
    + rewrite Esrc, <- Elen. apply IH; auto. rewrite <- Esrc. cbn [path_after] in Ht.
      replace (length (pre ++ s) + length (texts l)) with (length pre + length (texts ((t, s) :: l))); [exact Ht|].
      unfold texts. cbn. rewrite !app_length. lia.
Qed.

(** ** The tag *)
Lemma best_here p rest k pre before after : sx = before ++ (k, p) :: after -> (forall k' p', In (k', p') before -> p' <> p) ->
  (forall k' p' t, In (k', p') sx -> p ++ rest = p' ++ t -> length p' <= length p) ->
  tag_at sx (pre ++ p ++ rest) k (length pre) (length pre + length p).
Proof.
  intros E Hb Hl. assert (L : length (pre ++ p ++ rest) = length pre + (length p + length rest)) by (now rewrite !app_length).
  assert (O : occurs_at p (pre ++ p ++ rest) (length pre)) by (split; [lia|]; exists rest; apply skip_end).
  split; [lia|]. split; [lia|]. split; [lia|]. split; [auto|]. split.
  - intros k' p' Hi Ho. apply occurs_skip in Ho as (t & Et). specialize (Hl k' p' t Hi Et). lia.
  - exists before, p, after. split; [exact E|]. split; [exact O|]. split; [lia|exact Hb].
Qed.
Definition tag (l : list (token * str)) : str := s2b "{{" ++ texts l ++ s2b "}}".
Definition tag_tokens (l : list (token * str)) : list tok :=
  (TBeginExpr, mkspan 0 2) :: lay 2 l ++ [(TEndExpr, mkspan (2 + length (texts l)) (4 + length (texts l)))].
Lemma tag_tiling l : hd_error (texts l) = Some x20 -> run false l (s2b "}}") -> tiling sx (tag l) true 0 (MText false) (tag_tokens l).
Proof.
  intros Hh Hr. unfold tag_tokens, tag.
  assert (O : tag_at sx (s2b "{{" ++ texts l ++ s2b "}}") BeginExprK 0 2).
  { apply (best_here (s2b "{{") (texts l ++ s2b "}}") BeginExprK [] [] (tl sx)); [reflexivity|intros ? ? []|].
    destruct (texts l) as [|b r]; [discriminate|]. injection Hh as ->. intros k' p' t Hi E. vm_compute in Hi.
    change (s2b "{{") with [x7b; x7b] in *.
    repeat (destruct Hi as [Hi|Hi]; [injection Hi as _ <-; cbn in E |- *; first [lia|discriminate E]|]). destruct Hi. }
  refine (ti_open sx _ true 0 2 BeginExprK false _ eq_refl O _). cbn [after_open tag_token closing_of].
  apply (run_tiling true TEndExpr false l (s2b "}}") _ Hr (asciib_valid (s2b "}}") eq_refl) (s2b "{{")). cbn [length s2b].
  change (length (s2b "{{")) with 2. 
  assert (C : tag_at sx ((s2b "{{" ++ texts l) ++ s2b "}}" ++ []) EndExprK (length (s2b "{{" ++ texts l)) (length (s2b "{{" ++ texts l) + 2)).
  { apply (best_here (s2b "}}") [] EndExprK (s2b "{{" ++ texts l) (firstn 1 sx) (skipn 2 sx)); [reflexivity| |].
    - intros k' p' Hi. vm_compute in Hi. repeat (destruct Hi as [Hi|Hi]; [injection Hi as _ <-; discriminate|]). destruct Hi.
    - intros k' p' t Hi E. vm_compute in Hi. change (s2b "}}") with [x7d; x7d] in *.
      repeat (destruct Hi as [Hi|Hi]; [injection Hi as _ <-; cbn in E |- *; first [lia|discriminate E]|]). destruct Hi. }
  rewrite app_nil_r, <- app_assoc in C. rewrite app_length in C. change (length (s2b "{{")) with 2 in C.
  replace (4 + length (texts l)) with (2 + length (texts l) + 2) by lia.
  refine (ti_close sx _ true _ _ EndExprK _ _ eq_refl C _ _); [left; eexists; reflexivity|].
  apply ti_end. intros _. rewrite !app_length. change (length (s2b "{{")) with 2. change (length (s2b "}}")) with 2. lia.
Qed.
Lemma tag_valid l : run false l (s2b "}}") -> valid_utf8 (tag l).
Proof. intros H. unfold tag. apply valid_app; [now apply asciib_valid|]. apply valid_app; [eapply run_valid; eauto|now apply asciib_valid]. Qed.
Lemma lay_text a l rest t sp : In (t, sp) (lay (length a) l) -> forall source, source = a ++ texts l ++ rest ->
  exists s, In (t, s) l /\ txt source sp = s.
Proof.
  revert a. induction l as [|[t0 s0] l IH]; intros a Hi source Hsrc; [destruct Hi|]. cbn [lay] in Hi. destruct Hi as [E|Hi].
  - injection E as -> <-. exists s0. split; [now left|]. unfold txt. cbn [sp_m sp_n]. subst source. cbn. rewrite <- app_assoc. apply sub_mid.
  - rewrite <- app_length in Hi. destruct (IH (a ++ s0) Hi source) as (s & H1 & H2); [subst source; cbn; now rewrite <- !app_assoc|]. exists s. split; [now right|exact H2].
Qed.

(** Compiling such a template: exactly when the tokens are an expression. *)
Section Compile.
Variable e : engine.
Hypothesis He : engine_for sx e.
Variable l : list (token * str).
Hypothesis Hh : hd_error (texts l) = Some x20.
Hypothesis Hr : run false l (s2b "}}").
Notation source := (tag l).
Notation inner_tokens := (nonspace (lay 2 l)).

Lemma tag_nonspace : nonspace (tag_tokens l) = (TBeginExpr, mkspan 0 2) :: inner_tokens ++ [(TEndExpr, mkspan (2 + length (texts l)) (4 + length (texts l)))].
Proof. unfold tag_tokens, nonspace. cbn [List.filter fst is_space negb]. now rewrite filter_app. Qed.
(** The statement: the expression, and the tag. *)
Definition tag_stmt (ex : expr) : stmt := SInline ex (mkspan 0 (4 + length (texts l))).
Lemma tag_compiles ex : g_expr source inner_tokens ex -> engine_compile source e = Ok (mktemplate source (cinline ex)).
Proof.
  intros Hg. unfold engine_compile. apply (compile_iff _ default_user_syntax _ (engine_searcher _ _ He) _ (tag_valid l Hr) (default_trims_ok _)).
  exists [tag_stmt ex]. split; [|cbn [cscope cstmt app]; now rewrite app_nil_r].
  exists (tag_tokens l). split; [now apply tag_tiling|]. rewrite tag_nonspace.
  rewrite <- (app_nil_r ((TBeginExpr, mkspan 0 2) :: inner_tokens ++ [(TEndExpr, mkspan (2 + length (texts l)) (4 + length (texts l)))])).
  apply gsc_stmt; [|constructor]. unfold tag_stmt.
  replace (mkspan 0 (4 + length (texts l))) with (span_of ((TBeginExpr, mkspan 0 2) :: inner_tokens ++ [(TEndExpr, mkspan (2 + length (texts l)) (4 + length (texts l)))])).
  - now apply gs_inline.
  - unfold span_of. cbn [rev]. rewrite rev_app_distr. reflexivity.
Qed.
Lemma app_last_inv {A} (a b : list A) x y : a ++ [x] = b ++ [y] -> a = b /\ x = y.
Proof. apply app_inj_tail. Qed.
Definition no_end (ts : list tok) : Prop := Forall (fun t => fst t <> TEndExpr) ts.
Lemma split_end (a b r : list tok) x y : no_end a -> fst x = TEndExpr -> fst y = TEndExpr -> no_end b -> a ++ [x] = b ++ y :: r -> a = b /\ x = y /\ r = [].
Proof.
  intros Ha Hx Hy Hb. revert b Hb. induction Ha as [|t a Ht Ha IH]; intros [|t' b] Hb E; cbn in E.
  - injection E as -> <-. auto.
  - injection E as -> E. inversion Hb as [|? ? Hc _]. now destruct Hc.
  - injection E as -> _. now destruct Ht.
  - injection E as -> E. inversion Hb; subst. destruct (IH b) as (-> & -> & ->); auto.
Qed.
Lemma no_end_run path l0 rest : run path l0 rest -> forall at_, no_end (nonspace (lay at_ l0)).
Proof.
  induction 1 as [path rest|path t s l0 rest A B C D E F IH]; intros at_; [constructor|].
  cbn [lay]. unfold nonspace. cbn [List.filter]. destruct (negb _); [|apply IH].
  constructor; [|apply IH]. cbn. intros ->. exact D.
Qed.
Lemma no_end_lay at_ : no_end (nonspace (lay at_ l)).
Proof. exact (no_end_run _ _ _ Hr at_). Qed.
Lemma no_end_nonspace ts ts' : no_end ts -> Forall (fun t => fst t <> TEndExpr) ts' -> no_end (ts ++ ts').
Proof. intros. now apply Forall_app. Qed.
Lemma g_expr_no_end ts ex : g_expr source ts ex -> no_end ts.
Proof.
  assert (A : forall ts a, g_access source ts a -> no_end ts) by (intros ? ? []; repeat constructor; discriminate).
  assert (M : forall ts a, g_members source ts a -> no_end ts).
  { induction 1; [constructor|..]; (constructor; [discriminate|]); apply Forall_app; split; eauto; eapply A; eauto. }
  assert (B : forall ts b, g_base source ts b -> no_end ts).
  { intros ? ? []; try (constructor; [discriminate|]); try constructor; try discriminate; try constructor. eapply M; eauto. }
  assert (R : forall ts b, g_args source ts b -> no_end ts).
  { induction 1; [eapply B; eauto|]. apply Forall_app. split; [eapply B; eauto|]. constructor; [discriminate|auto]. }
  induction 1 as [ts b Hb|ts e0 p n H IH|ts e0 p n c ts' bs H IH Ha].
  - eapply B; eauto.
  - apply Forall_app. split; auto. repeat constructor; discriminate.
  - apply Forall_app. split; auto. do 3 (constructor; [discriminate|]). eapply R; eauto.
Qed.
Lemma tag_block_begin i t : tag_block i t -> exists b r, t = (TBeginBlock, b) :: r.
Proof. intros (b & e0 & ->). eauto. Qed.
Lemma tag_rejects t : engine_compile source e = Ok t -> exists ex, g_expr source inner_tokens ex.
Proof.
  intros Ec. unfold engine_compile in Ec. apply (compile_iff _ default_user_syntax _ (engine_searcher _ _ He) _ (tag_valid l Hr) (default_trims_ok _)) in Ec as (s & (ts & Ht & Hg) & _).
  rewrite (tiling_unique _ _ ts _ default_user_syntax (default_trims_ok _) (tag_valid l Hr) Ht (tag_tiling l Hh Hr)), tag_nonspace in Hg.
  inversion Hg as [|b r e0 ts0 l0 H E|ts0 s0 ts' l0 Hs Hg' E]; subst.
  inversion Hs as [sp Es|b ts1 ex en Hx Es|t1 k sp s1 Hk _ Hb Es|t1 k sp s1 w ts1 ex Hk _ _ _ Hb Es|t1 k ts1 n c body thn rest els _ _ Hb _ _ Es|t1 k vs vars i ts1 ex body l1 t' k' _ _ _ _ Hb _ _ _ Es|t1 k ts1 ex a n body l1 t' k' _ _ _ Hb _ _ _ Es]; subst;
    try (apply tag_block_begin in Hb as (b0 & r0 & ->); cbn in E; discriminate E).
  - discriminate E.
  - cbn [app] in E. injection E as _ E. rewrite <- app_assoc in E. cbn [app] in E. symmetry in E.
    apply split_end in E as (<- & _ & _); auto; [eexists; exact Hx|apply no_end_lay|eapply g_expr_no_end; eauto].
Qed.
End Compile.
End Wrap.
