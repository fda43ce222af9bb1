(** The parser follows the automaton, and its errors are where the automaton stops. *)
From Verif Require Import Base Utf8 Ext Errors Syntax AhoCorasick SearchSpec SyntaxSpec Value Ast Lexer LexSpec Wp TrimProof
  LexProof GrammarSpec LayoutSpec BlameSpec Parser LitProof TokStream ParseProof CompileErr Words Automaton LitBlame.

Section Blame.
Context `{X : Ext}.
Variable sx : syntax.
Hypothesis Hsx : user_syntax sx.
Variable sr : searcher.
Variable source : str.
Hypothesis Hsrc : valid_utf8 source.
Hypothesis Hne : source <> [].

Notation W := (words source).
Notation S_ := (sense source).
Notation txt := (txt source).
Notation ok := (ok sx sr source).
Notation err_at := (err_at source).

(** Silent steps inside of a tag. *)
Fixpoint irun (s : q) (ws : list wd) (s' : q) : Prop :=
  match ws with [] => s' = s | w :: ws' => exists s1, step s w s1 None /\ s1 <> QText /\ irun s1 ws' s' end.
Lemma irun_app s a b s1 s' : irun s a s1 -> irun s1 b s' -> irun s (a ++ b) s'.
Proof.
  revert s. induction a as [|w a IH]; intros s; cbn [app irun]; [now intros ->|]. intros (s2 & H1 & H2 & H3) Hb. exists s2. auto.
Qed.
Lemma irun_srun s a s' : irun s a s' -> srun s a s'.
Proof. revert s. induction a as [|w a IH]; intros s; cbn [irun srun]; auto. intros (s2 & H1 & H2 & H3). eauto. Qed.
Lemma irun_inner s a s' : irun s a s' -> s <> QText -> Forall plain a /\ s' <> QText.
Proof.
  revert s. induction a as [|w a IH]; intros s; cbn [irun]; [intros -> N; auto|]. intros (s2 & H1 & H2 & H3) N. destruct (IH _ H3 H2) as [F N']. split; auto. constructor; auto.
  now apply (step_kind _ _ _ _ H1 N).
Qed.

Definition nostep (s : q) (t : tok) : Prop := forall s' o, ~ step s (S_ t) s' o.
Lemma nostep_next s t : nextq s (S_ t) = None -> nostep s t.
Proof. intros E s' o (H & _). congruence. Qed.
Lemma nostep_fits s t : ~ fits s (S_ t) -> nostep s t.
Proof. intros N s' o (_ & H & _). auto. Qed.

(** ** Messages *)
(** What the automaton could read in the state [s]. *)
Inductive wants (s : q) : str -> Prop :=
| wt_token t x s1 o : step s (t, x) s1 o -> wants s (s2b (name_of t))
| wt_expr : (forall ws, w_base ws -> exists s1, s1 <> QText /\ srun s ws s1) -> wants s (s2b "expression")
| wt_access : (forall x, exists s1, s1 <> QText /\ step s (TIdent, x) s1 None) -> (forall x v, index_lit x v -> exists s1, s1 <> QText /\ step s (TIndex, x) s1 None) ->
    wants s (s2b "identifier or index").
Inductive grumble (s : q) (t : tok) : str -> Prop :=
| gr_expected what : wants s what -> what <> s2b (name_of (fst t)) -> grumble s t (s2b "expected " ++ what ++ s2b ", found " ++ s2b (name_of (fst t)))
| gr_keyword k s1 : fst t = TKeyword -> step s (key k) s1 None -> grumble s t (s2b "expected keyword `" ++ s2b k ++ s2b "`, found keyword `" ++ txt (snd t) ++ s2b "`")
| gr_unexpected : fst t = TKeyword -> grumble s t (s2b "unexpected keyword `" ++ txt (snd t) ++ s2b "`")
| gr_index v : fst t = TIndex -> numeral 10 (txt (snd t)) v -> (u64_max < v)%Z -> grumble s t (s2b "base 10 literal out of range for unsigned 64-bit integer").
Lemma human_name t : token_human t = s2b (name_of t).
Proof. now destruct t. Qed.
Lemma name_inj t t' : s2b (name_of t) = s2b (name_of t') -> t = t'.
Proof. destruct t, t'; intros H; reflexivity || (exfalso; vm_compute in H; discriminate H). Qed.

(** The automaton stops after [used] in the state [s]; the error [e] is there. *)
Definition halt (s : q) (used rest : list tok) (fin : option error) (e : error) : Prop :=
  match rest with
  | t :: _ => nostep s t /\
      ((exists why, err_at e (snd t) why /\ grumble s t why) \/
       exists lit sp why, err_at e sp why /\ marks source lit sp why /\ ~ fits s (S_ t) /\
         (lit = [t] \/ exists before sg, used = before ++ [sg] /\ (fst sg = TMinus \/ fst sg = TPlus) /\ lit = [sg; t]))
  | [] => match fin with
          | None => exists what, err_at e (mkspan (length source) (length source)) (s2b "expected " ++ what ++ s2b ", found EOF") /\ (wants s what \/ what = s2b "token")
          | Some e' => e = e' end
  end.
Lemma halt_app s u used rest fin e : halt s used rest fin e -> halt s (u ++ used) rest fin e.
Proof.
  destruct rest as [|t r]; cbn [halt]; auto. intros (H1 & [H2|(lit & sp & why & H2 & H3 & H4 & H5)]); split; auto. right. exists lit, sp, why. repeat split; auto.
  destruct H5 as [H5|(b & sg & -> & H5)]; auto. right. exists (u ++ b), sg. rewrite app_assoc. auto.
Qed.

Definition spec {A} (s : q) (ts : list tok) (fin : option error) (x : res A) (Q : A -> q -> list tok -> Prop) : Prop :=
  match x with
  | Ok a => exists used rest s', ts = used ++ rest /\ irun s (W used) s' /\ Q a s' rest
  | Err e => exists used rest s', ts = used ++ rest /\ irun s (W used) s' /\ halt s' used rest fin e
  | _ => True
  end.

Lemma spec_ok {A} s ts fin (a : A) (Q : A -> q -> list tok -> Prop) : Q a s ts -> spec s ts fin (Ok a) Q.
Proof. intros H. exists [], ts, s. repeat split; auto. Qed.
Lemma spec_mono {A} s ts fin (x : res A) (Q Q' : A -> q -> list tok -> Prop) : spec s ts fin x Q -> (forall a s' r, Q a s' r -> Q' a s' r) -> spec s ts fin x Q'.
Proof. destruct x; cbn; auto. intros (u & r & s' & H1 & H2 & H3) H. exists u, r, s'. auto. Qed.
Lemma spec_pre {A} s s1 u ts fin (x : res A) Q : irun s (W u) s1 -> spec s1 ts fin x Q -> spec s (u ++ ts) fin x Q.
Proof.
  intros R. destruct x; cbn; auto; intros (u' & r & s' & -> & H2 & H3); exists (u ++ u'), r, s'; (split; [now rewrite app_assoc|]);
    (split; [rewrite words_app; eapply irun_app; eauto|]); auto. now apply halt_app.
Qed.
Lemma spec_bind {A B} s ts fin (x : res A) (f : A -> res B) (Q : A -> q -> list tok -> Prop) Q' : spec s ts fin x Q -> (forall a s' r, Q a s' r -> spec s' r fin (f a) Q') ->
  spec s ts fin (bind x f) Q'.
Proof.
  intros H Hf. destruct x as [a|e| |]; cbn [bind]; auto. destruct H as (u & r & s' & -> & H2 & H3). apply (spec_pre s s'); auto.
Qed.
Lemma spec_pure {A B} s ts fin (x : res A) (f : A -> res B) Q : (forall e, x <> Err e) -> (forall a, x = Ok a -> spec s ts fin (f a) Q) -> spec s ts fin (bind x f) Q.
Proof. intros N H. destruct x as [a|e| |]; cbn [bind]; [auto|now destruct (N e)|exact I|exact I]. Qed.
Lemma index_no_err sp e : @index_span error source sp <> Err e.
Proof. unfold index_span, slice. destruct (_ && _); discriminate. Qed.
Lemma spec_step {A} s s1 t ts fin (x : res A) Q : step s (S_ t) s1 None -> s1 <> QText -> spec s1 ts fin x Q -> spec s (t :: ts) fin x Q.
Proof. intros H N Hx. apply (spec_pre s s1 [t]); auto. cbn. eauto. Qed.
Lemma spec_err {A} s t ts fin reason Q : nostep s t -> grumble s t reason -> @spec A s (t :: ts) fin (err_syntax reason source (snd t)) Q.
Proof.
  intros N G. destruct (err_syntax reason source (snd t)) as [a|e| |] eqn:E; try exact I.
  - unfold err_syntax in E. destruct (build_pretty _ _); cbn in E; discriminate.
  - exists [], (t :: ts), s. repeat split; auto. left. exists reason. split; auto. eapply err_syntax_at; eauto.
Qed.
Lemma spec_eof {A} s reason Q : wants s reason \/ reason = s2b "token" -> @spec A s [] None (err_unexpected_eof source reason) Q.
Proof.
  intros Hw. unfold err_unexpected_eof. match goal with |- context [err_syntax ?r source ?sp] => destruct (err_syntax r source sp : res A) as [a|e| |] eqn:E end; try exact I.
  - unfold err_syntax in E. destruct (build_pretty _ _); cbn in E; discriminate.
  - exists [], [], s. repeat split; auto. exists reason. split; auto. eapply err_syntax_at; eauto.
Qed.
Lemma step_of s t s1 : nextq s (S_ t) = Some (s1, None) -> fits s (S_ t) -> step s (S_ t) s1 None.
Proof. intros H F. split; auto. split; auto. apply clean_sense. Qed.
Definition literal (t : token) : bool := match t with TNumber | TString | TIndex => true | _ => false end.
Lemma fits_of s t : literal (fst t) = false -> fits s (S_ t).
Proof. unfold fits. cbn. destruct (fst t); discriminate || auto. Qed.

Lemma wants_token s t s1 o : literal t = false -> (forall sp, nextq s (S_ (t, sp)) = Some (s1, o)) -> wants s (token_human t).
Proof.
  intros Hl H. rewrite human_name. apply (wt_token s t (snd (S_ (t, mkspan 0 0))) s1 o). split; [exact (H (mkspan 0 0))|]. split; [|apply (clean_sense source (t, mkspan 0 0))].
  exact (fits_of s (t, mkspan 0 0) Hl).
Qed.
Lemma grumble_expected s tk t : wants s (token_human tk) -> fst t <> tk -> grumble s t (s2b "expected " ++ token_human tk ++ s2b ", found " ++ token_human (fst t)).
Proof.
  intros H N. rewrite (human_name (fst t)). apply gr_expected; auto. rewrite human_name. intros E. apply name_inj in E. congruence.
Qed.
Lemma wants_key s k s1 : nextq s (key k) = Some (s1, None) -> step s (key k) s1 None.
Proof. intros H. split; auto. split; [exact I|]. intros D. discriminate D. Qed.
Lemma wants_keyword s k s1 : nextq s (key k) = Some (s1, None) -> wants s (token_human TKeyword).
Proof. intros H. rewrite human_name. eapply wt_token. exact (wants_key _ _ _ H). Qed.

(** ** Reading tokens *)
Lemma spec_next {A} s p ts fin (f : option tok * parser -> res A) Q : ok p ts fin ->
  (forall t r p', ts = t :: r -> ok p' r fin -> spec s (t :: r) fin (f (Some t, p')) Q) ->
  (forall p', ts = [] -> fin = None -> ok p' [] None -> spec s [] None (f (None, p')) Q) -> spec s ts fin (bind (p_next sr source p) f) Q.
Proof.
  intros H H1 H2. destruct ts as [|t r].
  - destruct fin as [e|].
    + rewrite (ok_next_err _ Hsx _ _ Hsrc _ _ H). cbn [bind]. exists [], [], s. repeat split.
    + destruct (ok_next_nil _ Hsx _ _ Hsrc _ H) as (p' & -> & H'). cbn [bind]. auto.
  - destruct (ok_next _ Hsx _ _ Hsrc _ _ _ _ H) as (p' & -> & H'). cbn [bind]. auto.
Qed.
Lemma spec_peek {A} s p ts fin (f : option tok * parser -> res A) Q : ok p ts fin ->
  (forall p', ok p' ts fin -> spec s ts fin (f (hd_error ts, p')) Q) -> spec s ts fin (bind (p_peek sr source p) f) Q.
Proof.
  intros H H1. destruct ts as [|t r].
  - destruct fin as [e|].
    + rewrite (ok_peek_err _ Hsx _ _ Hsrc _ _ H). cbn [bind]. exists [], [], s. repeat split.
    + destruct (ok_peek_nil _ Hsx _ _ Hsrc _ H) as (p' & -> & H'). cbn [bind]. exact (H1 p' H').
  - destruct (ok_peek _ Hsx _ _ Hsrc _ _ _ _ H) as (p' & -> & H'). cbn [bind]. exact (H1 p' H').
Qed.
Lemma spec_bassoc {A B C} s ts fin (x : res A) (f : A -> res B) (g : B -> res C) Q :
  spec s ts fin (bind x (fun a => bind (f a) g)) Q -> spec s ts fin (bind (bind x f) g) Q.
Proof. now destruct x. Qed.
Lemma spec_is_next {A} s p ts fin tk (f : bool * parser -> res A) Q : ok p ts fin ->
  (forall p' sp r, ts = (tk, sp) :: r -> ok p' ts fin -> spec s ts fin (f (true, p')) Q) ->
  (forall p', (forall t r, ts = t :: r -> fst t <> tk) -> ok p' ts fin -> spec s ts fin (f (false, p')) Q) -> spec s ts fin (bind (is_next sr source p tk) f) Q.
Proof.
  intros H H1 H2. unfold is_next. apply spec_bassoc. apply spec_peek; auto. intros p' H'. cbn [bind]. destruct ts as [|[t sp] r]; cbn [hd_error].
  - apply H2; auto. discriminate.
  - destruct (token_eqb t tk) eqn:E.
    + apply token_eqb_eq in E. subst t. eapply H1; eauto.
    + apply H2; auto. intros t' r' E'. injection E' as <- _. cbn. intros ->. rewrite (proj2 (token_eqb_eq tk tk) eq_refl) in E. discriminate.
Qed.
Lemma spec_is_kw {A} s p ts fin k (f : bool * parser -> res A) Q : ok p ts fin ->
  (forall p' sp r, ts = (TKeyword, sp) :: r -> txt sp = s2b (kw_str k) -> ok p' ts fin -> spec s ts fin (f (true, p')) Q) ->
  (forall p', (forall t r, ts = t :: r -> is_kw (S_ t) (kw_str k) = false) -> ok p' ts fin -> spec s ts fin (f (false, p')) Q) ->
  spec s ts fin (bind (is_next_keyword sr source p k) f) Q.
Proof.
  intros H H1 H2. unfold is_next_keyword. apply spec_bassoc. apply spec_peek; auto. intros p' H'. destruct ts as [|[t sp] r]; cbn [hd_error].
  - cbn [bind]. apply H2; auto. discriminate.
  - assert (D : t = TKeyword \/ t <> TKeyword) by (destruct t; (left; reflexivity) || (right; discriminate)). destruct D as [->|N].
    + destruct (ok_keyword _ _ _ _ _ _ _ H) as (-> & k' & E1 & E2). cbn [bind]. rewrite E1. cbn [bind]. destruct (keyword_eqb k' k) eqn:E.
      * apply keyword_eqb_eq in E. subst k'. eapply H1; eauto.
      * apply H2; auto. intros t' r' E'. injection E' as <- _. unfold is_kw. cbn. rewrite E2. destruct (str_eqb _ _) eqn:Es; auto. apply str_eqb_eq in Es. apply kw_str_inj in Es. subst k'.
        rewrite (proj2 (keyword_eqb_eq k k) eq_refl) in E. discriminate.
    + assert (G : spec s ((t, sp) :: r) fin (f (false, p')) Q).
      { apply H2; auto. intros t' r' E'. injection E' as <- _. unfold is_kw. cbn. now destruct t. }
      destruct t; try exact G. contradiction.
Qed.
Lemma spec_any {A} s p ts fin (f : token * span * parser -> res A) Q : ok p ts fin ->
  (forall t sp r p', ts = (t, sp) :: r -> ok p' r fin -> spec s ts fin (f (t, sp, p')) Q) -> spec s ts fin (bind (parse_any sr source p) f) Q.
Proof.
  intros H H1. unfold parse_any. apply spec_bassoc. apply spec_next; auto.
  - intros [t sp] r p' E H'. cbn [bind]. subst ts. eapply H1; eauto.
  - intros p' -> -> H'. eapply spec_bind; [apply spec_eof; now right|]. intros a s' r Q0. exact Q0.
Qed.
Lemma spec_expect {A} s s1 p ts fin tk (f : span * parser -> res A) Q : ok p ts fin -> literal tk = false -> s1 <> QText ->
  (forall sp, nextq s (S_ (tk, sp)) = Some (s1, None)) ->
  (forall t r, ts = t :: r -> fst t <> tk -> nextq s (S_ t) = None) ->
  (forall sp r p', ts = (tk, sp) :: r -> ok p' r fin -> spec s1 r fin (f (sp, p')) Q) -> spec s ts fin (bind (expect sr source p tk) f) Q.
Proof.
  intros H Hl N Hs Hn Hf. pose proof (wants_token s tk s1 None Hl Hs) as Hwt. unfold expect. apply spec_bassoc. apply spec_next; auto.
  - intros [t sp] r p' E H'. destruct (token_eqb t tk) eqn:Et.
    + apply token_eqb_eq in Et. subst t. cbn [bind]. apply (spec_step s s1); [|exact N|].
      * apply step_of; auto. now apply fits_of.
      * eapply Hf; eauto.
    + eapply spec_bind with (Q := fun _ _ _ => False); [|contradiction]. assert (Nt : t <> tk) by (intros ->; rewrite (proj2 (token_eqb_eq tk tk) eq_refl) in Et; discriminate).
      apply (spec_err s (t, sp)); [|now apply grumble_expected]. apply nostep_next, (Hn (t, sp) r); auto.
  - intros p' -> -> H'. eapply spec_bind; [apply spec_eof; now left|]. intros a s' r Q0. exact Q0.
Qed.
Lemma sense_kw sp x : txt sp = s2b x -> S_ (TKeyword, sp) = key x.
Proof. intros E. unfold sense, key. cbn. now rewrite E. Qed.
Lemma spec_parse_kw {A} s p ts fin (f : keyword * span * parser -> res A) Q : ok p ts fin -> wants s (token_human TKeyword) ->
  (forall t r, ts = t :: r -> fst t <> TKeyword -> nextq s (S_ t) = None) ->
  (forall k sp r p', ts = (TKeyword, sp) :: r -> txt sp = s2b (kw_str k) -> ok p' r fin -> spec s ts fin (f (k, sp, p')) Q) ->
  spec s ts fin (bind (parse_keyword sr source p) f) Q.
Proof.
  intros H Hwt Hn Hf. unfold parse_keyword, expect. apply spec_bassoc. apply spec_bassoc. apply spec_next; auto.
  - intros [t sp] r p' E H'. destruct (token_eqb t TKeyword) eqn:Et.
    + apply token_eqb_eq in Et. subst t ts. cbn [bind]. destruct (ok_keyword _ _ _ _ _ _ _ H) as (-> & k' & E1 & E2). cbn [bind]. rewrite E1. cbn [bind]. eapply Hf; eauto.
    + eapply spec_bind with (Q := fun _ _ _ => False); [|contradiction]. assert (Nt : t <> TKeyword) by (intros ->; discriminate).
      apply (spec_err s (t, sp)); [|now apply grumble_expected]. apply nostep_next, (Hn (t, sp) r); auto.
  - intros p' -> -> H'. eapply spec_bind; [apply spec_eof; now left|]. intros a s' r Q0. exact Q0.
Qed.
Lemma spec_expect_kw {A} s s1 p ts fin k (f : span * parser -> res A) Q : ok p ts fin -> s1 <> QText ->
  nextq s (key (kw_str k)) = Some (s1, None) ->
  (forall t r, ts = t :: r -> is_kw (S_ t) (kw_str k) = false -> nextq s (S_ t) = None) ->
  (forall sp r p', ts = (TKeyword, sp) :: r -> ok p' r fin -> spec s1 r fin (f (sp, p')) Q) -> spec s ts fin (bind (expect_keyword sr source p k) f) Q.
Proof.
  intros H N Hs Hn Hf. unfold expect_keyword. apply spec_bassoc. apply spec_parse_kw; auto; [eapply wants_keyword; eauto| |].
  - intros t r E Ht. apply (Hn t r); auto. unfold is_kw. cbn. now destruct (fst t).
  - intros k' sp r p' E Ek H'. destruct (keyword_eqb k' k) eqn:Eq.
    + apply keyword_eqb_eq in Eq. subst k' ts. cbn [bind]. apply (spec_step s s1); [|exact N|].
      * apply step_of; [now rewrite (sense_kw _ _ Ek)|]. now apply fits_of.
      * eapply Hf; eauto.
    + eapply spec_bind with (Q := fun _ _ _ => False); [|contradiction]. subst ts. apply (spec_err s (TKeyword, sp)); [|rewrite !kw_human, <- Ek; eapply gr_keyword; [reflexivity|eapply wants_key; eauto]]. apply nostep_next, (Hn _ _ eq_refl). unfold is_kw. cbn. rewrite Ek.
      destruct (str_eqb _ _) eqn:Es; auto. apply str_eqb_eq in Es. apply kw_str_inj in Es. subst k'. rewrite (proj2 (keyword_eqb_eq k k) eq_refl) in Eq. discriminate.
Qed.

(** ** Expressions *)
Definition exits (k : ctl) (s : q) : Prop := s <> QText /\ forall w x, after_expr k w = Some x -> nextq s w = Some x.
Definition based (k : ctl) (a : bool) (s : q) (ts : list tok) : Prop := exits k s /\ forall t r, ts = t :: r -> nextq s (S_ t) = after_base k a (S_ t).
Definition piped (k : ctl) (s : q) (ts : list tok) : Prop :=
  exits k s /\ forall t r, ts = t :: r -> nextq s (S_ t) = match fst t with TPipe => Some (QPipe k, None) | _ => after_expr k (S_ t) end.
Definition ends (k : ctl) (s : q) (ts : list tok) : Prop := exits k s /\ forall t r, ts = t :: r -> nextq s (S_ t) = after_expr k (S_ t).

Lemma after_base_exit k a w x : after_expr k w = Some x -> after_base k a w = Some x.
Proof. unfold after_base. destruct k; cbn [after_expr]; unfold is_kw; destruct (fst w); congruence. Qed.
Lemma exits_var k a : exits k (QVar k a).
Proof.
  split; [discriminate|]. intros w x E. cbn [nextq]. rewrite (after_base_exit k a w x E). destruct k; cbn [after_expr] in E; unfold is_kw in E; destruct (fst w); congruence.
Qed.
Lemma exits_after k a : exits k (QAfter k a).
Proof. split; [discriminate|]. intros w x E. cbn [nextq]. now apply after_base_exit. Qed.
Lemma exits_filter k : exits k (QFilter k).
Proof.
  split; [discriminate|]. intros w x E. cbn [nextq]. rewrite E. destruct k; cbn [after_expr] in E; unfold is_kw in E; destruct (fst w); congruence.
Qed.

Lemma spec_var k a fuel : forall p ts fin path, ok p ts fin ->
  spec (QVar k a) ts fin (parse_var_loop sr source fuel p path) (fun '(_, p') s' r => ok p' r fin /\ based k a s' r).
Proof.
  induction fuel as [|fuel IH]; intros p ts fin path H; [exact I|]. cbn [parse_var_loop]. apply spec_peek; auto. intros p' H'.
  assert (Acc : forall p2 ts2 (g : access * parser -> res (var * parser)), ok p2 ts2 fin -> (forall a0 p3 r, ok p3 r fin -> spec (QVar k a) r fin (g (a0, p3)) (fun '(_, p') s' r => ok p' r fin /\ based k a s' r)) ->
     spec (QAccess k a) ts2 fin (bind (parse_access sr source p2) g) (fun '(_, p') s' r => ok p' r fin /\ based k a s' r)).
  { intros p2 ts2 g H2 Hg. unfold parse_access. apply spec_bassoc. apply spec_any; auto. intros t sp r p3 -> H3.
    assert (Bad : nextq (QAccess k a) (S_ (t, sp)) = None -> spec (QAccess k a) ((t, sp) :: r) fin (bind (err_unexpected_token source (s2b "identifier or index") t sp) g) (fun '(_, p') s' r => ok p' r fin /\ based k a s' r)).
    { intros E. eapply spec_bind with (Q := fun _ _ _ => False); [|contradiction]. unfold err_unexpected_token. rewrite human_name. apply (spec_err (QAccess k a) (t, sp)); [now apply nostep_next|].
      apply gr_expected; [|cbn [fst]; destruct t; vm_compute; discriminate]. apply wt_access.
      - intros x. exists (QVar k a). split; [discriminate|]. split; [reflexivity|]. split; [exact I|]. intros D. discriminate D.
      - intros x v Hx. exists (QVar k a). split; [discriminate|]. split; [reflexivity|]. split; [exists v; exact Hx|]. intros D. discriminate D. }
    destruct t; try (apply Bad; reflexivity).
    - cbn [bind]. apply (spec_step (QAccess k a) (QVar k a)); [apply step_of; [reflexivity|now apply fits_of]|discriminate|]. now apply Hg.
    - apply spec_bassoc. apply spec_pure; [apply index_no_err|]. intros x Ex.
      assert (Ext : x = txt sp). { rewrite index_span_ok in Ex by (eapply ok_span; eauto). injection Ex as <-. reflexivity. } subst x.
      destruct (parse_usize (txt sp)) as [v|] eqn:E.
      + cbn [bind]. apply (spec_step (QAccess k a) (QVar k a)); [apply step_of; [reflexivity|]|discriminate|now apply Hg]. exists v. now apply parse_usize_spec.
      + eapply spec_bind with (Q := fun _ _ _ => False); [|contradiction]. pose proof (ok_tok _ _ _ _ _ _ _ H2) as Htok. destruct (index_mark source Hsrc sp Htok E) as (z & Hz1 & Hz2).
        apply (spec_err (QAccess k a) (TIndex, sp)); [|eapply gr_index; eauto]. apply nostep_fits. intros (v & Hv). apply parse_usize_spec in Hv. cbn in Hv. congruence. }
  destruct ts as [|[t sp] r]; cbn [hd_error].
  - apply spec_ok. split; auto. split; [apply exits_var|]. discriminate.
  - assert (Stop : t <> TDot -> t <> TQuestionDot -> spec (QVar k a) ((t, sp) :: r) fin (Ok (path, p')) (fun '(_, p') s' r => ok p' r fin /\ based k a s' r)).
    { intros N1 N2. apply spec_ok. split; auto. split; [apply exits_var|]. intros t' r' E. injection E as <- _. cbn. destruct t; try reflexivity; contradiction. }
    destruct t; try (apply Stop; discriminate).
    + apply (spec_expect _ (QAccess k a)); [eassumption|reflexivity|discriminate|try (intros; reflexivity)| |].
      * intros t' r' E Hn. injection E as <- <-. contradiction.
      * intros sp' r' p2 E H2. injection E as -> <-. apply Acc; auto.
    + apply (spec_expect _ (QAccess k a)); [eassumption|reflexivity|discriminate|try (intros; reflexivity)| |].
      * intros t' r' E Hn. injection E as <- <-. contradiction.
      * intros sp' r' p2 E H2. injection E as -> <-. apply Acc; auto.
Qed.

(** A state where a base expression may begin. *)
Definition at_ (k : ctl) (a : bool) (s : q) (ts : list tok) : Prop :=
  signed s = false /\ s <> QText /\ (forall w x, at_base k a w = Some x -> nextq s w = Some x) /\ forall t r, ts = t :: r -> nextq s (S_ t) = at_base k a (S_ t).

Lemma spec_lit {A} s t ts fin (x : res A) e used Q lit sp : x = Err e -> irun s (W used) s -> nostep s t -> (exists why, err_at e sp why /\ marks source lit sp why) -> ~ fits s (S_ t) -> lit = [t] ->
  used = [] -> spec s (t :: ts) fin x Q.
Proof. intros -> R N (why & He & Hm) Hf Hl ->. exists [], (t :: ts), s. repeat split; auto. right. exists lit, sp, why. auto. Qed.
(** Where a base expression may begin, any of them can be read. *)
Lemma at_reads k a s ts : at_ k a s ts -> forall ws, w_base ws -> exists s1, s1 <> QText /\ srun s ws s1.
Proof.
  intros (Hs & _ & Hb & _) ws H. destruct (a_base k a ws H) as (s1 & R & E). exists s1. split; [destruct E; discriminate|].
  destruct ws as [|w ws]; [now inversion H|]. destruct R as (s2 & (S1 & S2 & S3) & R). exists s2. split; [|exact R]. split; [now apply Hb|]. split; [|exact S3].
  unfold fits in *. rewrite Hs. exact S2.
Qed.

Lemma spec_base k a s p ts fin : ok p ts fin -> at_ k a s ts ->
  spec s ts fin (parse_base_expr sr source p) (fun '(_, p') s' r => ok p' r fin /\ based k a s' r).
Proof.
  intros H Hat. pose proof (at_reads _ _ _ _ Hat) as Hreads. destruct Hat as (Hs & _ & _ & Ha). unfold parse_base_expr. apply spec_any; auto. intros t sp r p' -> H'. specialize (Ha _ _ eq_refl).
  pose proof (ok_span _ _ _ _ _ _ _ _ H) as Hsp. pose proof (ok_tok _ _ _ _ _ _ _ H) as Htok.
  assert (Go : forall s1, nextq s (S_ (t, sp)) = Some (s1, None) -> fits s (S_ (t, sp)) -> step s (S_ (t, sp)) s1 None) by (intros; now apply step_of).
  assert (Done : forall b, based k a (QAfter k a) r /\ ok p' r fin -> spec (QAfter k a) r fin (Ok (b : base_expr, p')) (fun '(_, p') s' r => ok p' r fin /\ based k a s' r)) by (intros b [H1 H2]; apply spec_ok; auto).
  assert (Af : forall r, based k a (QAfter k a) r) by (intros r0; split; [apply exits_after|]; intros; reflexivity).
  assert (Hsigned : forall neg : bool, t = (if neg then TMinus else TPlus) ->
    spec s ((t, sp) :: r) fin (let* (nsp, p) := expect sr source p' TNumber in
        let* raw := index_span source nsp in
        let span := combine_span sp nsp in
        let* v := parse_literal_number source raw span (sgn neg) in
        Ok (BLit v span, p)) (fun '(_, p') s' r => ok p' r fin /\ based k a s' r)).
  { intros neg Et. assert (Hst : step s (S_ (t, sp)) (QNum k a neg) None).
    { apply Go; [rewrite Ha; destruct neg; subst t; reflexivity|apply fits_of; destruct neg; subst t; reflexivity]. }
    assert (Hnum : wants (QNum k a neg) (token_human TNumber)).
    { rewrite human_name. destruct (zero_lit neg) as (v & Hv). apply (wt_token _ TNumber (s2b "0") (QAfter k a) None). split; [reflexivity|]. split; [exists v; exact Hv|]. intros D. discriminate D. }
    unfold expect. destruct r as [|[t2 nsp] r2].
    - apply (spec_step s (QNum k a neg)); auto; [discriminate|]. apply spec_bassoc. apply spec_next; auto; [discriminate|]. intros p2 _ -> H2. eapply spec_bind; [apply spec_eof; left; apply Hnum|]. intros a0 s' r0 Q0. exact Q0.
    - destruct (ok_next _ Hsx _ _ Hsrc _ _ _ _ H') as (p2 & -> & H2). cbn [bind]. destruct (token_eqb t2 TNumber) eqn:E2.
      + apply token_eqb_eq in E2. subst t2. cbn [bind]. pose proof (ok_span _ _ _ _ _ _ _ _ H') as Hnsp. rewrite index_span_ok by assumption. cbn [bind]. cbv zeta. fold (txt nsp).
        destruct (signed_inner source Hsrc t sp nsp r2) as (Ec & Hc & Hin); [destruct neg; auto|eapply ok_ordered; eauto|].
        pose proof (number_spec source (txt nsp) (combine_span sp nsp) neg Hne Hc Hin) as HN.
        destruct (parse_literal_number source (txt nsp) (combine_span sp nsp) (sgn neg)) as [v|e| |] eqn:En; try exact I.
        * cbn [bind]. apply (spec_step s (QNum k a neg)); auto; [discriminate|]. apply (spec_step _ (QAfter k a)); [|discriminate|apply spec_ok; auto].
          apply step_of; [reflexivity|]. exists v. exact HN.
        * cbn [bind]. destruct (signed_mark source t sp nsp r2 neg e) as (sp' & why & He & Hm); [exact Et|eapply ok_ordered; eauto|exact En|].
          exists [(t, sp)], ((TNumber, nsp) :: r2), (QNum k a neg). split; auto. split; [exists (QNum k a neg); repeat split; auto; try apply Hst; discriminate|].
          assert (NF : ~ fits (QNum k a neg) (S_ (TNumber, nsp))) by (intros (v & Hv); exact (HN v Hv)).
          split; [now apply nostep_fits|]. right. exists [(t, sp); (TNumber, nsp)], sp', why. repeat split; auto. right. exists [], (t, sp). repeat split; auto. destruct neg; subst t; auto.
      + apply (spec_step s (QNum k a neg)); auto; [discriminate|]. eapply spec_bind with (Q := fun _ _ _ => False); [|contradiction]. apply (spec_err _ (t2, nsp)); [|apply grumble_expected; auto; cbn; intros ->; discriminate]. apply nostep_next. cbn. destruct t2; try reflexivity. discriminate. }
  assert (Bad : nextq s (S_ (t, sp)) = None -> spec s ((t, sp) :: r) fin (err_unexpected_token source (s2b "expression") t sp : res (base_expr * parser)) (fun '(_, p') s' r => ok p' r fin /\ based k a s' r)).
  { intros E. unfold err_unexpected_token. rewrite human_name. apply (spec_err s (t, sp)); [now apply nostep_next|]. apply gr_expected; [now apply wt_expr|]. cbn [fst]. destruct t; vm_compute; discriminate. }
  destruct t; try (apply Bad; rewrite Ha; reflexivity).
  - apply (Hsigned false eq_refl).
  - apply (Hsigned true eq_refl).
  - unfold parse_literal_bool. rewrite index_span_ok by assumption. cbn [bind]. fold (txt sp).
    assert (Ha' : nextq s (S_ (TKeyword, sp)) = if str_eqb (txt sp) (s2b "true") || str_eqb (txt sp) (s2b "false") then Some (QAfter k a, None) else None) by exact Ha.
    destruct (str_eqb (txt sp) (s2b "false")) eqn:E1; [|destruct (str_eqb (txt sp) (s2b "true")) eqn:E2]; rewrite ?orb_true_r in Ha'.
    + cbn [bind]. apply (spec_step s (QAfter k a)); [apply Go; [exact Ha'|now apply fits_of]|discriminate|]. apply spec_ok. auto.
    + cbn [bind]. apply (spec_step s (QAfter k a)); [apply Go; [exact Ha'|now apply fits_of]|discriminate|]. apply spec_ok. auto.
    + eapply spec_bind with (Q := fun _ _ _ => False); [|contradiction]. apply (spec_err s (TKeyword, sp)); [|now apply gr_unexpected]. apply nostep_next. exact Ha'.
  - apply (spec_step s (QVar k a)); [apply Go; [exact Ha|now apply fits_of]|discriminate|]. eapply spec_bind; [unfold parse_var; apply spec_var; exact H'|].
    intros [v p2] s' r' [H2 Hb]. apply spec_ok. auto.
  - rewrite index_span_ok by assumption. cbn [bind]. fold (txt sp).
    assert (Hin : inner_ok source sp (length (txt sp))).
    { destruct Htok as ((A1 & A2 & A3) & A4 & A5 & _). cbn [fst snd] in *. apply ascii_inner; auto.
      - destruct (A5 eq_refl) as (b & HL). apply number_chars with b; auto. apply sub_valid; auto.
      - unfold GrammarSpec.txt. rewrite sub_length by lia. lia. }
    pose proof (number_spec source (txt sp) sp false Hne Hsp Hin) as HN. cbn [sgn] in HN.
    destruct (parse_literal_number source (txt sp) sp Pos) as [v|e| |] eqn:En; try exact I; cbn [bind].
    + apply (spec_step s (QAfter k a)); [apply Go; [exact Ha|]|discriminate|apply spec_ok; auto]. exists v. cbn [signed]. rewrite Hs. exact HN.
    + destruct (number_mark source sp false e Htok eq_refl En) as (sp' & why & He & Hm).
      assert (NF : ~ fits s (S_ (TNumber, sp))) by (intros (v & Hv); rewrite Hs in Hv; exact (HN v Hv)).
      eapply spec_lit with (used := []); eauto; [reflexivity|now apply nostep_fits].
  - destruct Htok as (T1 & T2 & A5 & T3). destruct (A5 eq_refl) as (b & HL). cbn [fst snd] in HL.
    pose proof (parse_string_spec source sp b Hne Hsrc Hsp HL) as HS.
    destruct (parse_string source sp) as [x|e| |] eqn:Es; try exact I; cbn [bind].
    + apply (spec_step s (QAfter k a)); [apply Go; [exact Ha|]|discriminate|apply spec_ok; auto]. exists x. exact HS.
    + destruct (string_mark source Hsrc sp e (conj T1 (conj T2 (conj A5 T3))) Es) as (sp' & why & He & Hm).
      assert (NF : ~ fits s (S_ (TString, sp))) by (intros (v & Hv); exact (HS v Hv)).
      eapply spec_lit with (used := []); eauto; [reflexivity|now apply nostep_fits].
Qed.

Lemma at_qbase k a ts : at_ k a (QBase k a) ts.
Proof. split; [reflexivity|]. split; [discriminate|]. split; [auto|]. intros; reflexivity. Qed.

Lemma base_span_no_err b e : @base_span error b <> Err e.
Proof. destruct b as [v|v sp]; cbn [base_span]; [|discriminate]. unfold var_span, var_first, var_last, unwrap. destruct (hd_error v); cbn [bind]; [|discriminate]. destruct (hd_error (rev v)); cbn [bind]; discriminate. Qed.
Lemma expr_span_no_err x e : @expr_span error x <> Err e.
Proof. destruct x; cbn [expr_span]; [apply base_span_no_err|discriminate]. Qed.

Lemma spec_args k fuel : forall p ts fin l, ok p ts fin ->
  spec (QBase k true) ts fin (parse_args_loop sr source fuel p l) (fun '(_, p') s' r => ok p' r fin /\ piped k s' r).
Proof.
  induction fuel as [|fuel IH]; intros p ts fin l H; [exact I|]. cbn [parse_args_loop]. eapply spec_bind; [apply (spec_base k true); [exact H|apply at_qbase]|].
  intros [b p'] s' r [H' [N Hb]]. cbv zeta. apply spec_is_next; auto.
  - intros p2 sp r' -> H2. apply (spec_expect _ (QBase k true)); [eassumption|reflexivity|discriminate|try (intros; reflexivity)| |].
    + intros sp'. pose proof (Hb _ _ eq_refl) as E. exact E.
    + intros t r0 E Hn. injection E as <- <-. contradiction.
    + intros sp' r0 p3 E H3. injection E as -> <-. now apply IH.
  - intros p2 Hn H2. apply spec_ok. split; auto. split; auto. intros t r' ->. rewrite (Hb _ _ eq_refl). specialize (Hn _ _ eq_refl). unfold after_base. cbn [sense fst]. destruct (fst t); try reflexivity. contradiction.
Qed.
Lemma spec_expr_loop k fuel : forall s p ts fin e, ok p ts fin -> piped k s ts ->
  spec s ts fin (parse_expr_loop sr source fuel p e) (fun '(_, p') s' r => ok p' r fin /\ ends k s' r).
Proof.
  induction fuel as [|fuel IH]; intros s p ts fin e H [N Hp]; [exact I|]. cbn [parse_expr_loop]. apply spec_is_next; auto.
  - intros p2 sp r -> H2. apply (spec_expect _ (QPipe k)); [eassumption|reflexivity|discriminate|try (intros; reflexivity)| |].
    { intros sp'. pose proof (Hp _ _ eq_refl) as E. exact E. }
    { intros t r0 E Hn. injection E as <- <-. contradiction. }
    intros sp' r0 p3 E H3. injection E as -> <-. unfold parse_ident. apply spec_bassoc. apply (spec_expect _ (QFilter k)); [eassumption|reflexivity|discriminate|try (intros; reflexivity)| |].
    { intros t r0 -> Hn. cbn. destruct (fst t); try reflexivity. contradiction. }
    intros nsp r0 p4 -> H4. cbn [bind]. apply spec_is_next; auto.
    + intros p5 csp r' -> H5. apply (spec_expect _ (QBase k true)); [eassumption|reflexivity|discriminate|try (intros; reflexivity)| |].
      { intros t r0 E Hn. injection E as <- <-. contradiction. }
      intros csp' r0 p6 E H6. injection E as -> <-. unfold parse_args. apply spec_bassoc. eapply spec_bind; [apply (spec_args k); exact H6|].
      intros [vs p7] s' r7 [H7 Hp7]. apply spec_bassoc. apply spec_pure; [apply no_err_unwrap|]. intros b _. apply spec_bassoc. apply spec_pure.
      { apply base_span_no_err. }
      intros lsp _. cbn [bind]. apply spec_pure; [apply expr_span_no_err|intros esp _; now apply IH].
    + intros p5 Hn H5. apply spec_pure; [apply expr_span_no_err|].
      intros esp _. apply IH; auto. split; [apply exits_filter|]. intros t r' ->. specialize (Hn _ _ eq_refl). cbn [nextq sense fst]. destruct (fst t); try reflexivity. contradiction.
  - intros p2 Hn H2. apply spec_ok. split; auto. split; auto. intros t r' ->. rewrite (Hp _ _ eq_refl). specialize (Hn _ _ eq_refl). destruct (fst t); try reflexivity. contradiction.
Qed.
Lemma based_piped k s ts : based k false s ts -> piped k s ts.
Proof.
  intros [N H]. split; auto. intros t r E. rewrite (H t r E). unfold after_base. cbn [sense fst]. destruct (fst t) eqn:Et; try reflexivity.
  destruct k; cbn [after_expr sense fst]; rewrite ?Et; try reflexivity. unfold is_kw. cbn. now rewrite Et.
Qed.
Lemma spec_expr k s p ts fin : ok p ts fin -> at_ k false s ts ->
  spec s ts fin (parse_expr sr source p) (fun '(_, p') s' r => ok p' r fin /\ ends k s' r).
Proof.
  intros H Ha. unfold parse_expr. eapply spec_bind; [apply (spec_base k false); eauto|]. intros [b p'] s' r [H' Hb]. apply spec_expr_loop; auto. now apply based_piped.
Qed.

(** ** Blocks *)
Definition eff_of (b : block) : eff :=
  match b with
  | BIf _ _ => bIf | BElse => bElse | BElseIf _ _ => bElseIf | BEndIf => bEndIf | BFor _ _ => bFor | BEndFor => bEndFor
  | BWith _ _ => bWith | BEndWith => bEndWith | BInclude _ _ => bInclude
  end.
Lemma spec_cond b p ts fin : ok p ts fin ->
  spec (QCond b) ts fin (parse_if_cond sr source p) (fun '(_, _, p') s' r => ok p' r fin /\ ends (CBlock b) s' r).
Proof.
  intros H. unfold parse_if_cond. apply spec_is_kw; auto.
  - intros p' sp r -> Ek H'. apply (spec_expect_kw _ (QBase (CBlock b) false)); [eassumption|discriminate|reflexivity| |].
    + intros t r' E Hn. injection E as <- <-. unfold is_kw in Hn. cbn in Hn. rewrite Ek in Hn. discriminate.
    + intros sp' r' p2 E H2. injection E as -> <-. eapply spec_bind; [apply (spec_expr (CBlock b)); [exact H2|apply at_qbase]|]. intros [e p3] s' r3 H3. apply spec_ok. exact H3.
  - intros p' Hn H'. eapply spec_bind; [apply (spec_expr (CBlock b)); [exact H'|]|].
    + split; [reflexivity|]. split; [discriminate|]. split.
      { intros w x E. cbn [nextq]. destruct (is_kw w "not") eqn:Ek; auto. apply kw_is in Ek. subst w. vm_compute in E. discriminate E. }
      intros t r ->. cbn [nextq]. change (kw_str KwNot) with "not"%string in Hn. now rewrite (Hn _ _ eq_refl).
    + intros [e p3] s' r3 H3. apply spec_ok. exact H3.
Qed.
Lemma ends_simple b ts : ends (CBlock b) (QEnd b) ts.
Proof. split; [split; [discriminate|]; auto|]. intros; reflexivity. Qed.
Lemma spec_block p ts fin : ok p ts fin ->
  spec QBlock ts fin (parse_block sr source p) (fun '(b, p') s' r => ok p' r fin /\ ends (CBlock (eff_of b)) s' r).
Proof.
  intros H. unfold parse_block. apply spec_parse_kw; auto.
  { apply (wants_keyword QBlock "if" (QCond bIf)). reflexivity. }
  { intros t r _ Hn. cbn. destruct (fst t); try reflexivity. contradiction. }
  intros k sp r p' -> Ek H'.
  assert (Go : forall s1, at_block (s2b (kw_str k)) = Some s1 -> step QBlock (S_ (TKeyword, sp)) s1 None).
  { intros s1 E. apply step_of; [|now apply fits_of]. rewrite (sense_kw _ _ Ek). cbn [nextq key fst snd]. now rewrite E. }
  assert (Bad : at_block (s2b (kw_str k)) = None -> spec QBlock ((TKeyword, sp) :: r) fin (err_unexpected_keyword source (keyword_human k) sp : res (block * parser)) (fun '(b, p') s' r => ok p' r fin /\ ends (CBlock (eff_of b)) s' r)).
  { intros E. unfold err_unexpected_keyword. rewrite kw_human, <- Ek. apply (spec_err QBlock (TKeyword, sp)); [|now apply gr_unexpected]. apply nostep_next. rewrite (sense_kw _ _ Ek). cbn [nextq key fst snd]. now rewrite E. }
  destruct k; try (apply Bad; reflexivity).
  - apply (spec_step QBlock (QCond bIf)); [now apply Go|discriminate|]. eapply spec_bind; [apply spec_cond; exact H'|]. intros [[n e] p2] s' r2 H2. apply spec_ok. exact H2.
  - apply (spec_step QBlock QElse); [now apply Go|discriminate|]. apply spec_is_kw; auto.
    + intros p2 sp2 r2 -> Ek2 H2. apply (spec_expect_kw _ (QCond bElseIf)); [eassumption|discriminate|reflexivity| |].
      * intros t r' E Hn. injection E as <- <-. unfold is_kw in Hn. cbn in Hn. rewrite Ek2 in Hn. discriminate.
      * intros sp' r' p3 E H3. injection E as -> <-. eapply spec_bind; [apply spec_cond; exact H3|]. intros [[n e] p4] s' r4 H4. apply spec_ok. exact H4.
    + intros p2 Hn H2. apply spec_ok. split; auto. split.
      { split; [discriminate|]. intros w x E. cbn [nextq]. destruct (is_kw w "if") eqn:Ew; [|exact E]. apply kw_is in Ew. subst w. discriminate E. }
      intros t r2 ->. cbn [nextq]. change (kw_str KwIf) with "if"%string in Hn. now rewrite (Hn _ _ eq_refl).
  - apply (spec_step QBlock (QEnd bEndIf)); [now apply Go|discriminate|]. apply spec_ok. split; auto. apply ends_simple.
  - apply (spec_step QBlock QVars1); [now apply Go|discriminate|]. unfold parse_loop_vars, parse_ident. apply spec_bassoc. apply spec_bassoc. apply (spec_expect _ QVars2); [eassumption|reflexivity|discriminate|try (intros; reflexivity)| |].
    { intros t r2 -> Hn. cbn. destruct (fst t); try reflexivity. contradiction. }
    intros ksp r2 p2 -> H2. cbn [bind]. apply spec_bassoc. apply spec_is_next; auto.
    + intros p3 csp r3 -> H3. apply spec_bassoc. apply (spec_expect _ QVars3); [eassumption|reflexivity|discriminate|try (intros; reflexivity)| |].
      { intros t r' E Hn. injection E as <- <-. contradiction. }
      intros csp' r' p4 E H4. injection E as -> <-. apply spec_bassoc. apply spec_bassoc. apply (spec_expect _ QVars4); [eassumption|reflexivity|discriminate|try (intros; reflexivity)| |].
      { intros t r2 -> Hn. cbn. destruct (fst t); try reflexivity. contradiction. }
      intros vsp r4 p5 -> H5. cbn [bind]. apply (spec_expect_kw _ (QBase (CBlock bFor) false)); [eassumption|discriminate|reflexivity| |].
      { intros t r' _ Hn. cbn [nextq]. now change (kw_str KwIn) with "in"%string in Hn; rewrite Hn. }
      intros isp r5 p6 -> H6. eapply spec_bind; [apply (spec_expr (CBlock bFor)); [exact H6|apply at_qbase]|]. intros [e p7] s' r7 H7. apply spec_ok. exact H7.
    + intros p3 Hn H3. cbn [bind]. apply (spec_expect_kw _ (QBase (CBlock bFor) false)); [eassumption|discriminate|reflexivity| |].
      { intros t r' E Hk. specialize (Hn t r' E). cbn [nextq]. change (kw_str KwIn) with "in"%string in Hk. rewrite Hk. cbn. destruct (fst t); try reflexivity. contradiction. }
      intros isp r5 p6 -> H6. eapply spec_bind; [apply (spec_expr (CBlock bFor)); [exact H6|apply at_qbase]|]. intros [e p7] s' r7 H7. apply spec_ok. exact H7.
  - apply (spec_step QBlock (QEnd bEndFor)); [now apply Go|discriminate|]. apply spec_ok. split; auto. apply ends_simple.
  - apply (spec_step QBlock (QBase CAs false)); [now apply Go|discriminate|]. eapply spec_bind; [apply (spec_expr CAs); [exact H'|apply at_qbase]|]. intros [e p2] s' r2 [H2 [[N Hex] He]].
    assert (Kas : nextq s' (key "as") = Some (QAsName, None)) by (apply Hex; reflexivity).
    destruct r2 as [|t2 r2].
    + unfold expect_keyword, parse_keyword, expect. apply spec_bassoc, spec_bassoc, spec_bassoc. apply spec_next; auto; [discriminate|]. intros p3 _ -> H3. eapply spec_bind; [apply spec_eof; left; eapply wants_keyword; eauto|]. intros a0 s0 r0 Q0. exact Q0.
    + specialize (He _ _ eq_refl). destruct (is_kw (S_ t2) "as") eqn:E2.
      * apply (spec_pre s' QAsName [t2]). { exists QAsName. split; [|split; [discriminate|reflexivity]]. apply step_of; [rewrite He; cbn [after_expr]; now rewrite E2|]. apply kw_is in E2. unfold fits. rewrite E2. exact I. }
        pose proof E2 as E3. apply kw_is in E3. destruct t2 as [t2 sp2]. unfold sense, key in E3. cbn in E3. injection E3 as -> Et2. cbn [is_delimiter] in Et2.
        unfold expect_keyword, parse_keyword, expect. destruct (ok_next _ Hsx _ _ Hsrc _ _ _ _ H2) as (p3 & -> & H3). cbn [bind token_eqb token_eq_dec].
        change (token_eqb TKeyword TKeyword) with true. cbv iota. cbn [bind]. destruct (ok_keyword _ _ _ _ _ _ _ H2) as (-> & k' & Ek1 & Ek2). cbn [bind]. rewrite Ek1. cbn [bind].
        assert (k' = KwAs) as -> by (apply kw_str_inj; rewrite <- Ek2; exact Et2). cbn [keyword_eqb keyword_eq_dec]. change (keyword_eqb KwAs KwAs) with true. cbv iota. cbn [bind].
        unfold parse_ident. apply spec_bassoc. apply (spec_expect _ (QEnd bWith)); [eassumption|reflexivity|discriminate|try (intros; reflexivity)| |].
        { intros t r3 -> Hn. cbn. destruct (fst t); try reflexivity. contradiction. }
        intros nsp r3 p4 -> H4. cbn [bind]. apply spec_ok. split; auto. apply ends_simple.
      * assert (Nx : nextq s' (S_ t2) = None) by (rewrite He; cbn [after_expr]; now rewrite E2).
        unfold expect_keyword. apply spec_bassoc. apply spec_parse_kw; auto. { eapply wants_keyword; eauto. } { intros t r0 E _. injection E as <- <-. exact Nx. }
        intros k' sp2 r0 p3 E Ek2 H3. injection E as -> <-. destruct (keyword_eqb k' KwAs) eqn:Eq.
        { apply keyword_eqb_eq in Eq. subst k'. exfalso. unfold is_kw in E2. cbn in E2. rewrite Ek2 in E2. discriminate. }
        eapply spec_bind with (Q := fun _ _ _ => False); [|contradiction]. apply (spec_err s' (TKeyword, sp2)); [now apply nostep_next|]. rewrite !kw_human, <- Ek2. eapply gr_keyword; [reflexivity|eapply wants_key; eauto].
  - apply (spec_step QBlock (QEnd bEndWith)); [now apply Go|discriminate|]. apply spec_ok. split; auto. apply ends_simple.
  - apply (spec_step QBlock QInc); [now apply Go|discriminate|].
    assert (Hstr : wants QInc (token_human TString)).
    { rewrite human_name. apply (wt_token _ TString (s2b """""") QInc2 None). split; [reflexivity|]. split; [exists []; exact empty_lit|]. intros D. discriminate D. }
    unfold expect. apply spec_bassoc. apply spec_next; auto.
    2:{ intros p2 -> -> H2. eapply spec_bind; [apply spec_eof; left; exact Hstr|]. intros a0 s0 r0 Q0. exact Q0. }
    intros [t2 ssp] r2 p2 -> H2. destruct (token_eqb t2 TString) eqn:E2.
    2:{ eapply spec_bind with (Q := fun _ _ _ => False); [|contradiction]. apply (spec_err _ (t2, ssp)); [|apply grumble_expected; auto; cbn; intros ->; discriminate]. apply nostep_next. cbn. destruct t2; try reflexivity. discriminate. }
    apply token_eqb_eq in E2. subst t2. cbn [bind].
    pose proof (ok_tok _ _ _ _ _ _ _ H') as Htok. pose proof Htok as (T1 & T2 & A5 & T3). destruct (A5 eq_refl) as (b & HL). cbn [fst snd] in HL.
    pose proof (parse_string_spec source ssp b Hne Hsrc T1 HL) as HS.
    destruct (parse_string source ssp) as [x|e| |] eqn:Es; try exact I; cbn [bind].
    2:{ destruct (string_mark source Hsrc ssp e Htok Es) as (sp' & why & He & Hm).
        assert (NF : ~ fits QInc (S_ (TString, ssp))) by (intros (v & Hv); exact (HS v Hv)).
        eapply spec_lit with (used := []); eauto; [reflexivity|now apply nostep_fits]. }
    apply (spec_step QInc QInc2); [apply step_of; [reflexivity|exists x; exact HS]|discriminate|]. apply spec_is_kw; auto.
    + intros p3 sp3 r3 -> Ek3 H3. apply (spec_expect_kw _ (QBase (CBlock bInclude) false)); [eassumption|discriminate|reflexivity| |].
      * intros t r' E Hn. injection E as <- <-. unfold is_kw in Hn. cbn in Hn. rewrite Ek3 in Hn. discriminate.
      * intros sp' r' p4 E H4. injection E as -> <-. eapply spec_bind; [apply (spec_expr (CBlock bInclude)); [exact H4|apply at_qbase]|]. intros [e p5] s' r5 H5. apply spec_ok. exact H5.
    + intros p3 Hn H3. apply spec_ok. split; auto. split.
      { split; [discriminate|]. intros w x0 E. cbn [nextq]. destruct (is_kw w "with") eqn:Ew; [|exact E]. apply kw_is in Ew. subst w. discriminate E. }
      intros t r3 ->. cbn [nextq]. change (kw_str KwWith) with "with"%string in Hn. now rewrite (Hn _ _ eq_refl).
Qed.
End Blame.
