(** Statements: what the parser returns is derived by the grammar. *)
From Verif Require Import Base Utf8 Ext Errors Syntax AhoCorasick SearchSpec SyntaxSpec Value Ast Lexer LexSpec Wp TrimProof
  LexProof GrammarSpec Parser LitProof TokStream ParseProof.

Lemma wp_of_eq {A} (x : res A) a (Q : A -> Prop) : x = Ok a -> Q a -> wp x Q.
Proof. now intros ->. Qed.

Section ParseSound.
Context `{X : Ext}.
Variable sx : syntax.
Hypothesis Hsx : user_syntax sx.
Variable sr : searcher.
Variable source : str.
Hypothesis Hsrc : valid_utf8 source.
Hypothesis Hne : source <> [].

Notation wf := (TokStream.wf source).
Notation txt := (GrammarSpec.txt source).
Notation ordered := (ParseProof.ordered source).
Notation ok := (ParseProof.ok sx sr source).
Notation parses := (ParseProof.parses sx sr source).
Notation g_expr := (GrammarSpec.g_expr source).
Notation g_cond := (GrammarSpec.g_cond source).
Notation g_vars := (GrammarSpec.g_vars).
Notation g_stmt := (GrammarSpec.g_stmt source).
Notation g_scope := (GrammarSpec.g_scope source).
Notation g_else := (GrammarSpec.g_else source).
Notation kw := (GrammarSpec.kw source).

(** What is between the delimiters of a tag. *)
Inductive g_block : list tok -> block -> Prop :=
| gk_if k ts n c : kw "if" k -> g_cond ts n c -> g_block (k ++ ts) (BIf n c)
| gk_elseif k i ts n c : kw "else" k -> kw "if" i -> g_cond ts n c -> g_block (k ++ i ++ ts) (BElseIf n c)
| gk_else k : kw "else" k -> g_block k BElse
| gk_endif k : kw "endif" k -> g_block k BEndIf
| gk_for k vs vars i ts e : kw "for" k -> g_vars vs vars -> kw "in" i -> g_expr ts e ->
    g_block (k ++ vs ++ i ++ ts) (BFor vars e)
| gk_endfor k : kw "endfor" k -> g_block k BEndFor
| gk_with k ts e a n : kw "with" k -> g_expr ts e -> kw "as" a ->
    g_block (k ++ ts ++ a ++ [(TIdent, n)]) (BWith e (mkident n))
| gk_endwith k : kw "endwith" k -> g_block k BEndWith
| gk_include k sp s : kw "include" k -> string_lit (txt sp) s ->
    g_block (k ++ [(TString, sp)]) (BInclude (mkaststr s sp) None)
| gk_include_with k sp s w ts e : kw "include" k -> string_lit (txt sp) s -> kw "with" w -> g_expr ts e ->
    g_block (k ++ (TString, sp) :: w ++ ts) (BInclude (mkaststr s sp) (Some e)).

Lemma parse_loop_vars_wp p ts fin : ok p ts fin ->
  wp (parse_loop_vars sr source p) (parses g_vars ts fin).
Proof.
  intros H. unfold parse_loop_vars. apply wp_bind. eapply wp_mono; [eapply parse_ident_wp; eauto|].
  intros [[k] p1] (u1 & ts1 & E1 & H1 & G1). cbn [fst snd id_span] in *. subst u1 ts. cbn [app] in H.
  apply wp_bind. eapply wp_mono; [eapply is_next_wp; eauto|].
  intros [c p2] (H2 & Hc). destruct c.
  - destruct (Hc eq_refl) as (cs & ts2 & ->). apply wp_bind. eapply wp_mono; [eapply expect_wp; eauto|].
    intros [s3 p3] (u3 & ts3 & E3 & H3 & G3). cbn [fst snd] in *. subst u3. cbn [app] in E3. injection E3 as <- <-.
    apply wp_bind. eapply wp_mono; [eapply parse_ident_wp; eauto|].
    intros [[v] p4] (u4 & ts4 & E4 & H4 & G4). cbn [fst snd id_span] in *. subst u4 ts2. cbn [wp].
    exists [(TIdent, k); (TComma, cs); (TIdent, v)], ts4. split; auto. split; auto. cbn [fst].
    assert (Ho : ordered ((TIdent, k) :: [(TComma, cs)] ++ [(TIdent, v)])).
    { eapply ordered_app_l with (b := ts4). eapply ok_ordered; eauto. }
    rewrite (combine_toks _ _ _ _ _ _ Ho). constructor.
  - cbn [wp]. exists [(TIdent, k)], ts1. split; auto. split; auto. constructor.
Qed.

Lemma parse_if_cond_wp p ts fin : ok p ts fin ->
  wp (parse_if_cond sr source p) (fun '(n, e, p') => exists used ts', ts = used ++ ts' /\ ok p' ts' fin /\ g_cond used n e).
Proof.
  intros H. unfold parse_if_cond. apply wp_bind. eapply wp_mono; [eapply is_next_keyword_wp; eauto|].
  intros [b p1] (H1 & Hb). destruct b.
  - clear Hb. apply wp_bind. eapply wp_mono; [eapply expect_keyword_wp; eauto|].
    intros [s p2] (u2 & ts2 & -> & H2 & G2). cbn [fst snd] in *.
    apply wp_bind. eapply wp_mono; [eapply parse_expr_wp; eauto|].
    intros [e p3] (u3 & ts3 & -> & H3 & G3). cbn [fst snd] in *. cbn [wp].
    exists (u2 ++ u3), ts3. rewrite app_assoc. split; auto. split; auto. now constructor.
  - apply wp_bind. eapply wp_mono; [eapply parse_expr_wp; eauto|].
    intros [e p3] (u3 & ts3 & -> & H3 & G3). cbn [fst snd] in *. cbn [wp].
    exists u3, ts3. split; auto. split; auto. now constructor.
Qed.

Lemma parse_block_wp p ts fin : ok p ts fin -> wp (parse_block sr source p) (parses g_block ts fin).
Proof.
  intros H. unfold parse_block. apply wp_bind. eapply wp_mono; [eapply parse_keyword_wp; eauto|].
  intros [[k sp] p1] (ts1 & -> & H1 & Ek). pose proof (ok_span _ _ _ _ _ _ _ _ H) as Hsp.
  assert (Hkw : forall k', txt sp = s2b (kw_str k') -> kw (kw_str k') [(TKeyword, sp)]) by (intros k' E; exists sp; auto).
  specialize (Hkw _ Ek).
  destruct k; cbn [kw_str] in Hkw; try (apply err_syntax_wp; auto; fail).
  - (* if *)
    apply wp_bind. eapply wp_mono; [eapply parse_if_cond_wp; eauto|].
    intros [[n e] p2] (u2 & ts2 & -> & H2 & G2). cbn [wp].
    exists ([(TKeyword, sp)] ++ u2), ts2. split; auto. split; auto. now constructor.
  - (* else *)
    apply wp_bind. eapply wp_mono; [eapply is_next_keyword_wp; eauto|].
    intros [b p2] (H2 & Hb). destruct b.
    + clear Hb. apply wp_bind. eapply wp_mono; [eapply expect_keyword_wp; eauto|].
      intros [s p3] (u3 & ts3 & -> & H3 & G3). cbn [fst snd] in *.
      apply wp_bind. eapply wp_mono; [eapply parse_if_cond_wp; eauto|].
      intros [[n e] p4] (u4 & ts4 & -> & H4 & G4). cbn [wp].
      exists ([(TKeyword, sp)] ++ u3 ++ u4), ts4. split; [now rewrite <- !app_assoc|]. split; auto. now constructor.
    + cbn [wp]. exists [(TKeyword, sp)], ts1. split; auto. split; auto. now constructor.
  - (* endif *)
    cbn [wp]. exists [(TKeyword, sp)], ts1. split; auto. split; auto. now constructor.
  - (* for *)
    apply wp_bind. eapply wp_mono; [eapply parse_loop_vars_wp; eauto|].
    intros [vs p2] (u2 & ts2 & -> & H2 & G2). cbn [fst snd] in *.
    apply wp_bind. eapply wp_mono; [eapply expect_keyword_wp; eauto|].
    intros [s p3] (u3 & ts3 & -> & H3 & G3). cbn [fst snd] in *.
    apply wp_bind. eapply wp_mono; [eapply parse_expr_wp; eauto|].
    intros [e p4] (u4 & ts4 & -> & H4 & G4). cbn [fst snd] in *. cbn [wp].
    exists ([(TKeyword, sp)] ++ u2 ++ u3 ++ u4), ts4. split; [now rewrite <- !app_assoc|]. split; auto. now constructor.
  - (* endfor *)
    cbn [wp]. exists [(TKeyword, sp)], ts1. split; auto. split; auto. now constructor.
  - (* with *)
    apply wp_bind. eapply wp_mono; [eapply parse_expr_wp; eauto|].
    intros [e p4] (u4 & ts4 & -> & H4 & G4). cbn [fst snd] in *.
    apply wp_bind. eapply wp_mono; [eapply expect_keyword_wp; eauto|].
    intros [s p3] (u3 & ts3 & -> & H3 & G3). cbn [fst snd] in *.
    apply wp_bind. eapply wp_mono; [eapply parse_ident_wp; eauto|].
    intros [[n] p5] (u5 & ts5 & E5 & H5 & G5). cbn [fst snd id_span] in *. subst u5 ts3. cbn [wp].
    exists ([(TKeyword, sp)] ++ u4 ++ u3 ++ [(TIdent, n)]), ts5. split; [now rewrite <- !app_assoc|]. split; auto. now constructor.
  - (* endwith *)
    cbn [wp]. exists [(TKeyword, sp)], ts1. split; auto. split; auto. now constructor.
  - (* include *)
    apply wp_bind. eapply wp_mono; [eapply expect_wp; eauto|].
    intros [ssp p2] (u2 & ts2 & E2 & H2 & G2). cbn [fst snd] in *. subst u2 ts1.
    pose proof (ok_tok _ _ _ _ _ _ _ H1) as (A1 & _ & A5 & _). destruct (A5 eq_refl) as (b & HL). cbn [fst snd] in A1, HL.
    pose proof (parse_string_spec source ssp b Hne Hsrc A1 HL) as HS.
    destruct (parse_string source ssp) as [s|e| |]; try contradiction; [|exact I]. cbn [bind].
    apply wp_bind. eapply wp_mono; [eapply is_next_keyword_wp; eauto|].
    intros [w p3] (H3 & Hw). destruct w.
    + clear Hw. apply wp_bind. eapply wp_mono; [eapply expect_keyword_wp; eauto|].
      intros [s4 p4] (u4 & ts4 & -> & H4 & G4). cbn [fst snd] in *.
      apply wp_bind. eapply wp_mono; [eapply parse_expr_wp; eauto|].
      intros [e p5] (u5 & ts5 & -> & H5 & G5). cbn [fst snd] in *. cbn [wp].
      exists ([(TKeyword, sp)] ++ (TString, ssp) :: u4 ++ u5), ts5. split; [cbn [app]; now rewrite <- !app_assoc|].
      split; auto. now constructor.
    + cbn [wp]. exists ([(TKeyword, sp)] ++ [(TString, ssp)]), ts2. split; auto. split; auto. now constructor.
Qed.

(** ** The stacks *)
Definition bspan (b : bstate) : span :=
  match b with StIf _ _ _ sp _ => sp | StFor _ _ sp => sp | StWith _ _ sp => sp end.

Inductive chain : list tok -> blocks -> scopes -> Prop :=
| ch_if t k ts n c sp body thn : kw "if" k -> g_cond ts n c -> tag_block (k ++ ts) t -> g_scope body thn ->
    chain (t ++ body) [StIf false n c sp false] [thn]
| ch_elif cs ei n cnd sp b s t k i ts n2 c2 sp2 body thn :
    chain cs (StIf ei n cnd sp false :: b) s -> kw "else" k -> kw "if" i -> g_cond ts n2 c2 ->
    tag_block (k ++ i ++ ts) t -> g_scope body thn ->
    chain (cs ++ t ++ body) (StIf true n2 c2 sp2 false :: StIf ei n cnd sp true :: b) (thn :: [] :: s).

Inductive stk : list tok -> blocks -> scopes -> Prop :=
| sk_base c l : g_scope c l -> stk c [] [l]
| sk_for c bl sc t k vs vars i ts e sp body l : stk c bl sc -> kw "for" k -> g_vars vs vars -> kw "in" i ->
    g_expr ts e -> tag_block (k ++ vs ++ i ++ ts) t -> g_scope body l ->
    stk (c ++ t ++ body) (StFor vars e sp :: bl) (l :: sc)
| sk_with c bl sc t k ts e a n sp body l : stk c bl sc -> kw "with" k -> g_expr ts e -> kw "as" a ->
    tag_block (k ++ ts ++ a ++ [(TIdent, n)]) t -> g_scope body l ->
    stk (c ++ t ++ body) (StWith e (mkident n) sp :: bl) (l :: sc)
| sk_if c bl sc c2 b s : stk c bl sc -> chain c2 b s -> stk (c ++ c2) (b ++ bl) (s ++ sc)
| sk_else c bl sc c2 ei n cnd sp b s t k body l : stk c bl sc -> chain c2 (StIf ei n cnd sp false :: b) s ->
    kw "else" k -> tag_block k t -> g_scope body l ->
    stk (c ++ c2 ++ t ++ body) (StIf ei n cnd sp true :: b ++ bl) (l :: s ++ sc).

Lemma g_scope_app a la b lb : g_scope a la -> g_scope b lb -> g_scope (a ++ b) (la ++ lb).
Proof.
  intros Ha Hb. induction Ha as [|bg r e ts l Hs IH|ts s ts' l Hst Hs IH]; cbn [app]; auto.
  - now constructor.
  - rewrite <- app_assoc. now constructor.
Qed.
Lemma g_scope_one ts s : g_stmt ts s -> g_scope ts [s].
Proof. intros H. rewrite <- (app_nil_r ts). constructor; auto. constructor. Qed.

Lemma chain_app c b s : chain c b s -> exists l s', s = l :: s' /\
  forall ts add, g_scope ts add -> chain (c ++ ts) b ((l ++ add) :: s').
Proof.
  destruct 1.
  - eexists _, _. split; [reflexivity|]. intros us add Hg. rewrite <- app_assoc. econstructor; eauto using g_scope_app.
  - eexists _, _. split; [reflexivity|]. intros us add Hg. rewrite <- !app_assoc. econstructor; eauto using g_scope_app.
Qed.

Lemma stk_app c b s : stk c b s -> exists l s', s = l :: s' /\
  forall ts add, g_scope ts add -> stk (c ++ ts) b ((l ++ add) :: s').
Proof.
  destruct 1 as [c l Hg|c bl sc t k vs vars i ts e sp body l Hs|c bl sc t k ts e a n sp body l Hs
                |c bl sc c2 b s Hs Hc|c bl sc c2 ei n cnd sp b s t k body l Hs Hc].
  - eexists _, _. split; [reflexivity|]. intros us add Hg'. constructor. now apply g_scope_app.
  - eexists _, _. split; [reflexivity|]. intros us add Hg. rewrite <- !app_assoc. econstructor; eauto using g_scope_app.
  - eexists _, _. split; [reflexivity|]. intros us add Hg. rewrite <- !app_assoc. econstructor; eauto using g_scope_app.
  - destruct (chain_app _ _ _ Hc) as (l & s' & -> & Hcc). eexists _, _. split; [reflexivity|].
    intros us add Hg. rewrite <- app_assoc. apply (sk_if c bl sc (c2 ++ us) b ((l ++ add) :: s')); auto.
  - eexists _, _. split; [reflexivity|]. intros us add Hg. rewrite <- !app_assoc. econstructor; eauto using g_scope_app.
Qed.

Definition opt_list {A} (o : option A) : list A := match o with Some a => [a] | None => [] end.
Definition is_some {A} (o : option A) : bool := match o with Some _ => true | None => false end.

Lemma chain_close c bs s : chain c bs s -> forall ei n cnd sp b, bs = StIf ei n cnd sp false :: b ->
  forall rest els, g_else rest els -> forall bl sc spn, exists st, g_stmt (c ++ rest) st /\
  end_if_loop source (StIf ei n cnd sp (is_some els) :: b ++ bl) (opt_list els ++ s ++ sc) spn = Ok (st, bl, sc).
Proof.
  induction 1 as [t k ts n c sp body thn Hk Hc Ht Hb|cs ei n cnd sp b s t k i ts n2 c2 sp2 body thn Hch IH Hk Hi Hc Ht Hb];
    intros ei0 n0 cnd0 sp0 b0 E rest els He bl sc spn; injection E as <- <- <- <- <-.
  - exists (SIf n c thn els). split; [rewrite <- app_assoc; econstructor; eauto|].
    destruct els; reflexivity.
  - destruct (IH _ _ _ _ _ eq_refl (t ++ body ++ rest) (Some [SIf n2 c2 thn els])) with (bl := bl) (sc := sc) (spn := spn) as (st & G & E).
    { eapply gel_elseif; eauto. }
    exists st. split; [rewrite <- !app_assoc; exact G|]. cbn [is_some opt_list app] in E.
    rewrite <- E. destruct els; reflexivity.
Qed.

Lemma chain_top c b s : chain c b s -> exists ei n cnd sp b', b = StIf ei n cnd sp false :: b'.
Proof. destruct 1; repeat eexists. Qed.

Lemma stk_nil c b sc : stk c b sc -> b = [] -> exists l, sc = [l] /\ g_scope c l.
Proof.
  destruct 1 as [c l Hg| | |c bl sc c2 b s Hs Hc|]; intros Eb; try discriminate; eauto.
  destruct (chain_top _ _ _ Hc) as (? & ? & ? & ? & ? & ->). discriminate.
Qed.

Lemma stk_if c b sc : stk c b sc -> forall ei n cnd sp he bl, b = StIf ei n cnd sp he :: bl ->
  exists c1 c2 b' s' bl' sc', bl = b' ++ bl' /\ stk c1 bl' sc' /\ chain c2 (StIf ei n cnd sp false :: b') s' /\
  (he = false /\ c = c1 ++ c2 /\ sc = s' ++ sc' \/
   he = true /\ exists t k body l, c = c1 ++ c2 ++ t ++ body /\ sc = l :: s' ++ sc' /\ kw "else" k /\ tag_block k t /\ g_scope body l).
Proof.
  destruct 1 as [c l Hg| | |c bl sc c2 b s Hs Hc|c bl sc c2 ei n cnd sp b s t k body l Hs Hc Hk Ht Hb];
    intros ei0 n0 cnd0 sp0 he0 bl0 E; try discriminate.
  - destruct (chain_top _ _ _ Hc) as (ei & n & cnd & sp & b' & ->). injection E as <- <- <- <- <- <-.
    exists c, c2, b', s, bl, sc. repeat split; auto.
  - injection E as <- <- <- <- <- <-. exists c, c2, b, s, bl, sc. repeat split; auto. right. split; auto.
    exists t, k, body, l. auto.
Qed.

Lemma stk_for_inv c b sc : stk c b sc -> forall vars e sp bl, b = StFor vars e sp :: bl ->
  exists c1 t k vs i ts body l sc', c = c1 ++ t ++ body /\ sc = l :: sc' /\ stk c1 bl sc' /\ kw "for" k /\ g_vars vs vars /\
    kw "in" i /\ g_expr ts e /\ tag_block (k ++ vs ++ i ++ ts) t /\ g_scope body l.
Proof.
  destruct 1 as [c l Hg|c bl sc t k vs vars i ts e sp body l Hs|c bl sc t k ts e a n sp body l Hs
                |c bl sc c2 b s Hs Hc|]; intros vars0 e0 sp0 bl0 E; try discriminate.
  - injection E as <- <- <- <-. exists c, t, k, vs, i, ts, body, l, sc. repeat split; auto.
  - destruct (chain_top _ _ _ Hc) as (? & ? & ? & ? & ? & ->). discriminate.
Qed.
Lemma stk_with_inv c b sc : stk c b sc -> forall e nm sp bl, b = StWith e nm sp :: bl ->
  exists c1 t k ts a n body l sc', c = c1 ++ t ++ body /\ sc = l :: sc' /\ stk c1 bl sc' /\ kw "with" k /\ nm = mkident n /\
    g_expr ts e /\ kw "as" a /\ tag_block (k ++ ts ++ a ++ [(TIdent, n)]) t /\ g_scope body l.
Proof.
  destruct 1 as [c l Hg|c bl sc t k vs vars i ts e sp body l Hs|c bl sc t k ts e a n sp body l Hs
                |c bl sc c2 b s Hs Hc|]; intros e0 nm0 sp0 bl0 E; try discriminate.
  - injection E as <- <- <- <-. exists c, t, k, ts, a, n, body, l, sc. repeat split; auto.
  - destruct (chain_top _ _ _ Hc) as (? & ? & ? & ? & ? & ->). discriminate.
Qed.

(** The result of handling one tag. *)
Definition handled (c : list tok) (r : option stmt * blocks * scopes) : Prop :=
  let '(st, bl, sc) := r in
  Forall (fun b => span_ok source (bspan b)) bl /\
  match st with
  | None => stk c bl sc
  | Some s => exists c1 c2, c = c1 ++ c2 /\ stk c1 bl sc /\ g_stmt c2 s
  end.

Lemma set_has_else_wp c bl sc msg sp : stk c bl sc -> span_ok source sp -> Forall (fun b => span_ok source (bspan b)) bl ->
  wp (set_has_else source bl msg sp) (fun bl' => Forall (fun b => span_ok source (bspan b)) bl' /\
    exists c1 c2 ei n cnd s0 b' s' bl0 sc0, c = c1 ++ c2 /\ stk c1 bl0 sc0 /\ chain c2 (StIf ei n cnd s0 false :: b') s' /\
    bl' = StIf ei n cnd s0 true :: b' ++ bl0 /\ sc = s' ++ sc0).
Proof.
  intros Hs Hsp Hb. destruct bl as [|[ei n cnd s0 [|]| |] bl]; try (apply err_syntax_wp; auto; fail).
  destruct (stk_if _ _ _ Hs _ _ _ _ _ _ eq_refl) as (c1 & c2 & b' & s' & bl' & sc' & -> & H1 & H2 & [(_ & -> & ->)|(? & _)]); [|discriminate].
  cbn [set_has_else wp]. inversion Hb; subst. split; [constructor; auto|].
  exists c1, c2, ei, n, cnd, s0, b', s', bl', sc'. auto.
Qed.

Lemma end_if_loop_wp c bl sc sp : stk c bl sc -> span_ok source sp -> Forall (fun b => span_ok source (bspan b)) bl ->
  forall k t, kw "endif" k -> tag_block k t ->
  wp (end_if_loop source bl sc sp) (fun '(st, bl', sc') => handled (c ++ t) (Some st, bl', sc')).
Proof.
  intros Hs Hsp Hb k t Hk Ht. destruct bl as [|[ei n cnd s0 he| |] bl]; try (apply err_syntax_wp; auto; fail).
  destruct (stk_if _ _ _ Hs _ _ _ _ _ _ eq_refl) as (c1 & c2 & b' & s' & bl' & sc' & -> & H1 & H2 & Hcase).
  assert (Hb' : Forall (fun b => span_ok source (bspan b)) bl').
  { inversion Hb; subst. now apply Forall_app in H4 as [_ H4]. }
  destruct Hcase as [(-> & -> & ->)|(-> & t0 & k0 & body & l & -> & -> & Hk0 & Ht0 & Hbd)].
  - destruct (chain_close _ _ _ H2 _ _ _ _ _ eq_refl t None) with (bl := bl') (sc := sc') (spn := sp) as (st & G & E).
    { econstructor; eauto. }
    cbn [is_some opt_list app] in E. rewrite E. cbn [wp]. split; auto. exists c1, (c2 ++ t). rewrite app_assoc. auto.
  - destruct (chain_close _ _ _ H2 _ _ _ _ _ eq_refl (t0 ++ body ++ t) (Some l)) with (bl := bl') (sc := sc') (spn := sp) as (st & G & E).
    { econstructor; eauto. }
    cbn [is_some opt_list app] in E. apply (wp_of_eq _ _ _ E). split; auto. exists c1, (c2 ++ t0 ++ body ++ t).
    rewrite <- !app_assoc. auto.
Qed.

Lemma handle_block_wp c bl sc sp inner b t : stk c bl sc -> span_ok source sp ->
  Forall (fun b => span_ok source (bspan b)) bl -> g_block inner b -> tag_block inner t ->
  wp (handle_block source b sp bl sc) (handled (c ++ t)).
Proof.
  intros Hs Hsp Hb G Ht. destruct G; cbn [handle_block].
  - cbn [wp]. split; [constructor; auto|]. change (StIf false n c0 sp false :: bl) with ([StIf false n c0 sp false] ++ bl).
    change ([] :: sc) with ([[]] ++ sc). apply sk_if; auto. rewrite <- (app_nil_r t). econstructor; eauto. constructor.
  - apply wp_bind. eapply wp_mono; [eapply set_has_else_wp; eauto|].
    intros bl' (Hf & c1 & c2 & ei & nn & cnd & s0 & b' & s' & bl0 & sc0 & -> & K1 & K2 & -> & ->). cbn [wp].
    split; [constructor; auto|]. rewrite <- app_assoc.
    change (StIf true n c0 sp false :: StIf ei nn cnd s0 true :: b' ++ bl0) with ((StIf true n c0 sp false :: StIf ei nn cnd s0 true :: b') ++ bl0).
    change ([] :: [] :: s' ++ sc0) with (([] :: [] :: s') ++ sc0). apply sk_if; auto.
    rewrite <- (app_nil_r t). econstructor; eauto. constructor.
  - apply wp_bind. eapply wp_mono; [eapply set_has_else_wp; eauto|].
    intros bl' (Hf & c1 & c2 & ei & nn & cnd & s0 & b' & s' & bl0 & sc0 & -> & K1 & K2 & -> & ->). cbn [wp].
    split; auto. rewrite <- app_assoc. rewrite <- (app_nil_r t). econstructor; eauto. constructor.
  - apply wp_bind. eapply wp_mono; [eapply end_if_loop_wp; eauto|].
    intros [[st bl'] sc'] Hh. exact Hh.
  - cbn [wp]. split; [constructor; auto|]. rewrite <- (app_nil_r t). econstructor; eauto. constructor.
  - destruct bl as [|[| |] bl]; try (apply err_syntax_wp; auto; fail).
    destruct (stk_for_inv _ _ _ Hs _ _ _ _ eq_refl) as (c1 & t0 & k0 & vs & i & ts & body & l & sc' & -> & -> & K1 & K2 & K3 & K4 & K5 & K6 & K7).
    cbn [wp]. inversion Hb; subst. split; auto. exists c1, (t0 ++ body ++ t). rewrite <- !app_assoc. split; auto. split; auto.
    econstructor; eauto.
  - cbn [wp]. split; [constructor; auto|]. rewrite <- (app_nil_r t). econstructor; eauto. constructor.
  - destruct bl as [|[| |] bl]; try (apply err_syntax_wp; auto; fail).
    destruct (stk_with_inv _ _ _ Hs _ _ _ _ eq_refl) as (c1 & t0 & k0 & ts & a & n & body & l & sc' & -> & -> & K1 & K2 & -> & K4 & K5 & K6 & K7).
    cbn [wp]. inversion Hb; subst. split; auto. exists c1, (t0 ++ body ++ t). rewrite <- !app_assoc. split; auto. split; auto.
    econstructor; eauto.
  - cbn [wp]. split; auto. exists c, t. split; auto. split; auto. econstructor; eauto.
  - cbn [wp]. split; auto. exists c, t. split; auto. split; auto. eapply gs_include_with; eauto.
Qed.

(** ** Statement level *)
Definition top (ts : list tok) : Prop := exists at_, wf at_ true ts.

Lemma top_end t s used e es ts : top ((t, s) :: used ++ (e, es) :: ts) ->
  (e = TEndExpr \/ e = TEndBlock \/ e = TEndComment) -> top ts.
Proof.
  intros (at_ & H) He. change ((t, s) :: used ++ (e, es) :: ts) with (((t, s) :: used) ++ (e, es) :: ts) in H.
  apply wf_app in H as (at' & text' & H). inversion H as [|? ? ? ? tx ? W1 W2 W3 W4 W5]; subst.
  exists (sp_n es). destruct He as [-> | [-> | ->]]; simpl in W4; destruct W4 as [_ ->]; auto.
Qed.

Lemma parse_stmt_wp c bl sc t s p ts fin : ok p ts fin -> top ((t, s) :: ts) -> stk c bl sc ->
  ordered ((t, s) :: ts) -> Forall (fun b => span_ok source (bspan b)) bl ->
  wp (parse_stmt sr source t s p bl sc) (fun '(st, bl', sc', p') => exists used ts', ts = used ++ ts' /\ ok p' ts' fin /\ top ts' /\
    handled (c ++ (t, s) :: used) (st, bl', sc')).
Proof.
  intros H Htop Hs Ho Hb. destruct t; cbn [parse_stmt];
    try (exfalso; destruct Htop as (at_ & Hw); inversion Hw as [|? ? ? ? text' ? W1 W2 W3 W4 W5]; subst; simpl in W4; intuition discriminate).
  - cbn [wp]. exists [], ts. split; auto. split; auto. split.
    + destruct Htop as (at_ & Hw). inversion Hw as [|? ? ? ? text' ? W1 W2 W3 W4 W5]; subst. simpl in W4. subst text'. now exists (sp_n s).
    + split; auto. exists c, [(TRaw, s)]. split; auto. split; auto. constructor.
  - (* expression *)
    apply wp_bind. eapply wp_mono; [eapply parse_expr_wp; eauto|].
    intros [e p1] (u1 & ts1 & -> & H1 & G1). cbn [fst snd] in *.
    apply wp_bind. eapply wp_mono; [eapply expect_wp; eauto|].
    intros [es p2] (u2 & ts2 & E2 & H2 & G2). cbn [fst snd] in *. subst u2 ts1. cbn [app] in *. cbn [wp].
    exists (u1 ++ [(TEndExpr, es)]), ts2. split; [now rewrite <- app_assoc|]. split; auto. split; [eapply top_end; eauto|].
    split; auto. exists c, ((TBeginExpr, s) :: u1 ++ [(TEndExpr, es)]). split; auto. split; auto.
    rewrite (combine_toks source TBeginExpr s u1 TEndExpr es); [now constructor|].
    eapply (ordered_app_l source _ ts2). cbn [app]. rewrite <- app_assoc. exact Ho.
  - (* block *)
    apply wp_bind. eapply wp_mono; [eapply parse_block_wp; eauto|].
    intros [b p1] (u1 & ts1 & -> & H1 & G1). cbn [fst snd] in *.
    apply wp_bind. eapply wp_mono; [eapply expect_wp; eauto|].
    intros [es p2] (u2 & ts2 & E2 & H2 & G2). cbn [fst snd] in *. subst u2 ts1. cbn [app] in *.
    apply wp_bind. eapply wp_mono.
    { eapply handle_block_wp with (t := (TBeginBlock, s) :: u1 ++ [(TEndBlock, es)]); eauto.
      - apply span_ok_combine; [apply (ordered_tok _ _ _ Ho)|eapply ok_span; eauto].
      - exists s, es. auto. }
    intros [[st bl'] sc'] Hh. cbn [wp]. exists (u1 ++ [(TEndBlock, es)]), ts2. split; [now rewrite <- app_assoc|]. split; auto.
    split; [eapply top_end; eauto|]. exact Hh.
  - (* comment *)
    apply wp_bind. eapply wp_mono; [eapply expect_wp; eauto|].
    intros [rs p1] (u1 & ts1 & E1 & H1 & G1). cbn [fst snd] in *. subst u1 ts.
    apply wp_bind. eapply wp_mono; [eapply expect_wp; eauto|].
    intros [es p2] (u2 & ts2 & E2 & H2 & G2). cbn [fst snd] in *. subst u2 ts1. cbn [wp].
    exists [(TRaw, rs); (TEndComment, es)], ts2. split; auto. split; auto.
    split; [eapply (top_end _ _ [(TRaw, rs)]); eauto|]. split; auto.
    destruct (stk_app _ _ _ Hs) as (l & s' & -> & Happ). rewrite <- (app_nil_r l). apply Happ. do 2 constructor.
Qed.

Lemma parse_template_loop_wp fuel : forall c bl sc p ts fin, ok p ts fin -> top ts -> length ts < fuel -> stk c bl sc ->
  Forall (fun b => span_ok source (bspan b)) bl ->
  wp (parse_template_loop sr source fuel p bl sc) (fun '(bl', sc') => fin = None /\ stk (c ++ ts) bl' sc' /\
     Forall (fun b => span_ok source (bspan b)) bl').
Proof.
  induction fuel as [|fuel IH]; intros c bl sc p ts fin H Htop Hf Hs Hb; [lia|].
  cbn [parse_template_loop]. apply wp_bind. eapply wp_mono; [eapply next_wp; eauto|].
  intros [[[t s]|] p1].
  - intros (ts1 & -> & H1). apply wp_bind. eapply wp_mono; [eapply parse_stmt_wp; eauto|].
    { eapply ok_ordered; eauto. }
    intros [[[st bl'] sc'] p2] (used & ts2 & -> & H2 & Ht2 & Hb' & Hh).
    assert (Hlen : length ts2 < fuel) by (simpl in Hf; rewrite app_length in Hf; lia).
    destruct st as [st|].
    + destruct Hh as (c1 & c2 & Ec & Hst & Hg). destruct (stk_app _ _ _ Hst) as (l & s' & -> & Happ).
      cbn [push_stmt bind]. eapply wp_mono; [eapply (IH (c ++ (t, s) :: used)); eauto|].
      * rewrite Ec. apply Happ. now apply g_scope_one.
      * intros [bl2 sc2] (-> & K1 & K2). rewrite <- app_assoc in K1. auto.
    + eapply wp_mono; [eapply (IH (c ++ (t, s) :: used)); eauto|].
      intros [bl2 sc2] (-> & K1 & K2). rewrite <- app_assoc in K1. auto.
  - intros (-> & -> & H1). cbn [wp]. rewrite app_nil_r. auto.
Qed.
End ParseSound.
