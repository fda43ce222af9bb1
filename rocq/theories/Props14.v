(** Property theorems: the meaning of templates, and their layout (C40, C41). *)
From Verif Require Import Base Utf8 Ext Errors Syntax AhoCorasick SearchSpec SyntaxSpec Value Ast Lexer LexSpec Wp
  GrammarSpec Parser AstOk Compiler CompileProof ParseMain Fmt Stack Filters Render Engine EngineSpec CompileFacts
  RenderSpec RenderProof RenderErr MapFacts RenderMain RenderObs Props2 Props3 Demo Meaning MeaningProof LayoutSpec LayoutProof.

Section Facts.
Context `{X : Ext}.
Lemma unplaced_string (x : rt unit) : string_result (rmap_err unplaced x) = without_place (string_result x).
Proof.
  unfold string_result. generalize (@nil byte). induction x as [r|s o IHo e IHe]; intros buf; cbn [rmap_err run_string]; [|apply IHo].
  now destruct r as [[]| | |].
Qed.
Lemma unplaced_writer k w (x : rt unit) : writer_result k w (rmap_err unplaced x) = (fst (writer_result k w x), without_place (snd (writer_result k w x))).
Proof.
  unfold writer_result. generalize (@None N). revert w. induction x as [r|s o IHo e IHe]; intros w er; cbn [rmap_err run].
  - destruct r as [[]| | |], er; reflexivity.
  - destruct (sk_write k w s) as [w' [c|]]; [apply IHe|apply IHo].
Qed.
Lemma confined_bare source s : forall inside, confined inside (bare_stmt source s) <-> sharing_ok inside s.
Proof.
  assert (K : forall l, Forall (fun s => forall inside, confined inside (bare_stmt source s) <-> sharing_ok inside s) l ->
    forall inside, confined_all inside (map (bare_stmt source) l) <-> sharing_all inside l).
  { induction 1 as [|x l Hx _ IH]; intros inside; [reflexivity|]. cbn [map confined_all sharing_all]. rewrite Hx, IH. reflexivity. }
  induction s as [sp|e sp|nm g|neg c thn els Ht He|v e b Hb|e nm b Hb] using stmt_ind'; intros inside.
  - reflexivity.
  - reflexivity.
  - destruct g; reflexivity.
  - change (confined inside (bare_stmt source (SIf neg c thn els))) with
      (confined_all inside (map (bare_stmt source) thn) /\
       match (match els with Some l => Some (map (bare_stmt source) l) | None => None end) with Some l => confined_all inside l | None => True end).
    change (sharing_ok inside (SIf neg c thn els)) with (sharing_all inside thn /\ match els with Some l => sharing_all inside l | None => True end).
    rewrite (K thn Ht inside). destruct els as [l|]; [|reflexivity]. rewrite (K l He inside). reflexivity.
  - destruct v; exact (K b Hb inside).
  - exact (K b Hb true).
Qed.
Lemma confined_all_bare source l inside : confined_all inside (bare source l) <-> sharing_all inside l.
Proof. induction l as [|s l IH]; [reflexivity|]. cbn [bare map confined_all sharing_all]. rewrite confined_bare. unfold bare in IH. rewrite IH. reflexivity. Qed.
End Facts.

(** What a renderer renders with: its functions, default formatter, limit and
    templates (given their statements [ast_of]). *)
Definition world_of `{X : Ext} (inner : renderer_inner) (ast_of : template -> scope) : world :=
  mkworld (fun n => map_get n (en_functions (ri_engine inner))) (en_default_formatter (ri_engine inner)) (max_include_depth inner)
    (fun asked name =>
      match ri_template_fn inner with
      | Some f => match f asked name with inl t => inl (bare (t_source t) (ast_of t), name :: asked) | inr r => inr r end
      | None => match map_get name (en_templates (ri_engine inner)) with
                | Some t => inl (bare (t_source t) (ast_of t), asked)
                | None => inr (s2b "unknown template")
                end
      end).
(** The root template of a renderer. *)
Definition root_of (inner : renderer_inner) (ast_of : template -> scope) : list pstmt :=
  bare (t_source (ri_template inner)) (ast_of (ri_template inner)).

Section C40.
Context `{X : Ext}.

(** C40.  What a compiled template writes, in which pieces, and with which error it
    ends (kind, reason and template name) is its meaning: that of the tree of names,
    literals and texts of its statements.  Provided no template includes another
    from inside a [with] block (unless the include has its own [with]). *)
Theorem C40_meaning inner origin ast_of g :
  statements inner origin ast_of ->
  (forall t, provided inner t -> confined_all false (bare (t_source t) (ast_of t))) ->
  (forall st, initial_stack g = Ok st ->
  let m := m_render (world_of inner ast_of) (root_of inner ast_of) (ri_template_name inner) (start g) in
  (exists r, renders inner g r /\ without_place r = string_result m) /\
  forall k w, exists p, writes inner g k w p /\ (fst p, without_place (snd p)) = writer_result k w m).
Proof.
  intros H Hc st Hg m.
  assert (E : rmap_err unplaced (s_render inner ast_of st) = m).
  { apply render_means with (w := world_of inner ast_of); try reflexivity.
    - intros t Hp. split; [|split].
      + apply (statements_sourced inner origin ast_of H t Hp).
      + destruct (H t Hp) as ((Hu & _ & Hv & _) & D). eapply derives_nonempty; eauto.
      + apply confined_all_bare with (t_source t). auto.
    - destruct g as [[v| | |]|v|f]; cbn in Hg; try discriminate; injection Hg as <-; repeat constructor.
    - destruct (initial_stack_shape _ _ Hg) as [(v & ->)|(f & ->)]; unfold no_vars; cbn; repeat constructor. }
  destruct (C11_compiled_means_source inner origin ast_of g st H Hg) as (H1 & H2). split.
  - eexists. split; [exact H1|]. now rewrite <- E, unplaced_string.
  - intros k w. eexists. split; [apply H2|]. now rewrite <- E, unplaced_writer.
Qed.
End C40.
Print Assumptions C40_meaning.

Section PInd.
Variable P : pstmt -> Prop.
Hypothesis Htext : forall s, P (PText s).
Hypothesis Hshow : forall e, P (PShow e).
Hypothesis Hinclude : forall n a, P (PInclude n a).
Hypothesis Hif : forall n c thn els, Forall P thn -> (match els with Some l => Forall P l | None => True end) -> P (PIf n c thn els).
Hypothesis Hfor : forall i e b, Forall P b -> P (PFor i e b).
Hypothesis Hentries : forall k v e b, Forall P b -> P (PForEntries k v e b).
Hypothesis Hwith : forall e n b, Forall P b -> P (PWith e n b).
Fixpoint pstmt_ind' (s : pstmt) : P s :=
  let all := fix all (l : list pstmt) : Forall P l := match l with [] => Forall_nil P | x :: l' => Forall_cons x (pstmt_ind' x) (all l') end in
  match s with
  | PText s => Htext s
  | PShow e => Hshow e
  | PInclude n a => Hinclude n a
  | PIf n c thn els => Hif n c thn els (all thn) (match els with Some l => all l | None => I end)
  | PFor i e b => Hfor i e b (all b)
  | PForEntries k v e b => Hentries k v e b (all b)
  | PWith e n b => Hwith e n b (all b)
  end.
End PInd.

(** ** Worlds that agree *)
Section Agree.
Context `{X : Ext}.
Variables w1 w2 : world.
Hypothesis Hf : forall n, w_function w1 n = w_function w2 n.
Hypothesis Hd : w_default w1 = w_default w2.
Hypothesis Hl : w_limit w1 = w_limit w2.
Hypothesis Ht : forall asked n, w_find w1 asked n = w_find w2 asked n.
Lemma agree_expr en e : m_expr w1 en e = m_expr w2 en e.
Proof. induction e as [a|recv IH name args]; cbn [m_expr]; [reflexivity|]. rewrite IH. unfold m_apply. now rewrite Hf. Qed.
Lemma agree_show en e : m_show w1 en e = m_show w2 en e.
Proof. unfold m_show. destruct e as [a|recv name [args|]]; rewrite ?agree_expr, ?Hd, ?Hf; reflexivity. Qed.
Section Stmts.
Variables inc1 inc2 : option meaning.
Hypothesis Hi : match inc1, inc2 with Some a, Some b => forall body n en asked, a body n en asked = b body n en asked | None, None => True | _, _ => False end.
Variable n : option str.
Lemma agree_stmt : forall s en asked, m_stmt w1 inc1 n s en asked = m_stmt w2 inc2 n s en asked.
Proof.
  assert (SC : forall l, Forall (fun x => forall en asked, m_stmt w1 inc1 n x en asked = m_stmt w2 inc2 n x en asked) l ->
    forall en asked, m_scope w1 inc1 n l en asked = m_scope w2 inc2 n l en asked).
  { induction 1 as [|x l Hx _ IHl]; intros en asked; cbn [m_scope]; [reflexivity|]. rewrite Hx. apply rbind_ext. intros a. apply IHl. }
  assert (Each : forall f g en bs, (forall en h, f en h = g en h) -> forall h, m_each f en bs h = m_each g en bs h).
  { intros f g en bs E. induction bs as [|b bs IHb]; intros h; cbn [m_each]; [reflexivity|]. rewrite E. apply rbind_ext. apply IHb. }
  intros s. induction s as [t|e|name arg|neg c thn els IHt IHe|item e b IHb|kn vn e b IHb|e name b IHb] using pstmt_ind'; intros en asked.
  - reflexivity.
  - cbn [m_stmt]. now rewrite agree_show.
  - assert (IN : forall en', match w_find w1 asked name with
      | inr r => m_fail n (KRender, r)
      | inl (body, asked) => match inc1 with None => m_fail None (KRender, s2b "reached maximum include depth (" ++ show_N (w_limit w1) ++ s2b ")") | Some meaning => meaning body (Some name) en' asked end
      end = match w_find w2 asked name with
      | inr r => m_fail n (KRender, r)
      | inl (body, asked) => match inc2 with None => m_fail None (KRender, s2b "reached maximum include depth (" ++ show_N (w_limit w2) ++ s2b ")") | Some meaning => meaning body (Some name) en' asked end
      end).
    { intros en'. rewrite Ht, Hl. destruct (w_find w2 asked name) as [[body h]|r]; [|reflexivity]. destruct inc1, inc2; try contradiction; auto. }
    cbn [m_stmt]. destruct arg as [e|]; [|apply IN]. rewrite agree_expr. destruct (m_expr w2 en e); [apply IN|reflexivity].
  - rewrite !m_stmt_if, agree_expr. destruct (m_expr w2 en c) as [v|]; [|reflexivity].
    destruct (xorb _ _); [now apply SC|]. destruct els as [l|]; [now apply SC|reflexivity].
  - rewrite !m_stmt_for, agree_expr. destruct (m_expr w2 en e) as [v|]; [|reflexivity]. destruct (cow_val v); try reflexivity. apply Each. now apply SC.
  - rewrite !m_stmt_entries, agree_expr. destruct (m_expr w2 en e) as [v|]; [|reflexivity]. destruct (cow_val v); try reflexivity. apply Each. now apply SC.
  - rewrite !m_stmt_with, agree_expr. destruct (m_expr w2 en e) as [v|]; [|reflexivity]. now apply SC.
Qed.
Lemma agree_scope l : forall en asked, m_scope w1 inc1 n l en asked = m_scope w2 inc2 n l en asked.
Proof. induction l as [|x l IHl]; intros en asked; cbn [m_scope]; [reflexivity|]. rewrite agree_stmt. apply rbind_ext. intros a. apply IHl. Qed.
End Stmts.
Lemma agree_template d : forall body n en asked, m_template w1 d body n en asked = m_template w2 d body n en asked.
Proof. induction d as [|d IH]; intros body n en asked; cbn [m_template]; now apply agree_scope. Qed.
Lemma agree_render body n en : m_render w1 body n en = m_render w2 body n en.
Proof. unfold m_render. rewrite Hl, agree_template. reflexivity. Qed.
End Agree.

Section C41.
Context `{X : Ext}.

(** C41.  Compilation depends on the significant tokens only (LayoutSpec.v): not on
    the delimiters, the white space in tags, the comments. *)
Theorem C41_compiles sx1 e1 source1 sx2 e2 source2 :
  user_syntax sx1 -> trims_ok sx1 source1 -> engine_for sx1 e1 -> valid_utf8 source1 ->
  user_syntax sx2 -> trims_ok sx2 source2 -> engine_for sx2 e2 -> valid_utf8 source2 ->
  alike sx1 source1 sx2 source2 ->
  (exists t, engine_compile source1 e1 = Ok t) <-> (exists t, engine_compile source2 e2 = Ok t).
Proof.
  intros Hu1 Hc1 He1 Hv1 Hu2 Hc2 He2 Hv2 Ha.
  rewrite (proj1 (proj2 (C08_accepted_iff_grammatical sx1 e1 source1 Hu1 Hc1 He1 Hv1))), (proj1 (proj2 (C08_accepted_iff_grammatical sx2 e2 source2 Hu2 Hc2 He2 Hv2))). split.
  - intros (l & D). destruct (derives_alike sx1 source1 sx2 source2 l Hu1 Hc1 Hv1 Ha D) as (l2 & D2 & _). eauto.
  - intros (l & D). destruct (derives_alike sx2 source2 sx1 source1 l Hu2 Hc2 Hv2) as (l2 & D2 & _); eauto.
    destruct Ha as (sg & A & B). now exists sg.
Qed.

(** Two renderers that differ only in the layout of their templates. *)
Definition alike_templates (origin1 : template -> syntax) (t1 : template) (origin2 : template -> syntax) (t2 : template) : Prop :=
  alike (origin1 t1) (t_source t1) (origin2 t2) (t_source t2).
Definition alike_renderers (inner1 : renderer_inner) (origin1 : template -> syntax) (inner2 : renderer_inner) (origin2 : template -> syntax) : Prop :=
  en_functions (ri_engine inner1) = en_functions (ri_engine inner2) /\
  en_default_formatter (ri_engine inner1) = en_default_formatter (ri_engine inner2) /\
  max_include_depth inner1 = max_include_depth inner2 /\
  ri_template_name inner1 = ri_template_name inner2 /\
  alike_templates origin1 (ri_template inner1) origin2 (ri_template inner2) /\
  match ri_template_fn inner1, ri_template_fn inner2 with
  | Some f1, Some f2 => forall asked name,
      match f1 asked name, f2 asked name with
      | inl t1, inl t2 => alike_templates origin1 t1 origin2 t2
      | inr r1, inr r2 => r1 = r2
      | _, _ => False
      end
  | None, None => forall name,
      match map_get name (en_templates (ri_engine inner1)), map_get name (en_templates (ri_engine inner2)) with
      | Some t1, Some t2 => alike_templates origin1 t1 origin2 t2
      | None, None => True
      | _, _ => False
      end
  | _, _ => False
  end.

(** C41.  They have the same results, except for the places of errors. *)
Theorem C41_layout inner1 origin1 inner2 origin2 g :
  well_made inner1 origin1 -> well_made inner2 origin2 -> alike_renderers inner1 origin1 inner2 origin2 ->
  (forall t s, provided inner1 t -> derives (origin1 t) (t_source t) s -> sharing_all false s) ->
  (forall r1 r2, renders inner1 g r1 -> renders inner2 g r2 -> without_place r1 = without_place r2) /\
  forall k w p1 p2, writes inner1 g k w p1 -> writes inner2 g k w p2 ->
    fst p1 = fst p2 /\ without_place (snd p1) = without_place (snd p2).
Proof.
  intros W1 W2 (A1 & A2 & A3 & A4 & A5 & A6) S1.
  destruct (statements_exist _ _ W1) as (ast1 & H1). destruct (statements_exist _ _ W2) as (ast2 & H2).
  assert (B : forall t1 t2, provided inner1 t1 -> provided inner2 t2 -> alike_templates origin1 t1 origin2 t2 -> bare (t_source t1) (ast1 t1) = bare (t_source t2) (ast2 t2)).
  { intros t1 t2 P1 P2 Ha. destruct (H1 t1 P1) as ((Hu & Hc & Hv & _) & D1). destruct (H2 t2 P2) as ((Hu2 & Hc2 & Hv2 & e2 & He2 & _) & D2).
    destruct (derives_alike _ _ _ _ _ Hu Hc Hv Ha D1) as (l & D & E). rewrite E. f_equal.
    eapply (proj2 (proj2 (C08_accepted_iff_grammatical _ _ _ Hu2 Hc2 He2 Hv2))); eauto. }
  assert (EM : m_render (world_of inner1 ast1) (root_of inner1 ast1) (ri_template_name inner1) (start g) =
               m_render (world_of inner2 ast2) (root_of inner2 ast2) (ri_template_name inner2) (start g)).
  { rewrite A4. unfold root_of. rewrite (B _ _ (or_introl eq_refl) (or_introl eq_refl) A5). apply agree_render; cbn [world_of w_function w_default w_limit w_find].
    - intros n. now rewrite A1.
    - exact A2.
    - exact A3.
    - intros asked n. destruct (ri_template_fn inner1) as [f1|] eqn:F1, (ri_template_fn inner2) as [f2|] eqn:F2; try contradiction.
      + specialize (A6 asked n). destruct (f1 asked n) as [t1|r1] eqn:E1, (f2 asked n) as [t2|r2] eqn:E2; try contradiction; [|congruence].
        rewrite (B t1 t2); auto; right; left; eauto 6.
      + specialize (A6 n). destruct (map_get n (en_templates (ri_engine inner1))) as [t1|] eqn:E1, (map_get n (en_templates (ri_engine inner2))) as [t2|] eqn:E2; try contradiction; [|reflexivity].
        rewrite (B t1 t2); auto; right; right; eauto. }
  assert (C1 : forall t, provided inner1 t -> confined_all false (bare (t_source t) (ast1 t))).
  { intros t Hp. apply confined_all_bare. apply (S1 t); auto. apply (H1 t Hp). }
  assert (C2 : forall t, provided inner2 t -> confined_all false (bare (t_source t) (ast2 t))).
  { intros t2 Hp. assert (exists t1, provided inner1 t1 /\ alike_templates origin1 t1 origin2 t2) as (t1 & Hp1 & Ha).
    { destruct Hp as [->|[(f2 & h & n & F2 & E2)|(F2 & n & E2)]].
      - exists (ri_template inner1). split; [now left|exact A5].
      - rewrite F2 in A6. destruct (ri_template_fn inner1) as [f1|] eqn:F1; [|contradiction]. specialize (A6 h n). rewrite E2 in A6.
        destruct (f1 h n) as [t1|] eqn:E1; [|contradiction]. exists t1. split; [right; left; eauto 6|exact A6].
      - rewrite F2 in A6. destruct (ri_template_fn inner1) as [f1|] eqn:F1; [contradiction|]. specialize (A6 n). rewrite E2 in A6.
        destruct (map_get n (en_templates (ri_engine inner1))) as [t1|] eqn:E1; [|contradiction]. exists t1. split; [right; right; eauto|exact A6]. }
    rewrite <- (B t1 t2 Hp1 Hp Ha). auto. }
  destruct (initial_stack g) as [st|e| |] eqn:E.
  - destruct (C40_meaning inner1 origin1 ast1 g H1 C1 st E) as ((r1 & R1 & M1) & T1). destruct (C40_meaning inner2 origin2 ast2 g H2 C2 st E) as ((r2 & R2 & M2) & T2).
    rewrite EM in M1. split.
    + intros r1' r2' X1 X2. rewrite (renders_fun _ _ _ _ X1 R1), (renders_fun _ _ _ _ X2 R2), M1, M2. reflexivity.
    + intros k w p1 p2 X1 X2. destruct (T1 k w) as (q1 & Y1 & Z1). destruct (T2 k w) as (q2 & Y2 & Z2). rewrite EM in Z1.
      rewrite (writes_fun _ _ _ _ _ _ X1 Y1), (writes_fun _ _ _ _ _ _ X2 Y2). rewrite <- Z2 in Z1. injection Z1 as -> ->. auto.
  - split.
    + intros r1 r2 (_ & n & R1) (_ & m & R2). rewrite <- (R1 n), <- (R2 m) by auto. unfold to_string. now rewrite E.
    + intros k w p1 p2 (_ & n & R1) (_ & m & R2). rewrite <- (R1 n), <- (R2 m) by auto. unfold to_writer. rewrite E. auto.
  - split.
    + intros r1 r2 (_ & n & R1) (_ & m & R2). rewrite <- (R1 n), <- (R2 m) by auto. unfold to_string. now rewrite E.
    + intros k w p1 p2 (_ & n & R1) (_ & m & R2). rewrite <- (R1 n), <- (R2 m) by auto. unfold to_writer. rewrite E. auto.
  - split.
    + intros r1 r2 (_ & n & R1) (_ & m & R2). rewrite <- (R1 n), <- (R2 m) by auto. unfold to_string. now rewrite E.
    + intros k w p1 p2 (_ & n & R1) (_ & m & R2). rewrite <- (R1 n), <- (R2 m) by auto. unfold to_writer. rewrite E. auto.
Qed.
End C41.
Print Assumptions C41_compiles.
Print Assumptions C41_layout.

(** ** Concrete cases *)
Local Existing Instance ascii_ext.
(** Beside C40: the demo page; its meaning. *)
Definition demo_ast (t : template) : scope := match parse_template (en_searcher demo_engine) (t_source t) with Ok l => l | _ => [] end.
Lemma demo_statements name : well_made (demo name) (fun _ => default_syntax) -> statements (demo name) (fun _ => default_syntax) demo_ast.
Proof.
  intros W t Hp. pose proof (W t Hp) as Ht. split; [exact Ht|]. destruct Ht as (Hu & Hc & Hv & e & He & Ec). unfold demo_ast.
  pose proof (engine_searcher _ _ demo_for) as Hs. pose proof (engine_searcher _ _ He) as Hs'. assert (Es : en_searcher demo_engine = en_searcher e) by congruence.
  destruct (proj1 (proj1 (proj2 (C08_accepted_iff_grammatical _ e (t_source t) Hu Hc He Hv))) (ex_intro _ t Ec)) as (s & D).
  rewrite Es. apply (C08_accepted_iff_grammatical _ e (t_source t) Hu Hc He Hv) in D as D'. rewrite D'. exact D.
Qed.
Fixpoint confinedb (inside : bool) (s : pstmt) : bool :=
  let all := fix all (inside : bool) (l : list pstmt) : bool :=
    match l with [] => true | s :: l' => confinedb inside s && all inside l' end in
  match s with
  | PText _ | PShow _ => true
  | PInclude _ None => negb inside
  | PInclude _ (Some _) => true
  | PIf _ _ thn els => all inside thn && match els with Some l => all inside l | None => true end
  | PFor _ _ b | PForEntries _ _ _ b => all inside b
  | PWith _ _ b => all true b
  end.
Lemma confinedb_ok s : forall inside, confinedb inside s = true -> confined inside s.
Proof.
  assert (K : forall l, Forall (fun s => forall inside, confinedb inside s = true -> confined inside s) l -> forall inside,
    (fix all (inside : bool) (l : list pstmt) : bool := match l with [] => true | s :: l' => confinedb inside s && all inside l' end) inside l = true -> confined_all inside l).
  { induction 1 as [|x l Hx _ IH]; intros inside E; [exact I|]. apply andb_prop in E as [E1 E2]. split; auto. }
  induction s as [t|e|name arg|neg c thn els IHt IHe|item e b IHb|kn vn e b IHb|e name b IHb] using pstmt_ind'; intros inside E; cbn [confinedb] in E.
  - exact I.
  - exact I.
  - destruct arg; [exact I|]. now destruct inside.
  - apply andb_prop in E as [E1 E2]. split; [exact (K thn IHt inside E1)|]. destruct els as [l|]; [exact (K l IHe inside E2)|exact I].
  - exact (K b IHb inside E).
  - exact (K b IHb inside E).
  - exact (K b IHb true E).
Qed.
Lemma confinedb_all l inside : forallb (confinedb inside) l = true -> confined_all inside l.
Proof. induction l as [|x l IH]; intros E; [exact I|]. apply andb_prop in E as [E1 E2]. split; [now apply confinedb_ok|auto]. Qed.
Lemma demo_confined : forall t, provided (demo "page") t -> confined_all false (bare (t_source t) (demo_ast t)).
Proof.
  intros t [->|[(f & h & n & E & _)|(_ & n & E)]].
  - apply confinedb_all. vm_compute. reflexivity.
  - vm_compute in E. discriminate E.
  - apply map_get_In in E. change (In (n, t) (en_templates demo_engine)) in E.
    assert (A : forallb (fun p => forallb (confinedb false) (bare (t_source (snd p)) (demo_ast (snd p)))) (en_templates demo_engine) = true) by (vm_compute; reflexivity).
    rewrite forallb_forall in A. apply confinedb_all. exact (A _ E).
Qed.
Example C40_case : statements (demo "page") (fun _ => default_syntax) demo_ast /\
  (forall t, provided (demo "page") t -> confined_all false (bare (t_source t) (demo_ast t))) /\
  (exists st, initial_stack (GBorrowed demo_value) = Ok st) /\
  firstn 1 (root_of (demo "page") demo_ast) = [PFor (s2b "item") (PAtom (PVar (s2b "items") [])) [PInclude (s2b "row") None]] /\
  string_result (m_render (world_of (demo "page") demo_ast) (root_of (demo "page") demo_ast) (ri_template_name (demo "page")) (start (GBorrowed demo_value))) =
    Ok (s2b "<x>, <7> T -ANN-").
Proof.
  split; [exact (demo_statements "page" page_well_made)|]. split; [exact demo_confined|]. split; [eexists; reflexivity|]. split; vm_compute; reflexivity.
Qed.

(** Beside C41: an engine with other delimiters, and the demo page in another
    layout, with comments. *)
Fixpoint strip (ts : list tok) : option (list tok) :=
  match ts with
  | [] => Some []
  | (TBeginComment, _) :: (TRaw, _) :: (TEndComment, _) :: ts' => strip ts'
  | (TBeginComment, _) :: _ => None
  | t :: ts' => match strip ts' with Some l => Some (t :: l) | None => None end
  end.
Lemma strip_ok n : forall ts ts', length ts <= n -> strip ts = Some ts' -> without_comments ts ts'.
Proof.
  induction n as [|n IH]; intros ts ts' Hn E.
  - destruct ts; [|cbn in Hn; lia]. injection E as <-. constructor.
  - destruct ts as [|[t s] ts]; [injection E as <-; constructor|]. cbn [length] in Hn.
    assert (O : t <> TBeginComment -> match strip ts with Some l => Some ((t, s) :: l) | None => None end = Some ts' -> without_comments ((t, s) :: ts) ts').
    { intros Ht E'. destruct (strip ts) as [l|] eqn:El; [|discriminate]. injection E' as <-. constructor; auto. apply IH; auto. lia. }
    destruct t; try (apply O; [discriminate|exact E]). clear O.
    destruct ts as [|[t1 s1] ts]; [discriminate E|]. destruct t1; try discriminate E. destruct ts as [|[t2 s2] ts]; [discriminate E|]. destruct t2; try discriminate E.
    constructor. apply IH; [cbn [length] in Hn; lia|exact E].
Qed.
Definition gist (e : engine) (source : str) : option (list (token * str)) :=
  match lex_all (en_searcher e) source with Ok ts => match strip ts with Some l => Some (map (sense source) l) | None => None end | _ => None end.
Lemma gist_ok sx e source l : user_syntax sx -> trims_ok sx source -> engine_for sx e -> valid_utf8 source -> gist e source = Some l -> significant sx source l.
Proof.
  intros Hu Hc He Hv E. unfold gist in E. destruct (lex_all_ok sx e source Hu Hc He Hv) as (ts & H).
  destruct (lex_all (en_searcher e) source) as [toks| | |]; try discriminate E. destruct H as (T & ->).
  destruct (strip (nonspace ts)) as [l'|] eqn:Es; [|discriminate E]. injection E as <-. exists ts, l'. split; [exact T|]. split; [eapply strip_ok; eauto|reflexivity].
Qed.
Lemma gist_alike sx1 e1 source1 sx2 e2 source2 : user_syntax sx1 -> trims_ok sx1 source1 -> engine_for sx1 e1 -> valid_utf8 source1 ->
  user_syntax sx2 -> trims_ok sx2 source2 -> engine_for sx2 e2 -> valid_utf8 source2 ->
  forall l, gist e1 source1 = Some l -> gist e2 source2 = Some l -> alike sx1 source1 sx2 source2.
Proof. intros. exists l. split; eapply gist_ok; eauto. Qed.
Definition other_syntax : syntax :=
  sb_build {| sb_expr := Some (s2b "${", s2b "}"); sb_block := Some (s2b "<%", s2b "%>"); sb_comment := Some (s2b "<!--", s2b "-->") |}.
Lemma other_user_syntax : user_syntax other_syntax.
Proof.
  eexists. split; [|reflexivity].
  apply bd_comment with (sb := Build_syntax_builder (Some (s2b "${", s2b "}")) (Some (s2b "<%", s2b "%>")) None) (b := s2b "<!--") (e := s2b "-->"); [|apply asciib_valid; reflexivity|apply asciib_valid; reflexivity|reflexivity].
  apply bd_block with (sb := Build_syntax_builder (Some (s2b "${", s2b "}")) None None) (b := s2b "<%") (e := s2b "%>"); [|apply asciib_valid; reflexivity|apply asciib_valid; reflexivity|reflexivity].
  apply bd_expr with (sb := Build_syntax_builder None None None) (b := s2b "${") (e := s2b "}"); [|apply asciib_valid; reflexivity|apply asciib_valid; reflexivity|reflexivity].
  exact bd_new.
Qed.
Lemma other_closers_ok : closers_ok other_syntax.
Proof.
  intros k p Hin Ho. apply trim_end_closer.
  - exact (proj2 (user_syntax_pat _ other_user_syntax _ _ Hin)).
  - revert Ho. repeat (destruct Hin as [E|Hin]; [injection E as <- <-; vm_compute; congruence|]). destruct Hin.
Qed.
Definition other_templates : list (string * string) :=
  [("row"%string, "<!-- a row --><${item.name}><%if   not loop.last%>, <%endif%>"%string);
   ("foot"%string, "-${-name|upper-}-"%string);
   ("page"%string, "<% for item in items %><!-- rows --><%-  include ""row""%><%endfor %><%with title as t%> ${   t   }<%endwith%> <%include ""foot"" with user%><!-- the end -->"%string);
   ("again"%string, "a<%include ""again""%>"%string)].
Definition other_engine : engine :=
  match engine_with_syntax other_syntax with Ok e => adds other_templates (fst (add_filter (s2b "upper") upper e)) | _ => mkengine [] fmt_default [] [] 0 end.
Lemma other_for : engine_for other_syntax other_engine.
Proof.
  unfold other_engine. destruct (engine_with_syntax other_syntax) as [e| | |] eqn:E; try (vm_compute in E; discriminate).
  apply adds_for; [vm_compute; reflexivity|]. apply ef_filter. now apply ef_new.
Qed.
Fixpoint same_gists (l1 l2 : list (str * template)) : Prop :=
  match l1, l2 with
  | [], [] => True
  | (n1, t1) :: l1', (n2, t2) :: l2' =>
    n1 = n2 /\ asciib (t_source t1) = true /\ asciib (t_source t2) = true /\
    (exists l, gist demo_engine (t_source t1) = Some l) /\ gist demo_engine (t_source t1) = gist other_engine (t_source t2) /\ same_gists l1' l2'
  | _, _ => False
  end.
Lemma same_gists_ok : same_gists (en_templates demo_engine) (en_templates other_engine).
Proof. vm_compute. repeat split; eexists; reflexivity. Qed.
Lemma same_gists_alike l1 : forall l2, same_gists l1 l2 -> forall name,
  match map_get name l1, map_get name l2 with
  | Some t1, Some t2 => alike_templates (fun _ => default_syntax) t1 (fun _ => other_syntax) t2
  | None, None => True
  | _, _ => False
  end.
Proof.
  induction l1 as [|[n1 t1] l1 IH]; intros [|[n2 t2] l2] H name; cbn [same_gists] in H; try contradiction; [exact I|].
  destruct H as (-> & V1 & V2 & (l & G1) & G2 & H). cbn [map_get]. destruct (str_eqb name n2); [|apply IH; exact H].
  refine (gist_alike _ _ _ _ _ _ default_user_syntax (default_trims_ok _) demo_for (asciib_valid _ V1) other_user_syntax (LexProof.closers_trims _ _ other_closers_ok) other_for (asciib_valid _ V2) l G1 _).
  rewrite <- G2. exact G1.
Qed.
Lemma renderer_shape e name t : map_get (s2b name) (en_templates e) = Some t -> renderer_of e name = mkinner e t (Some (s2b name)) None None.
Proof. intros E. unfold renderer_of, engine_get_template. rewrite E. reflexivity. Qed.
Lemma other_page_well_made : well_made (renderer_of other_engine "page") (fun _ => other_syntax).
Proof.
  destruct (map_get (s2b "page") (en_templates other_engine)) as [t|] eqn:E; [|vm_compute in E; discriminate E].
  rewrite (renderer_shape _ _ _ E). apply engine_well_made; [exact other_user_syntax|intros ? ? _; apply LexProof.closers_trims, other_closers_ok|exact other_for|].
  exact (engine_templates _ _ other_user_syntax other_for (s2b "page") _ (map_get_In _ _ _ E) (LexProof.closers_trims _ _ other_closers_ok)).
Qed.
Example C41_case :
  well_made (demo "page") (fun _ => default_syntax) /\ well_made (renderer_of other_engine "page") (fun _ => other_syntax) /\
  alike_renderers (demo "page") (fun _ => default_syntax) (renderer_of other_engine "page") (fun _ => other_syntax) /\
  (forall t s, provided (demo "page") t -> derives default_syntax (t_source t) s -> sharing_all false s) /\
  t_source (ri_template (demo "page")) <> t_source (ri_template (renderer_of other_engine "page")).
Proof.
  split; [exact page_well_made|]. split; [exact other_page_well_made|]. split; [|split].
  - pose proof (same_gists_alike _ _ same_gists_ok) as A. pose proof (A (s2b "page")) as B. unfold demo.
    destruct (map_get (s2b "page") (en_templates demo_engine)) as [t1|] eqn:E1; [|vm_compute in E1; discriminate E1].
    destruct (map_get (s2b "page") (en_templates other_engine)) as [t2|] eqn:E2; [|vm_compute in E2; discriminate E2].
    rewrite (renderer_shape _ _ _ E1), (renderer_shape _ _ _ E2). split; [vm_compute; reflexivity|]. split; [vm_compute; reflexivity|].
    split; [vm_compute; reflexivity|]. split; [reflexivity|]. split; [exact B|exact A].
  - intros t s Hp D. pose proof (demo_confined t Hp) as C. destruct (demo_statements "page" page_well_made t Hp) as ((Hu & Hc & Hv & e & He & _) & D').
    replace (demo_ast t) with s in C by (eapply (proj2 (proj2 (C08_accepted_iff_grammatical _ _ _ Hu Hc He Hv))); eauto).
    apply confined_all_bare in C. exact C.
  - vm_compute. discriminate.
Qed.
