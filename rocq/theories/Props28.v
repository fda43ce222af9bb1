(** Property C55: names do not matter. *)
From Verif Require Import Base Utf8 Ext Errors Syntax AhoCorasick SearchSpec SyntaxSpec Value Ast Lexer LexSpec Wp
  GrammarSpec Parser AstOk Compiler CompileProof ParseMain Fmt Stack Filters Render Engine EngineSpec CompileFacts
  RenderSpec RenderProof RenderErr MapFacts RenderMain RenderObs Props2 Props3 Demo Meaning MeaningProof ExtendSpec Props14
  RefactorSpec Refactor Props19 RenameSpec Rename.

Section C55.
Context `{X : Ext}.
Variables vars funs temps : str -> str.
(** The statements of the second template are those of the first with the new names. *)
Definition renamed (origin1 origin2 : template -> syntax) (t1 t2 : template) : Prop :=
  exists l1 l2, derives (origin1 t1) (t_source t1) l1 /\ derives (origin2 t2) (t_source t2) l2 /\
    bare (t_source t2) l2 = map (new_stmt vars funs temps) (bare (t_source t1) l1).

(** C55.  If variables (of the context, of loops and of [with] blocks), filters and
    formatters, and templates get new names, everywhere alike and different variables
    different ones, the result is the same, except for template names and places in
    errors; for [io::Write]rs too. *)
Theorem C55_renaming inner1 origin1 inner2 origin2 g1 g2 :
  well_made inner1 origin1 -> well_made inner2 origin2 ->
  good_names vars -> new_context vars g1 g2 ->
  new_renderer funs temps (renamed origin1 origin2) inner1 inner2 ->
  (forall n, vars n = n) \/
  (forall t l, provided inner1 t -> derives (origin1 t) (t_source t) l -> Forall no_include_with (bare (t_source t) l)) ->
  (forall t s, provided inner1 t -> derives (origin1 t) (t_source t) s -> sharing_all false s) ->
  (forall t s, provided inner2 t -> derives (origin2 t) (t_source t) s -> sharing_all false s) ->
  (forall r1 r2, renders inner1 g1 r1 -> renders inner2 g2 r2 -> without_place r2 = new_result temps (without_place r1)) /\
  forall k w w1 r1 w2 r2, writes inner1 g1 k w (w1, r1) -> writes inner2 g2 k w (w2, r2) ->
    w2 = w1 /\ without_place r2 = new_result temps (without_place r1).
Proof.
  intros W1 W2 (Hinj & Hloop) Hg [N1 N2 N3 N4 N5 N6] HI S1 S2.
  destruct (statements_exist _ _ W1) as (ast1 & H1). destruct (statements_exist _ _ W2) as (ast2 & H2).
  assert (B : forall t1 t2, provided inner1 t1 -> provided inner2 t2 -> renamed origin1 origin2 t1 t2 ->
    bare (t_source t2) (ast2 t2) = map (new_stmt vars funs temps) (bare (t_source t1) (ast1 t1))).
  { intros t1 t2 P1 P2 (l1 & l2 & D1 & D2 & R). destruct (H1 t1 P1) as ((Hu & Hc & Hv & e1 & He1 & _) & D1'). destruct (H2 t2 P2) as ((Hu2 & Hc2 & Hv2 & e2 & He2 & _) & D2').
    rewrite (proj2 (proj2 (C08_accepted_iff_grammatical _ _ _ Hu Hc He1 Hv)) _ _ D1' D1), (proj2 (proj2 (C08_accepted_iff_grammatical _ _ _ Hu2 Hc2 He2 Hv2)) _ _ D2' D2). exact R. }
  assert (Al : forall t, provided inner1 t -> allowed_all vars (bare (t_source t) (ast1 t))).
  { intros t Hp. destruct HI as [HI|HI]; [apply Forall_forall; intros; now left|]. destruct (H1 t Hp) as (_ & D). eapply Forall_impl; [|exact (HI t _ Hp D)]. intros s; now right. }
  assert (I1 : exists st1, initial_stack g1 = Ok st1) by (destruct Hg as [? ? ? ? [] _ _|? ? ? _ [] _|]; cbn; eauto).
  assert (I2 : exists st2, initial_stack g2 = Ok st2) by (destruct Hg as [? ? ? ? _ [] _|? ? ? _ _ []|]; cbn; eauto).
  destruct I1 as (st1 & E1), I2 as (st2 & E2).
  assert (C1 : forall t, provided inner1 t -> confined_all false (bare (t_source t) (ast1 t))) by (intros t Hp; apply confined_all_bare, (S1 t); auto; apply (H1 t Hp)).
  assert (C2 : forall t, provided inner2 t -> confined_all false (bare (t_source t) (ast2 t))) by (intros t Hp; apply confined_all_bare, (S2 t); auto; apply (H2 t Hp)).
  assert (S : twin temps eq (m_render (world_of inner1 ast1) (root_of inner1 ast1) (ri_template_name inner1) (start g1))
    (m_render (world_of inner2 ast2) (root_of inner2 ast2) (ri_template_name inner2) (start g2))).
  { unfold root_of. rewrite N5, (B _ _ (or_introl eq_refl) (or_introl eq_refl) N4).
    apply re_render; auto; cbn [world_of w_function w_default w_limit w_find].
    - intros h n. destruct (ri_template_fn inner1) as [f1|] eqn:F1, (ri_template_fn inner2) as [f2|] eqn:F2; try contradiction.
      + specialize (N6 h n). destruct (f1 h n) as [t1|x1] eqn:T1, (f2 (map temps h) (temps n)) as [t2|x2] eqn:T2; try contradiction; [|exact N6].
        assert (P1 : provided inner1 t1) by (right; left; eauto 6). assert (P2 : provided inner2 t2) by (right; left; eauto 6). auto.
      + specialize (N6 n). destruct (map_get n (en_templates (ri_engine inner1))) as [t1|] eqn:T1, (map_get (temps n) (en_templates (ri_engine inner2))) as [t2|] eqn:T2; try contradiction; [|reflexivity].
        assert (P1 : provided inner1 t1) by (right; right; eauto). assert (P2 : provided inner2 t2) by (right; right; eauto). auto.
    - apply Al. now left.
    - now apply renv_start. }
  destruct (C40_meaning inner1 origin1 ast1 g1 H1 C1 st1 E1) as ((r1' & R1' & M1) & V1). destruct (C40_meaning inner2 origin2 ast2 g2 H2 C2 st2 E2) as ((r2' & R2' & M2) & V2). split.
  - intros r1 r2 R1 R2. rewrite (renders_fun _ _ _ _ R1 R1'), (renders_fun _ _ _ _ R2 R2'), M1, M2. now apply twin_string.
  - intros k w w1 r1 w2 r2 R1 R2. destruct (V1 k w) as ((w1' & r1'') & R1'' & K1), (V2 k w) as ((w2' & r2'') & R2'' & K2).
    pose proof (writes_fun _ _ _ _ _ _ R1 R1'') as X1. pose proof (writes_fun _ _ _ _ _ _ R2 R2'') as X2. injection X1 as -> ->. injection X2 as -> ->.
    cbn [fst snd] in K1, K2. rewrite (twin_writer temps k w _ _ S), <- K1 in K2. cbn [fst snd] in K2. injection K2 as -> ->. auto.
Qed.
End C55.
Print Assumptions C55_renaming.

(** ** A concrete case *)
(** Exchanging names. *)
Definition exchange (p : str * str) (n : str) : str := if str_eqb n (fst p) then snd p else if str_eqb n (snd p) then fst p else n.
Definition exchanges (l : list (str * str)) (n : str) : str := fold_right exchange n l.
Lemma exchange_twice p n : exchange p (exchange p n) = n.
Proof.
  destruct p as [a b]. unfold exchange. cbn [fst snd]. destruct (str_eqb n a) eqn:E1.
  - apply str_eqb_eq in E1 as ->. rewrite (proj2 (str_eqb_eq b b) eq_refl). destruct (str_eqb b a) eqn:E; [now apply str_eqb_eq in E|reflexivity].
  - destruct (str_eqb n b) eqn:E2; [|now rewrite E1, E2]. apply str_eqb_eq in E2 as ->. now rewrite (proj2 (str_eqb_eq a a) eq_refl).
Qed.
Lemma exchanges_inj l a b : exchanges l a = exchanges l b -> a = b.
Proof.
  induction l as [|p l IH]; cbn [exchanges fold_right]; [auto|]. intros E. apply IH. rewrite <- (exchange_twice p (exchanges l a)), <- (exchange_twice p (exchanges l b)). now f_equal.
Qed.
Lemma eqb_of (f : str -> str) (H : forall a b, f a = f b -> a = b) a b : str_eqb (f a) (f b) = str_eqb a b.
Proof.
  destruct (str_eqb a b) eqn:E.
  - apply str_eqb_eq in E as ->. now apply str_eqb_eq.
  - destruct (str_eqb (f a) (f b)) eqn:E'; [|reflexivity]. apply str_eqb_eq in E'. apply H in E' as ->. rewrite (proj2 (str_eqb_eq b b) eq_refl) in E. discriminate E.
Qed.
Lemma get_keyed {V} (f : str -> str) (H : forall a b, f a = f b -> a = b) (l : list (str * V)) k : map_get (f k) (map (fun p => (f (fst p), snd p)) l) = map_get k l.
Proof. induction l as [|[a v] l IH]; cbn [map map_get fst snd]; [reflexivity|]. rewrite (eqb_of f H). destruct (str_eqb k a); auto. Qed.

Local Existing Instance ascii_ext.
Definition old_templates : list (string * string) :=
  [("page"%string, "{% for item in items %}{% include ""row"" %}{% endfor %}{% with title as t %} {{ t }}{% endwith %}"%string);
   ("row"%string, "<{{ item.name | upper }}>{% if not loop.last %}, {% endif %}"%string);
   ("wrong"%string, "{{ title.0 }}"%string)].
Definition other_templates : list (string * string) :=
  [("pagina"%string, "{% for x in things %}{% include ""rij"" %}{% endfor %}{% with topic as u %} {{ u }}{% endwith %}"%string);
   ("rij"%string, "<{{ x.name | uppercase }}>{% if not loop.last %}, {% endif %}"%string);
   ("zwak"%string, "{{ topic.0 }}"%string)].
Definition old_engine : engine := match engine_new with Ok e => adds old_templates (fst (add_filter (s2b "upper") upper e)) | _ => mkengine [] fmt_default [] [] 0 end.
Definition other_engine : engine := match engine_new with Ok e => adds other_templates (fst (add_filter (s2b "uppercase") upper e)) | _ => mkengine [] fmt_default [] [] 0 end.
Lemma old_for : engine_for default_syntax old_engine.
Proof.
  unfold old_engine. destruct engine_new as [e| | |] eqn:E; try (vm_compute in E; discriminate).
  apply adds_for; [vm_compute; reflexivity|]. apply ef_filter. now apply ef_new.
Qed.
Lemma other_for : engine_for default_syntax other_engine.
Proof.
  unfold other_engine. destruct engine_new as [e| | |] eqn:E; try (vm_compute in E; discriminate).
  apply adds_for; [vm_compute; reflexivity|]. apply ef_filter. now apply ef_new.
Qed.
Definition case_vars := exchanges [(s2b "item", s2b "x"); (s2b "items", s2b "things"); (s2b "title", s2b "topic"); (s2b "t", s2b "u")].
Definition case_funs := exchanges [(s2b "upper", s2b "uppercase")].
Definition case_temps := exchanges [(s2b "page", s2b "pagina"); (s2b "row", s2b "rij"); (s2b "wrong", s2b "zwak")].
Definition old_map : list (str * value) := [(s2b "items", VList [VMap [(s2b "name", VStr (s2b "x"))]; VMap [(s2b "name", VStr (s2b "ann"))]]); (s2b "title", VStr (s2b "T"))].
Definition other_map : list (str * value) := map (fun p => (case_vars (fst p), snd p)) old_map.

Definition tree_of (e : engine) (t : template) : option (list pstmt) :=
  if asciib (t_source t) then match parse_template (en_searcher e) (t_source t) with Ok l => Some (bare (t_source t) l) | _ => None end else None.
Fixpoint renamed_list (l1 l2 : list (str * template)) : Prop :=
  match l1, l2 with
  | [], [] => True
  | (n1, t1) :: l1', (n2, t2) :: l2' => n2 = case_temps n1 /\
    (exists p, tree_of old_engine t1 = Some p /\ tree_of other_engine t2 = Some (map (new_stmt case_vars case_funs case_temps) p)) /\ renamed_list l1' l2'
  | _, _ => False
  end.
Notation case_renamed := (renamed case_vars case_funs case_temps (fun _ => default_syntax) (fun _ => default_syntax)).
Lemma tree_derived e t p : engine_for default_syntax e -> tree_of e t = Some p -> exists l, derives default_syntax (t_source t) l /\ bare (t_source t) l = p.
Proof.
  intros He E. unfold tree_of in E. destruct (asciib (t_source t)) eqn:V; [|discriminate E]. apply asciib_valid in V.
  destruct (parse_template (en_searcher e) (t_source t)) as [l| | |] eqn:P; try discriminate E. injection E as <-. exists l. split; [|reflexivity].
  now apply (C08_accepted_iff_grammatical _ _ _ default_user_syntax (default_trims_ok _) He V).
Qed.
Lemma list_renamed l1 : forall l2, renamed_list l1 l2 -> forall n,
  match map_get n l1, map_get (case_temps n) l2 with Some t1, Some t2 => case_renamed t1 t2 | None, None => True | _, _ => False end.
Proof.
  induction l1 as [|[n1 t1] l1 IH]; intros [|[n2 t2] l2] H n; cbn [renamed_list] in H; try contradiction; [exact I|].
  destruct H as (-> & (p & E1 & E2) & H). cbn [map_get]. rewrite (eqb_of case_temps (exchanges_inj _)). destruct (str_eqb n n1); [|apply IH; exact H].
  destruct (tree_derived _ _ _ old_for E1) as (a & A1 & <-). destruct (tree_derived _ _ _ other_for E2) as (b & B1 & B2). exists a, b. auto.
Qed.
Lemma case_lists : renamed_list (en_templates old_engine) (en_templates other_engine).
Proof.
  assert (K : forall n1 t1 l1 n2 t2 l2, n2 = case_temps n1 ->
    match tree_of old_engine t1, tree_of other_engine t2 with Some p, Some q => q = map (new_stmt case_vars case_funs case_temps) p | _, _ => False end ->
    renamed_list l1 l2 -> renamed_list ((n1, t1) :: l1) ((n2, t2) :: l2)).
  { intros n1 t1 l1 n2 t2 l2 En Et El. cbn [renamed_list]. destruct (tree_of old_engine t1) as [p|]; [|contradiction]. destruct (tree_of other_engine t2) as [q|]; [|contradiction].
    subst. split; [reflexivity|]. split; [exists p; auto|exact El]. }
  let l := eval vm_compute in (en_templates old_engine) in change (en_templates old_engine) with l.
  let l := eval vm_compute in (en_templates other_engine) in change (en_templates other_engine) with l.
  apply K; [vm_compute; reflexivity|vm_compute; reflexivity|]. apply K; [vm_compute; reflexivity|vm_compute; reflexivity|].
  apply K; [vm_compute; reflexivity|vm_compute; reflexivity|]. exact I.
Qed.
Definition no_with_fine (e : engine) (t : template) : Prop := forall l, derives default_syntax (t_source t) l -> Forall no_include_with (bare (t_source t) l).
Lemma no_with_of e t p : engine_for default_syntax e -> asciib (t_source t) = true -> tree_of e t = Some p -> Forall no_include_with p -> no_with_fine e t.
Proof.
  intros He V E H l D. apply asciib_valid in V. destruct (tree_derived e t p He E) as (l' & D' & <-).
  now rewrite (proj2 (proj2 (C08_accepted_iff_grammatical _ e (t_source t) default_user_syntax (default_trims_ok _) He V)) _ _ D D').
Qed.
Lemma old_no_with : Forall (fun p : str * template => no_with_fine old_engine (snd p)) (en_templates old_engine).
Proof.
  assert (K : forall n t l, asciib (t_source t) = true -> match tree_of old_engine t with Some p => Forall no_include_with p | None => False end ->
    Forall (fun p : str * template => no_with_fine old_engine (snd p)) l -> Forall (fun p : str * template => no_with_fine old_engine (snd p)) ((n, t) :: l)).
  { intros n t l V E H. constructor; [|exact H]. cbn [snd]. destruct (tree_of old_engine t) as [p|] eqn:T; [|contradiction]. exact (no_with_of _ _ p old_for V T E). }
  let l := eval vm_compute in (en_templates old_engine) in change (en_templates old_engine) with l.
  do 3 (apply K; [vm_compute; reflexivity|vm_compute; repeat constructor|]). constructor.
Qed.
Lemma case_hypotheses name other : has_template old_engine name = true -> s2b other = case_temps (s2b name) -> has_template other_engine other = true ->
  let inner1 := renderer_of old_engine name in
  let inner2 := renderer_of other_engine other in
  well_made inner1 (fun _ => default_syntax) /\ well_made inner2 (fun _ => default_syntax) /\
  new_renderer case_funs case_temps case_renamed inner1 inner2 /\
  (forall t l, provided inner1 t -> derives default_syntax (t_source t) l -> Forall no_include_with (bare (t_source t) l)) /\
  (forall t s, provided inner1 t -> derives default_syntax (t_source t) s -> sharing_all false s) /\
  (forall t s, provided inner2 t -> derives default_syntax (t_source t) s -> sharing_all false s).
Proof.
  intros G1 En G2. apply has_get in G1, G2. intros inner1 inner2.
  split; [exact (renderer_well_made _ _ old_for G1)|]. split; [exact (renderer_well_made _ _ other_for G2)|]. split; [|split; [|split]].
  - pose proof (list_renamed _ _ case_lists) as A. pose proof (A (s2b name)) as B. rewrite <- En in B. subst inner1 inner2.
    assert (F : forall n, map_get (case_funs n) (en_functions other_engine) = map_get n (en_functions old_engine)).
    { intros n. replace (en_functions other_engine) with (map (fun p => (case_funs (fst p), snd p)) (en_functions old_engine)) by (vm_compute; reflexivity).
      apply get_keyed. apply exchanges_inj. }
    assert (D : en_default_formatter old_engine = en_default_formatter other_engine) by (vm_compute; reflexivity).
    assert (L : en_max_include_depth old_engine = en_max_include_depth other_engine) by (vm_compute; reflexivity).
    unfold engine_get_template in G1, G2. revert F D L A B G1 G2. unfold renderer_of, engine_get_template. generalize old_engine other_engine. intros e1 e2 F D L A B G1 G2.
    destruct (map_get (s2b name) (en_templates e1)) as [t1|] eqn:E1; [|now destruct G1].
    destruct (map_get (s2b other) (en_templates e2)) as [t2|] eqn:E2; [|now destruct G2].
    constructor; cbn [template_ref_renderer ri_engine ri_template ri_template_name ri_template_fn fst snd max_include_depth ri_max_include_depth]; auto. cbn. now rewrite En.
  - intros t l Hp. pose proof old_no_with as H. rewrite Forall_forall in H.
    assert (exists n, In (n, t) (en_templates old_engine)) as (n & Hn).
    { clear - Hp G1. subst inner1. unfold renderer_of, engine_get_template in *. revert Hp G1. generalize old_engine. intros e Hp Hg.
      destruct (map_get (s2b name) (en_templates e)) as [t0|] eqn:E; [|now destruct Hg].
      destruct Hp as [->|[(f & h & n & F & _)|(_ & n & F)]]; [|discriminate F|].
      - exists (s2b name). now apply map_get_In.
      - exists n. now apply map_get_In. }
    exact (H _ Hn l).
  - refine (engine_shares old_engine name old_for G1 _). vm_compute. reflexivity.
  - refine (engine_shares other_engine other other_for G2 _). vm_compute. reflexivity.
Qed.
Lemma case_context : new_context case_vars (GBorrowed (VMap old_map)) (GBorrowed (VMap other_map)).
Proof. eapply nc_map; [apply gv_borrowed|apply gv_borrowed|]. intros k. apply get_keyed. apply exchanges_inj. Qed.
Lemma case_good : good_names case_vars.
Proof. split; [apply exchanges_inj|vm_compute; reflexivity]. Qed.
Example C55_case_page : to_string 200 (renderer_of old_engine "page") (GBorrowed (VMap old_map)) = Ok (s2b "<X>, <ANN> T") /\
  forall r, renders (renderer_of other_engine "pagina") (GBorrowed (VMap other_map)) r -> r = Ok (s2b "<X>, <ANN> T").
Proof.
  split; [vm_compute; reflexivity|]. intros r R.
  destruct (case_hypotheses "page" "pagina" eq_refl eq_refl eq_refl) as (W1 & W2 & N & I & S1 & S2).
  destruct (C55_renaming _ _ _ _ _ _ _ _ _ W1 W2 case_good case_context N (or_intror I) S1 S2) as (K & _).
  assert (R1 : renders (renderer_of old_engine "page") (GBorrowed (VMap old_map)) (Ok (s2b "<X>, <ANN> T"))) by (apply (renders_by _ 200); [vm_compute; reflexivity|discriminate]).
  specialize (K _ r R1 R). cbn in K. destruct r; cbn in K; try discriminate K. exact K.
Qed.
(** An error, with the name of the template. *)
Example C55_case_error : forall r, renders (renderer_of other_engine "zwak") (GBorrowed (VMap other_map)) r ->
  without_place r = Err (mkerror KRender (Some (s2b "zwak")) (Some (s2b "string does not support integer-based access")) None).
Proof.
  intros r R.
  destruct (case_hypotheses "wrong" "zwak" eq_refl eq_refl eq_refl) as (W1 & W2 & N & I & S1 & S2).
  destruct (C55_renaming _ _ _ _ _ _ _ _ _ W1 W2 case_good case_context N (or_intror I) S1 S2) as (K & _).
  assert (R1 : exists r1, renders (renderer_of old_engine "wrong") (GBorrowed (VMap old_map)) r1 /\
    without_place r1 = Err (mkerror KRender (Some (s2b "wrong")) (Some (s2b "string does not support integer-based access")) None)).
  { eexists. split; [apply (renders_by _ 200); [vm_compute; reflexivity|discriminate]|vm_compute; reflexivity]. }
  destruct R1 as (r1 & R1 & E1). rewrite (K _ r R1 R), E1. vm_compute. reflexivity.
Qed.
