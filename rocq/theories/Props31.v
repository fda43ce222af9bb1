(** Property C58: what a failed rendering says is true. *)
From Verif Require Import Base Utf8 Ext Errors Syntax AhoCorasick SearchSpec SyntaxSpec Value Ast Lexer LexSpec Wp
  GrammarSpec Parser AstOk Compiler CompileProof ParseMain Fmt Stack Filters FilterSpec Render Engine EngineSpec CompileFacts
  RenderSpec RenderProof RenderErr MapFacts RenderMain RenderObs Props2 Props3 Demo OriginSpec LookupSpec Meaning MeaningProof Props14 ShapeSpec Props30 FaultSpec Fault.

Section C58.
Context `{X : Ext}.
Lemma ends_unplaced {A} (x : rt A) e : ends x e -> ends (rmap_err unplaced x) (unplaced e).
Proof. induction x as [[]|s o IH er _]; cbn; try contradiction; [now intros ->|exact IH]. Qed.
Lemma blames_unplaced w c root rname e : blames w c root rname (unplaced e) -> blames w c root rname e.
Proof.
  intros [n l g vs d s vs' R W F N|n l g vs d m a vs' R W D K Rs N]; [eapply bl_fault; eauto|eapply bl_deep; eauto].
Qed.

(** C58.  If a rendering fails, then either the context did not serialize, and that is the
    error; or the writer failed; or the error is due to a fault of a statement of the
    template that the error names: rendering can come to that statement with
    variables for which its kind and its reason are true. *)
Theorem C58_errors_tell_the_truth inner origin ast_of g :
  statements inner origin ast_of ->
  (forall t, provided inner t -> confined_all false (bare (t_source t) (ast_of t))) ->
  (forall e, renders inner g (Err e) ->
     g = GOwned (Err e) \/ blames (world_of inner ast_of) g (root_of inner ast_of) (ri_template_name inner) e) /\
  forall k w w' e, writes inner g k w (w', Err e) ->
     g = GOwned (Err e) \/ (exists code, e = mk_io_error code) \/
     blames (world_of inner ast_of) g (root_of inner ast_of) (ri_template_name inner) e.
Proof.
  intros H Hc. destruct (initial_stack g) as [st|e0| |] eqn:Hg.
  - assert (E : rmap_err unplaced (s_render inner ast_of st) =
      m_render (world_of inner ast_of) (root_of inner ast_of) (ri_template_name inner) (start g)).
    { apply render_means with (w := world_of inner ast_of); try reflexivity.
      - intros t Hp. split; [|split].
        + apply (statements_sourced inner origin ast_of H t Hp).
        + destruct (H t Hp) as ((Hu & _ & Hv & _) & D). eapply derives_nonempty; eauto.
        + apply confined_all_bare with (t_source t). auto.
      - destruct g as [[v| | |]|v|f]; cbn in Hg; try discriminate; injection Hg as <-; repeat constructor.
      - destruct (initial_stack_shape _ _ Hg) as [(v & ->)|(f & ->)]; unfold no_vars; cbn; repeat constructor. }
    assert (B : forall e, ends (s_render inner ast_of st) e -> blames (world_of inner ast_of) g (root_of inner ast_of) (ri_template_name inner) e).
    { intros e K. apply blames_unplaced. apply render_truthful. rewrite <- E. now apply ends_unplaced. }
    destruct (C11_compiled_means_source inner origin ast_of g st H Hg) as (H1 & H2). split.
    + intros e R. right. apply B. apply ends_string. symmetry. exact (renders_fun _ _ _ _ R H1).
    + intros k w w' e R. right. pose proof (writes_fun _ _ _ _ _ _ R (H2 k w)) as K.
      destruct (ends_writer k (s_render inner ast_of st) w e) as [L|L]; [now rewrite <- K|right; auto|now left].
  - assert (Eg : g = GOwned (Err e0)) by (destruct g as [[]| |]; cbn in Hg; try discriminate; now injection Hg as ->). split.
    + intros e (_ & n & R). specialize (R n (le_n n)). unfold to_string in R. rewrite Hg in R. injection R as <-. now left.
    + intros k w w' e (_ & n & R). specialize (R n (le_n n)). unfold to_writer in R. rewrite Hg in R. injection R as <- <-. now left.
  - split.
    + intros e (_ & n & R). specialize (R n (le_n n)). unfold to_string in R. rewrite Hg in R. discriminate.
    + intros k w w' e (_ & n & R). specialize (R n (le_n n)). unfold to_writer in R. rewrite Hg in R. discriminate.
  - split.
    + intros e (_ & n & R). specialize (R n (le_n n)). unfold to_string in R. rewrite Hg in R. discriminate.
    + intros k w w' e (_ & n & R). specialize (R n (le_n n)). unfold to_writer in R. rewrite Hg in R. discriminate.
Qed.
End C58.
Print Assumptions C58_errors_tell_the_truth.

(** ** Concrete cases *)
Local Existing Instance ascii_ext.
Definition no_name : value := VMap [(s2b "items", VList []); (s2b "title", VInt 1); (s2b "user", VMap [])].
Definition said (r : res str) : option (ekind * option str * option str) :=
  match r with Err e => Some (e_kind e, e_name e, e_reason e) | _ => None end.
Lemma said_error r x : said r = Some x -> exists e, r = Err e /\ (e_kind e, e_name e, e_reason e) = x.
Proof. destruct r as [|e| |]; cbn; try discriminate. intros E. injection E as <-. eauto. Qed.
Lemma explains w c root rname r k n s l g vs depth st vs' :
  said r = Some (k, n, s) -> reached w c root rname n l g vs depth -> within w g l vs st vs' -> stmt_fault w g vs' st k s ->
  exists e, r = Err e /\ blames w c root rname e.
Proof.
  intros E R W F. apply said_error in E as (e & -> & E). injection E as Ek En Es. exists e. split; [reflexivity|].
  eapply bl_fault; [exact R|exact W| |exact En]. now rewrite Ek, Es.
Qed.
(** The hypotheses are met by the demo page.  Without the user's name it fails:
    there is no [name] in what [foot] is included with. *)
Example C58_case :
  statements (demo "page") (fun _ => default_syntax) demo_ast /\
  (forall t, provided (demo "page") t -> confined_all false (bare (t_source t) (demo_ast t))) /\
  said (to_string 200 (demo "page") (GBorrowed no_name)) = Some (KRender, Some (s2b "foot"), Some (s2b "not found in this scope")) /\
  reached (world_of (demo "page") demo_ast) (GBorrowed no_name) (root_of (demo "page") demo_ast) (ri_template_name (demo "page"))
    (Some (s2b "foot")) foot_tree (GBorrowed (VMap [])) [] 1 /\
  stmt_fault (world_of (demo "page") demo_ast) (GBorrowed (VMap [])) [] (PShow (PCall (PAtom (PVar (s2b "name") [])) (s2b "upper") None))
    KRender (Some (s2b "not found in this scope")).
Proof.
  split; [exact (demo_statements "page" page_well_made)|]. split; [exact demo_confined|]. split; [vm_compute; reflexivity|].
  assert (Er : root_of (demo "page") demo_ast = page_tree) by (vm_compute; reflexivity).
  assert (Ef : w_find (world_of (demo "page") demo_ast) [] (s2b "foot") = inl (foot_tree, [])) by (vm_compute; reflexivity).
  rewrite Er. generalize dependent (world_of (demo "page") demo_ast). intros w Ef. split.
  - eapply (re_include_with w _ _ _ _ _ _ _ 0 (s2b "foot") (PAtom (PVar (s2b "user") [])) (VMap []) [] [] foot_tree []); [apply re_root| | |exact Ef].
    + apply wi_here. do 3 right. now left.
    + apply hv_var. eapply vv_context; [constructor|reflexivity|reflexivity].
  - apply sf_show. apply ef_receiver. apply ef_var. apply vf_nowhere; [constructor|reflexivity|reflexivity].
Qed.
(** A template that includes itself. *)
Example C58_case_deep :
  said (to_string 2000 (demo "again") (GBorrowed (VMap []))) = Some (KRender, None, Some (s2b "reached maximum include depth (64)")).
Proof. vm_compute. reflexivity. Qed.
(** The rules do not blame what is in order: nothing can be wrong with [{{ x }}] where
    there is an [x] that the default formatter formats. *)
Example C58_case_no_fault : forall w rname e, (forall m, ~ refuses (w_default w (VInt 1)) m) ->
  ~ blames w (GBorrowed (VMap [(s2b "x", VInt 1)])) [PShow (PAtom (PVar (s2b "x") []))] rname e.
Proof.
  intros w rname e Hd B.
  set (root := [PShow (PAtom (PVar (s2b "x") []))]) in *. set (c := GBorrowed (VMap [(s2b "x", VInt 1)])) in *.
  assert (Wi : forall g vs s vs', within w g root vs s vs' -> s = PShow (PAtom (PVar (s2b "x") [])) /\ vs' = vs).
  { intros g vs s vs' H. inversion H; subst root; subst;
      match goal with I : In _ [_] |- _ => destruct I as [I|[]]; first [discriminate I|split; [now symmetry|reflexivity]] end. }
  assert (Re : forall n l g vs d, reached w c root rname n l g vs d -> l = root /\ g = c /\ vs = []).
  { intros n l g vs d H. induction H as [|n l g vs d m vs' a1 l' a2 H (-> & -> & ->) W F|n l g vs d m ex v vs' a1 l' a2 H (-> & -> & ->) W V F]; [auto| |];
      apply Wi in W as (W & _); discriminate W. }
  assert (Se : forall b, sees [] (s2b "x") [] b -> b = None) by (intros b H; now inversion H).
  destruct B as [n l g vs d s vs' R W F N|n l g vs d m a vs' R W D K Rs N];
    apply Re in R as (-> & -> & ->); apply Wi in W as (W & ->); [|discriminate W]. subst s.
  inversion F as [e0 k r Hf| |e0 v m Hv Hr| | | | | | | | |]; subst.
  - inversion Hf as [x rest r0 Hv| | | |]; subst.
    inversion Hv as [S1 S2 S3|u r1 S1 S2 S3|b u r1 S1|i rem r1 S1|k0 S1|f r1 S1 S2]; subst; try (apply Se in S1; discriminate S1); [discriminate S3| |discriminate S2].
    discriminate S3.
  - inversion Hv as [|x rest v0 Vv|]; subst.
    inversion Vv as [b u v1 S1|u S1|k0 S1|i rem c1 S1|u v1 S1 S2 S3|u S1 S2 S3|f v1 S1 S2]; subst; try (apply Se in S1; discriminate S1).
    + cbn in S2. injection S2 as <-. injection S3 as <-. eapply Hd. exact Hr.
    + discriminate S3.
    + discriminate S2.
Qed.
