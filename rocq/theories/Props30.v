(** Property C57: a template that suits its context does not fail. *)
From Verif Require Import Base Utf8 Ext Errors Syntax AhoCorasick SearchSpec SyntaxSpec Value Ast Lexer LexSpec Wp
  GrammarSpec Parser AstOk Compiler CompileProof ParseMain Fmt Stack Filters FilterSpec Render Engine EngineSpec CompileFacts
  RenderSpec RenderProof RenderErr MapFacts RenderMain RenderObs Props2 Props3 Demo OriginSpec Meaning MeaningProof Props14 ShapeSpec Shape.

Section C57.
Context `{X : Ext}.
(** An include of [n] is answered with the template [t]. *)
Definition always_finds (inner : renderer_inner) (n : str) (t : template) : Prop :=
  match ri_template_fn inner with
  | Some f => forall asked, f asked n = inl t
  | None => map_get n (en_templates (ri_engine inner)) = Some t
  end.
(** The functions and the default formatter of the engine keep the promises. *)
Definition functions_keep (e : engine) (P : promises) : Prop :=
  (forall name r args s, In (name, (r, args, s)) (p_filters P) -> exists f, map_get name (en_functions e) = Some (EFilter f) /\ filter_keeps f r args s) /\
  (forall name s, In (name, s) (p_formatters P) -> exists f, map_get name (en_functions e) = Some (EFormatter f) /\ formatter_keeps f s) /\
  formatter_keeps (en_default_formatter e) (p_default P).

Lemma lands_map_err {A} f (x : rt A) : lands (rmap_err f x) <-> lands x.
Proof. induction x as [[]|s o IH e _]; cbn; tauto. Qed.

(** C57.  A template for which everything it asks for is there - variables with the
    members, items and entries it uses, functions that can do what they are asked to,
    templates, and room for nested includes - renders: no rendering of it in such a
    context fails, except that a writer fails. *)
Theorem C57_nothing_missing inner origin P fs depth v g :
  well_made inner origin ->
  (forall t s, provided inner t -> derives (origin t) (t_source t) s -> sharing_all false s) ->
  functions_keep (ri_engine inner) P ->
  (forall n need d, In (n, (need, d)) (p_templates P) -> exists t, always_finds inner n t /\
     forall l, derives (origin t) (t_source t) l -> suits_all P d need (bare (t_source t) l)) ->
  (forall l, derives (origin (ri_template inner)) (t_source (ri_template inner)) l -> suits_all P depth (members fs) (bare (t_source (ri_template inner)) l)) ->
  depth = 0 \/ (N.of_nat depth < max_include_depth inner)%N ->
  g = GBorrowed v \/ g = GOwned (Ok v) -> has v (Fields fs) ->
  (exists out, renders inner g (Ok out)) /\
  forall k w p, writes inner g k w p -> snd p = Ok tt \/ exists code, snd p = Err (mk_io_error code).
Proof.
  intros W Sh (F1 & F2 & F3) Ht Hr Hd Hg Hv. destruct (statements_exist _ _ W) as (ast_of & H).
  assert (C : forall t, provided inner t -> confined_all false (bare (t_source t) (ast_of t))).
  { intros t Hp. apply confined_all_bare. apply (Sh t); auto. apply (H t Hp). }
  assert (Eg : initial_stack g = Ok [FrScope (Borrowed v)] /\ start g = [BScope (Borrowed v)]).
  { destruct Hg as [->| ->]; split; reflexivity. }
  destruct Eg as (Eg & Es).
  assert (E : rmap_err unplaced (s_render inner ast_of [FrScope (Borrowed v)]) =
    m_render (world_of inner ast_of) (root_of inner ast_of) (ri_template_name inner) (start g)).
  { apply render_means with (w := world_of inner ast_of); try reflexivity.
    - intros t Hp. split; [|split].
      + apply (statements_sourced inner origin ast_of H t Hp).
      + destruct (H t Hp) as ((Hu & _ & Hv' & _) & D). eapply derives_nonempty; eauto.
      + apply confined_all_bare with (t_source t). auto.
    - rewrite Es. repeat constructor.
    - unfold no_vars. cbn. repeat constructor. }
  set (found := fun n : str => match ri_template_fn inner with
    | Some f => match f [] n with inl t => Some t | inr _ => None end
    | None => map_get n (en_templates (ri_engine inner)) end).
  set (tree := fun n : str => match found n with Some t => bare (t_source t) (ast_of t) | None => [] end).
  assert (L : lands (s_render inner ast_of [FrScope (Borrowed v)])).
  { apply (lands_map_err unplaced). rewrite E. apply (render_lands (world_of inner ast_of) P) with (tree := tree) (d := depth) (sc := members fs).
    - exact F1.
    - exact F2.
    - exact F3.
    - intros n need d Hin. destruct (Ht n need d Hin) as (t & Hf & Hs).
      assert (Ef : found n = Some t). { unfold found. unfold always_finds in Hf. destruct (ri_template_fn inner) as [f|]; [now rewrite Hf|exact Hf]. }
      assert (Hp : provided inner t).
      { unfold always_finds in Hf. destruct (ri_template_fn inner) as [f|] eqn:Efn; [right; left; exists f, [], n; split; [exact Efn|apply Hf]|right; right; split; [exact Efn|exists n; exact Hf]]. }
      unfold tree. rewrite Ef. split; [|apply Hs, (H t Hp)].
      intros asked. cbn [world_of w_find]. unfold always_finds in Hf. destruct (ri_template_fn inner) as [f|]; rewrite Hf; eauto.
    - cbn [world_of w_limit]. lia.
    - rewrite Es. now apply sees_members.
    - apply Hr. apply (H (ri_template inner)). now left. }
  destruct (C11_compiled_means_source inner origin ast_of g _ H Eg) as (H1 & H2). split.
  - destruct (lands_string _ L) as (out & Eo). exists out. rewrite <- Eo. exact H1.
  - intros k w p Hp. rewrite (writes_fun _ _ _ _ _ _ Hp (H2 k w)).
    pose proof (lands_writer k w _ L) as K.
    assert (Fin : finished (snd (writer_result k w (s_render inner ast_of [FrScope (Borrowed v)])))).
    { apply (proj2 (C13_rendering_never_panics_partial inner origin g W Sh ltac:(rewrite Eg; exact I)) k w). apply H2. }
    destruct (snd (writer_result k w (s_render inner ast_of [FrScope (Borrowed v)]))) as [[]|e| |]; cbn in Fin; auto; try contradiction.
    destruct K as (code & ->). eauto.
Qed.
End C57.
Print Assumptions C57_nothing_missing.

(** ** A concrete case *)
Local Existing Instance ascii_ext.
(** The trees of the demo templates. *)
Lemma tree_is source tr : asciib source = true ->
  match parse_template (en_searcher demo_engine) source with Ok l => Some (bare source l) | _ => None end = Some tr ->
  forall l, derives default_syntax source l -> bare source l = tr.
Proof.
  intros Hv E l D.
  rewrite (proj2 (proj1 (C08_accepted_iff_grammatical default_syntax demo_engine source default_user_syntax (default_trims_ok _) demo_for (asciib_valid _ Hv)) l) D) in E.
  now injection E.
Qed.
Definition var1 (x k : string) : pexpr := PAtom (PVar (s2b x) [mkpstep false (KName (s2b k))]).
Definition row_tree : list pstmt :=
  [PText (s2b "<"); PShow (var1 "item" "name"); PText (s2b ">"); PIf true (var1 "loop" "last") [PText (s2b ", ")] None].
Definition foot_tree : list pstmt := [PText (s2b "-"); PShow (PCall (PAtom (PVar (s2b "name") [])) (s2b "upper") None); PText (s2b "-")].
Definition page_tree : list pstmt :=
  [PFor (s2b "item") (PAtom (PVar (s2b "items") [])) [PInclude (s2b "row") None];
   PWith (PAtom (PVar (s2b "title") [])) (s2b "t") [PText (s2b " "); PShow (PAtom (PVar (s2b "t") []))];
   PText (s2b " "); PInclude (s2b "foot") (Some (PAtom (PVar (s2b "user") [])))].
(** What the demo page needs: items with printable names, a printable title, a user
    whose name is a string. *)
Definition demo_needs : list (str * shape) :=
  [(s2b "items", ListOf (Fields [(s2b "name", Printable)])); (s2b "title", Printable); (s2b "user", Fields [(s2b "name", Text)])].
Definition demo_promises : promises := mkpromises
  [(s2b "upper", (Text, [], Text))] [] Printable
  [(s2b "row", ([(s2b "item", mkknown true (Fields [(s2b "name", Printable)])); (s2b "loop", mkknown true loop_shape)], 0));
   (s2b "foot", ([(s2b "name", mkknown false Text)], 0))].
Lemma default_prints : formatter_keeps fmt_default Printable.
Proof.
  assert (C : forall l, exists out, says (write_chunks l) out).
  { induction l as [|c l (out & IH)]; [exists []; constructor|exists (c ++ out); now constructor]. }
  intros [|b|z|f|s|l|m] H; cbn [fmt_default]; try contradiction; try apply C. exists []. constructor.
Qed.
Lemma upper_keeps : filter_keeps upper Text [] Text.
Proof.
  split; [reflexivity|]. intros v cs (t & ->) Hc. inversion Hc; subst. exists (AvString t), [], (VStr (map upper1 t)).
  split; [constructor|]. split; [constructor|]. split; [reflexivity|]. cbn. eauto.
Qed.
Lemma printed_text : at_least Text Printable.
Proof. intros v (t & ->). exact I. Qed.
Lemma at_least_refl s : at_least s s.
Proof. intros v H. exact H. Qed.
Lemma row_suits : suits_all demo_promises 0 [(s2b "item", mkknown true (Fields [(s2b "name", Printable)])); (s2b "loop", mkknown true loop_shape)] row_tree.
Proof.
  split; [exact I|]. split.
  { left. apply eh_atom. eapply ah_var; [reflexivity|]. eapply wk_field; [reflexivity|apply wk_end]. }
  split; [exact I|]. split; [|exact I]. split; [|split; [split; exact I|exact I]].
  eexists. apply eh_atom. eapply ah_var; [reflexivity|]. eapply wk_field; [reflexivity|apply wk_end].
Qed.
Lemma foot_suits : suits_all demo_promises 0 [(s2b "name", mkknown false Text)] foot_tree.
Proof.
  split; [exact I|]. split.
  { left. eapply eh_less; [|exact printed_text]. eapply eh_call_none; [|left; reflexivity]. apply eh_atom. eapply ah_var; [reflexivity|apply wk_end]. }
  split; exact I.
Qed.
Lemma page_suits : suits_all demo_promises 1 (members demo_needs) page_tree.
Proof.
  split.
  { exists (Fields [(s2b "name", Printable)]). split; [apply eh_atom; eapply ah_var; [reflexivity|apply wk_end]|]. split; [|exact I].
    eexists _, 0. split; [left; reflexivity|]. split; [lia|]. intros x k E. cbn [map_get] in E.
    destruct (str_eqb x (s2b "item")) eqn:E1; [apply str_eqb_eq in E1; subst x; injection E as <-; eexists; split; [reflexivity|]; split; [auto|apply at_least_refl]|].
    destruct (str_eqb x (s2b "loop")) eqn:E2; [apply str_eqb_eq in E2; subst x; injection E as <-; eexists; split; [reflexivity|]; split; [auto|apply at_least_refl]|discriminate]. }
  split.
  { exists Printable. split; [apply eh_atom; eapply ah_var; [reflexivity|apply wk_end]|]. split; [exact I|]. split; [|exact I].
    left. apply eh_atom. eapply ah_var; [reflexivity|apply wk_end]. }
  split; [exact I|]. split; [|exact I].
  eexists _, 0, _. split; [right; left; reflexivity|]. split; [lia|]. split; [apply eh_atom; eapply ah_var; [reflexivity|apply wk_end]|].
  intros x k E. cbn [map_get] in E. destruct (str_eqb x (s2b "name")) eqn:E1; [|discriminate]. apply str_eqb_eq in E1. subst x. injection E as <-.
  eexists. split; [reflexivity|]. split; [auto|apply at_least_refl].
Qed.
Lemma demo_shares : forall t s, provided (demo "page") t -> derives default_syntax (t_source t) s -> sharing_all false s.
Proof.
  intros t s Hp D. pose proof (demo_confined t Hp) as C. destruct (demo_statements "page" page_well_made t Hp) as ((Hu & Hc & Hv & e & He & _) & D').
  replace (demo_ast t) with s in C by (eapply (proj2 (proj2 (C08_accepted_iff_grammatical _ _ _ Hu Hc He Hv))); eauto).
  apply confined_all_bare in C. exact C.
Qed.
Lemma named_template (e : engine) name : match map_get name (en_templates e) with Some _ => true | None => false end = true ->
  exists t, map_get name (en_templates e) = Some t.
Proof. destruct (map_get name (en_templates e)); [eauto|discriminate]. Qed.
Lemma row_is l : derives default_syntax (s2b "<{{ item.name }}>{% if not loop.last %}, {% endif %}") l -> bare (s2b "<{{ item.name }}>{% if not loop.last %}, {% endif %}") l = row_tree.
Proof. apply tree_is; vm_compute; reflexivity. Qed.
Lemma foot_is l : derives default_syntax (s2b "-{{ name | upper }}-") l -> bare (s2b "-{{ name | upper }}-") l = foot_tree.
Proof. apply tree_is; vm_compute; reflexivity. Qed.
Lemma page_is l : derives default_syntax (s2b "{% for item in items %}{% include ""row"" %}{% endfor %}{% with title as t %} {{ t }}{% endwith %} {% include ""foot"" with user %}") l -> bare (s2b "{% for item in items %}{% include ""row"" %}{% endfor %}{% with title as t %} {{ t }}{% endwith %} {% include ""foot"" with user %}") l = page_tree.
Proof. apply tree_is; vm_compute; reflexivity. Qed.
(** So the demo page renders in every context that has what it needs. *)
Example C57_case : forall v, has v (Fields demo_needs) ->
  (exists out, renders (demo "page") (GBorrowed v) (Ok out)) /\
  forall k w p, writes (demo "page") (GBorrowed v) k w p -> snd p = Ok tt \/ exists code, snd p = Err (mk_io_error code).
Proof.
  intros v Hv.
  refine (C57_nothing_missing (demo "page") (fun _ => default_syntax) demo_promises demo_needs 1 v (GBorrowed v) page_well_made demo_shares _ _ _ _ _ Hv).
  - split; [|split].
    + intros name r args s [E|[]]. injection E as <- <- <- <-. exists upper. split; [vm_compute; reflexivity|exact upper_keeps].
    + intros name s [].
    + intros u Hu. replace (en_default_formatter (ri_engine (demo "page"))) with fmt_default by (vm_compute; reflexivity). exact (default_prints u Hu).
  - intros n need d [E|[E|[]]].
    + injection E as <- <- <-. destruct (named_template (ri_engine (demo "page")) (s2b "row")) as (t & Et); [vm_compute; reflexivity|].
      exists t. split; [exact Et|]. assert (Es : t_source t = s2b "<{{ item.name }}>{% if not loop.last %}, {% endif %}").
      { assert (K : option_map t_source (map_get (s2b "row") (en_templates (ri_engine (demo "page")))) = Some (s2b "<{{ item.name }}>{% if not loop.last %}, {% endif %}")) by (vm_compute; reflexivity).
        rewrite Et in K. now injection K. }
      intros l D. rewrite Es in D |- *. rewrite (row_is l D). exact row_suits.
    + injection E as <- <- <-. destruct (named_template (ri_engine (demo "page")) (s2b "foot")) as (t & Et); [vm_compute; reflexivity|].
      exists t. split; [exact Et|]. assert (Es : t_source t = s2b "-{{ name | upper }}-").
      { assert (K : option_map t_source (map_get (s2b "foot") (en_templates (ri_engine (demo "page")))) = Some (s2b "-{{ name | upper }}-")) by (vm_compute; reflexivity).
        rewrite Et in K. now injection K. }
      intros l D. rewrite Es in D |- *. rewrite (foot_is l D). exact foot_suits.
  - intros l D. assert (Es : t_source (ri_template (demo "page")) = s2b "{% for item in items %}{% include ""row"" %}{% endfor %}{% with title as t %} {{ t }}{% endwith %} {% include ""foot"" with user %}") by (vm_compute; reflexivity).
    rewrite Es in D |- *. rewrite (page_is l D). exact page_suits.
  - right. vm_compute. reflexivity.
  - now left.
Qed.
Example C57_case_context : has demo_value (Fields demo_needs).
Proof.
  eexists. split; [reflexivity|]. split; [|split; [|split; [|exact I]]]; eexists; (split; [vm_compute; reflexivity|]).
  - eexists. split; [reflexivity|]. repeat constructor; eexists; (split; [reflexivity|]); (split; [|exact I]); eexists; (split; [reflexivity|exact I]).
  - exact I.
  - eexists. split; [reflexivity|]. split; [|exact I]. eexists. split; [reflexivity|]. eexists. reflexivity.
Qed.
(** Without the user's name, it fails. *)
Example C57_case_missing : exists e, to_string 200 (demo "page") (GBorrowed (VMap [(s2b "items", VList []); (s2b "title", VInt 1); (s2b "user", VMap [])])) = Err e.
Proof. eexists. vm_compute. reflexivity. Qed.
