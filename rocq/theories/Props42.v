(** C69: the values of a rendering come from the context, the literals, the filters and [loop].
    C70: the size of the output is bounded. *)
From Verif Require Import Base Utf8 Ext Errors Syntax SyntaxSpec Value Ast Fmt Stack Filters Render Engine EngineSpec RenderSpec RenderProof RenderObs RenderMain
  UseSpec WorkSpec Work FromSpec From Props3 Demo Props14 Props39.

Section C69.
Context `{X : Ext}.
Variable P : value -> Prop.
Lemma kept_made inner ast_of : keeps_good P inner ast_of -> good_made P.
Proof. intros H. apply H. Qed.
Lemma kept_template inner origin ast_of : statements inner origin ast_of -> keeps_good P inner ast_of -> forall t, provided inner t -> template_good P t.
Proof.
  intros Hs (_ & Hl & _) t Hp. destruct (statements_sourced _ _ _ Hs t Hp) as (E & _). unfold template_good. rewrite E. apply lits_template.
  apply Forall_forall. intros v Hv. eapply Hl; eauto.
Qed.
Lemma stack_good g st : good_globals P g -> initial_stack g = Ok st -> Forall (frame_good P) st.
Proof.
  destruct g as [[v| | |]|v|f]; cbn [good_globals initial_stack bind]; intros H E; try discriminate; injection E as <-; (constructor; [|constructor]); exact H.
Qed.

(** C69.  Let everything in the context, every literal, every [loop] and whatever filters make of
    such values have a property.  Then an engine whose functions and default formatter differ only
    on values without it renders the same: no other value ever reaches them. *)
Theorem C69_values inner origin ast_of e' g :
  statements inner origin ast_of -> keeps_good P inner ast_of -> good_globals P g -> alike P (ri_engine inner) e' ->
  (forall r, renders (with_engine e' inner) g r <-> renders inner g r) /\
  forall k w p, writes (with_engine e' inner) g k w p <-> writes inner g k w p.
Proof.
  intros Hs Hk Hg Ha. pose proof (kept_template _ _ _ Hs Hk) as Ht. pose proof Hk as (Hm & _ & Hf).
  assert (E : forall st fuel, initial_stack g = Ok st -> render (with_engine e' inner) fuel st = render inner fuel st).
  { intros st fuel Est. unfold render. apply (alike_loop P Hm inner Hf); auto.
    - intros t Hn. apply Ht. now right.
    - constructor; [|constructor]. apply Ht. now left.
    - eapply stack_good; eauto. }
  assert (Es : forall fuel, to_string fuel (with_engine e' inner) g = to_string fuel inner g).
  { intros fuel. unfold to_string. destruct (initial_stack g) as [st| | |] eqn:Est; cbn [bind]; try reflexivity. now rewrite (E st). }
  assert (Ew : forall fuel k w, to_writer fuel (with_engine e' inner) g k w = to_writer fuel inner g k w).
  { intros fuel k w. unfold to_writer. destruct (initial_stack g) as [st| | |] eqn:Est; try reflexivity. now rewrite (E st). }
  split.
  - intros r. unfold renders. split; intros (H1 & m & H2); (split; [exact H1|]); exists m; intros fuel Hm'; [rewrite <- Es|rewrite Es]; auto.
  - intros k w p. unfold writes. split; intros (H1 & m & H2); (split; [exact H1|]); exists m; intros fuel Hm'; [rewrite <- Ew|rewrite Ew]; auto.
Qed.

(** ** C70 *)
Lemma within_buffer {A} (Q : A -> Prop) x : forall m w err, within_out m Q x -> length (fst (fst (run buffer w err x))) <= length w + m.
Proof.
  induction x as [r|s o IHo e IHe]; intros m w err H; cbn [run fst]; [lia|]. destruct H as (H1 & H2 & _).
  cbn [buffer sk_write]. specialize (IHo _ (w ++ s) err H2). rewrite app_length in IHo. cbn [buffer sk_state] in *. lia.
Qed.
Lemma whole_brief M inner origin ast_of g st : statements inner origin ast_of -> keeps_good P inner ast_of -> good_globals P g ->
  brief P M (ri_engine inner) -> (forall t, provided inner t -> length (t_source t) <= M) -> initial_stack g = Ok st ->
  forall steps, within_out (steps * M) (fun _ => True) (whole inner steps st).
Proof.
  intros Hs Hk Hg Hb HM Est steps. pose proof (kept_template _ _ _ Hs Hk) as Ht. pose proof Hk as (Hm & _ & Hf). unfold whole. apply (brief_work P Hm inner Hf M); auto.
  - intros t Hn. apply Ht. now right.
  - intros t Hn. apply HM. now right.
  - constructor; [|constructor]. split; [apply Ht|apply HM]; now left.
  - eapply stack_good; eauto.
  - exact I.
Qed.
(** C70.  If no template has more than [M] bytes and no formatter writes more than [M] bytes for
    one value, so many steps write at most [M] bytes each, also if the rendering fails. *)
Theorem C70_steps M inner origin ast_of g steps :
  statements inner origin ast_of -> keeps_good P inner ast_of -> good_globals P g ->
  brief P M (ri_engine inner) -> (forall t, provided inner t -> length (t_source t) <= M) ->
  (forall out, string_in inner steps g = Ok out -> length out <= steps * M) /\
  length (fst (writer_in inner steps g buffer [])) <= steps * M.
Proof.
  intros Hs Hk Hg Hb HM. pose proof (fun st => whole_brief M inner origin ast_of g st) as W. unfold string_in, writer_in. destruct (initial_stack g) as [st|e| |] eqn:Est; cbn [bind].
  2-4: split; [discriminate|]; cbn; lia.
  specialize (W st Hs Hk Hg Hb HM eq_refl steps). split.
  - intros out E. pose proof (within_string _ _ _ [] W) as L. destruct (run_string [] (whole inner steps st)) as [s [[]| | |]]; try discriminate E. injection E as <-. exact L.
  - pose proof (within_buffer _ _ _ [] None W) as L. destruct (run buffer [] None (whole inner steps st)) as [[w c] r]. cbn [fst] in L.
    destruct c as [c|]; [destruct r|]; exact L.
Qed.
(** C70.  So the whole output is bounded, with the steps of C66. *)
Theorem C70_output M L n k inner origin ast_of g :
  statements inner origin ast_of -> keeps_good P inner ast_of -> good_globals P g ->
  brief P M (ri_engine inner) -> (forall t, provided inner t -> length (t_source t) <= M) ->
  (forall t, provided inner t -> length (t_source t) <= L /\ depth_of_loops (ast_of t) <= k) ->
  (forall name f, map_get name (en_functions (ri_engine inner)) = Some (EFilter f) -> modest n f) ->
  3 <= n -> small_globals n g -> initial_stack g <> OutOfFuel ->
  (forall out, renders inner g (Ok out) -> length out <= (L * (n + 1) ^ k + 2) ^ (Nat.max 1 (N.to_nat (max_include_depth inner))) * M) /\
  (forall p, writes inner g buffer [] p -> length (fst p) <= (L * (n + 1) ^ k + 2) ^ (Nat.max 1 (N.to_nat (max_include_depth inner))) * M).
Proof.
  intros Hs Hk Hg Hb HM Hl Hf Hn Hsm Hi.
  destruct (C66_steps inner origin ast_of L n k g _ Hs Hl Hf Hn Hsm Hi (le_n _)) as [R W].
  destruct (C70_steps M inner origin ast_of g ((L * (n + 1) ^ k + 2) ^ (Nat.max 1 (N.to_nat (max_include_depth inner)))) Hs Hk Hg Hb HM) as [S1 S2].
  split.
  - intros out Ho. apply S1. exact (renders_fun _ _ _ _ R Ho).
  - intros p Hp. rewrite <- (writes_fun _ _ _ _ _ _ (W buffer []) Hp). exact S2.
Qed.
End C69.
(** The default formatter writes what the value displays as. *)
Theorem C70_default `{X : Ext} M v : length (concat (display_chunks v)) <= M -> writes_at_most M (fmt_default v).
Proof.
  intros H. assert (C : forall cs m, length (concat cs) <= m -> writes_at_most m (write_chunks cs)).
  { induction cs as [|c cs IH]; intros m Hm; cbn in *; [exact I|]. rewrite app_length in Hm. split; [lia|]. split; [apply IH; lia|exact I]. }
  unfold fmt_default. destruct v; try exact I; now apply C.
Qed.
Print Assumptions C69_values.
Print Assumptions C70_steps.
Print Assumptions C70_output.
Print Assumptions C70_default.

(** ** Concrete cases *)
Local Existing Instance ascii_ext.
Lemma page_no_literals t : provided page3 t -> literals (demo_ast t) = [].
Proof.
  assert (K : (match literals (demo_ast t) with [] => true | _ => false end) = true -> literals (demo_ast t) = []) by (destruct (literals (demo_ast t)); [reflexivity|discriminate]).
  intros [->|[(f & h & n & E & _)|(_ & n & E)]]; apply K.
  - vm_compute. reflexivity.
  - vm_compute in E. discriminate E.
  - apply MapFacts.map_get_In in E. change (In (n, t) (en_templates demo_engine)) in E.
    assert (A : forallb (fun p => match literals (demo_ast (snd p)) with [] => true | _ => false end) (en_templates demo_engine) = true) by (vm_compute; reflexivity).
    rewrite forallb_forall in A. exact (A _ E).
Qed.
Lemma demo_functions name f : map_get name (en_functions demo_engine) = Some f -> f = EFilter upper.
Proof.
  replace (en_functions demo_engine) with [(s2b "upper", EFilter upper)] by (vm_compute; reflexivity). cbn [map_get].
  destruct (str_eqb _ _); intros E; [|discriminate E]. now injection E as <-.
Qed.
Lemma page3_functions name f : map_get name (en_functions (ri_engine page3)) = Some f -> f = EFilter upper.
Proof. exact (demo_functions name f). Qed.
Lemma string_arg P s : good_arg P (AvString s) -> good P (VStr s).
Proof.
  intros (t & v & Hv & E). destruct t, v; cbn [from_value_ref] in E; try discriminate E; try (injection E as ->; exact Hv).
  destruct (_ && _); discriminate E.
Qed.
Lemma upper_good (P : value -> Prop) : (forall s, P (VStr s) -> P (VStr (map upper1 s))) -> good_filter P upper.
Proof.
  intros H r args Hr _. unfold upper. cbn [fl_run]. destruct r; try exact I. apply string_arg in Hr. cbn. constructor. apply H. now inversion Hr.
Qed.

(** A formatter that refuses markup is not noticed by the demo page, if no string of the context
    has any. *)
Definition strict : formatter := fun v =>
  match v with
  | VStr s => if existsb (Byte.eqb x3c) s then FFail (Some (s2b "markup")) else fmt_default v
  | _ => fmt_default v
  end.
Definition strict_engine : engine := set_default_formatter strict demo_engine.
Definition no_markup (v : value) : Prop := match v with VStr s => existsb (Byte.eqb x3c) s = false | _ => True end.
Lemma upper1_markup c : Byte.eqb x3c (upper1 c) = Byte.eqb x3c c.
Proof. destruct c; reflexivity. Qed.
Lemma page_keeps : keeps_good no_markup page3 demo_ast.
Proof.
  assert (K : forall first last i, good no_markup (VMap [(s2b "first", VBool first); (s2b "index", VInt i); (s2b "last", VBool last)])).
  { intros first last i. apply good_map; [exact I|]. repeat (apply Forall_cons; [split; [reflexivity|constructor; exact I]|]). constructor. }
  split; [|split].
  - split; [now constructor|]. split; intros x i _ _ first last; apply K.
  - intros t v Hp Hv. rewrite (page_no_literals t Hp) in Hv. destruct Hv.
  - intros name f Hf. apply page3_functions in Hf. injection Hf as ->. apply upper_good. intros s. unfold no_markup. intros <-.
    induction s as [|c s IH]; [reflexivity|]. cbn [map existsb]. rewrite upper1_markup. now rewrite IH.
Qed.
Lemma strict_alike : alike no_markup (ri_engine page3) strict_engine.
Proof.
  split; [reflexivity|]. split; [reflexivity|]. split.
  - intros v Hv. change (strict v = fmt_default v). unfold strict. destruct v; try reflexivity. inversion Hv as [| | | |s' H| |]; subst. unfold no_markup in H. now rewrite H.
  - intros name. change (en_functions (ri_engine page3)) with (en_functions demo_engine). change (en_functions strict_engine) with (en_functions demo_engine).
    destruct (map_get name (en_functions demo_engine)) as [[f|f]|]; [cbn; auto|cbn; auto|exact I].
Qed.
Example page_strict g : good_globals no_markup g ->
  forall r, renders (with_engine strict_engine page3) g r <-> renders page3 g r.
Proof.
  intros Hg. refine (proj1 (C69_values no_markup page3 (fun _ => default_syntax) demo_ast strict_engine g _ page_keeps Hg strict_alike)).
  apply statements_of_demo. intros t Hp. apply page_well_made, page3_provided, Hp.
Qed.
Ltac all_good := repeat first
  [ apply good_str; reflexivity | apply good_int; exact I | apply good_list; [exact I|] | apply good_map; [exact I|]
  | apply Forall_nil | apply Forall_cons | split; [reflexivity|] ].
(** The demo value has no markup, and with markup in it the formatter is noticed. *)
Definition demo_map : value := ltac:(let v := eval vm_compute in demo_value in exact v).
Example page_strict_value : good_globals no_markup (GBorrowed demo_map) /\
  to_string 400 (with_engine strict_engine page3) (GBorrowed demo_map) = Ok (s2b "<x>, <7> T -ANN-").
Proof. split; [|vm_compute; reflexivity]. cbn [good_globals]. unfold demo_map. all_good. Qed.
Definition marked : value := VMap (map_of_list [(s2b "items", VList []); (s2b "title", VStr (s2b "<T>")); (s2b "user", VMap [(s2b "name", VStr (s2b "ann"))])]).
Example page_strict_marked : to_string 400 page3 (GBorrowed marked) = Ok (s2b " <T> -ANN-") /\
  match to_string 400 (with_engine strict_engine page3) (GBorrowed marked) with Err _ => True | _ => False end.
Proof. split; vm_compute; [reflexivity|exact I]. Qed.

(** Values that display in at most 130 bytes, with lists and maps of at most 1000 items. *)
Definition short (v : value) : Prop :=
  length (concat (display_chunks v)) <= 130 /\
  match v with VList l => length l <= 1000 | VMap m => length m <= 1000 | _ => True end.
Lemma short_index i : i < 1000 -> short (VInt (Z.of_nat i)).
Proof.
  intros H. split; [|exact I]. apply Nat.leb_le.
  assert (A : forallb (fun i => length (concat (display_chunks (VInt (Z.of_nat i)))) <=? 130) (seq 0 1000) = true) by (vm_compute; reflexivity).
  rewrite forallb_forall in A. apply A. apply in_seq. lia.
Qed.
Lemma short_at i : i < 1000 -> good_loop short i.
Proof.
  intros Hi first last. apply good_map.
  - split; apply Nat.leb_le; vm_compute; reflexivity.
  - assert (B : forall b, short (VBool b)) by (intros [|]; (split; [apply Nat.leb_le; vm_compute; reflexivity|exact I])).
    assert (S : forall k, length k <= 130 -> short (VStr k)) by (intros k Hk; split; [cbn [display_chunks concat]; rewrite app_nil_r; exact Hk|exact I]).
    repeat (apply Forall_cons || apply Forall_nil || split); try (apply S; apply Nat.leb_le; vm_compute; reflexivity).
    + apply good_bool, B.
    + apply good_int, short_index, Hi.
    + apply good_bool, B.
Qed.
Lemma page_short : keeps_good short page3 demo_ast.
Proof.
  split; [|split].
  - split; [constructor; split; [apply Nat.leb_le; vm_compute; reflexivity|exact I]|]. split; intros x i Hx Hi; apply short_at; inversion Hx as [| | | | |? [_ Hl]|? [_ Hl]]; subst; lia.
  - intros t v Hp Hv. rewrite (page_no_literals t Hp) in Hv. destruct Hv.
  - intros name f Hf. apply page3_functions in Hf. injection Hf as ->. apply upper_good. intros s [H _]. split; [|exact I].
    cbn [display_chunks concat] in *. rewrite app_nil_r in *. now rewrite map_length.
Qed.
(** For any such context the demo page has at most so many bytes. *)
Example page_output g out : good_globals short g -> small_globals 1000 g -> initial_stack g <> OutOfFuel ->
  renders page3 g (Ok out) -> length out <= (130 * 1001 + 2) ^ 3 * 130.
Proof.
  intros Hg Hsm Hi Ho. rewrite <- (Nat.pow_1_r 1001).
  refine (proj1 (C70_output short 130 130 1000 1 page3 (fun _ => default_syntax) demo_ast g _ page_short Hg _ _ _ _ _ Hsm Hi) out Ho).
  - apply statements_of_demo. intros t Hp. apply page_well_made, page3_provided, Hp.
  - split.
    + intros v Hv. change (writes_at_most 130 (fmt_default v)). apply C70_default. exact (proj1 (good_here short v Hv)).
    + intros name f Hf. apply page3_functions in Hf. discriminate Hf.
  - intros t Hp. apply page_sized, page3_provided, Hp.
  - intros t Hp. apply page_sized, page3_provided, Hp.
  - exact (demo_modest 1000).
  - apply Nat.leb_le. vm_compute. reflexivity.
Qed.
(** A formatter that writes more for one value than the bound is noticed: 4 steps, 90 bytes. *)
Definition long_engine : engine := set_default_formatter (fun _ => FWrite (repeat x61 90) FDone FDone) demo_engine.
Definition one_template : template := match engine_compile (s2b "{{ x }}") long_engine with Ok t => t | _ => mktemplate [] [] end.
Example long_output : string_in (template_renderer one_template long_engine) 4 (GBorrowed (VMap [(s2b "x", VInt 1)])) = Ok (repeat x61 90) /\
  ~ brief short 22 long_engine /\ 4 * 22 < 90.
Proof.
  split; [vm_compute; reflexivity|]. split; [|lia]. intros [H _]. specialize (H VNone). cbn in H. destruct H as [H _]; [|lia].
  constructor. split; [apply Nat.leb_le; vm_compute; reflexivity|exact I].
Qed.
