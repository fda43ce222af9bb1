(** The rules of FilterSpec give one answer; filters see only well-typed arguments. *)
From Verif Require Import Base Utf8 Ext Errors Syntax AhoCorasick SearchSpec SyntaxSpec Value Ast Lexer LexSpec Wp
  GrammarSpec Parser AstOk Compiler CompileProof ParseMain Fmt Stack Filters Render Engine EngineSpec CompileFacts
  RenderSpec RenderProof RenderErr MapFacts RenderMain RenderObs StackRel LookupSpec LookupProof FilterSpec FilterProof.

Section Fun.
Context `{X : Ext}.
Variable source : str.

Lemma stands_fun st b a a' : base_ok source b -> stands_for source st b a -> stands_for source st b a' -> a = a'.
Proof.
  intros Hok H H'. destruct H as [v sp|first name rest a Hn Hl]; inversion H' as [|? name' ? ? Hn' Hl']; subst; auto.
  rewrite <- (names_fun _ _ _ _ Hn Hn') in Hl'. destruct Hok as (id & sp & ms & E & F). injection E as -> ->.
  exact (looks_fun source _ name ms Hn F _ _ Hl _ Hl').
Qed.
Lemma given_fun st tys l r : given source st tys l r -> Forall (base_ok source) l -> forall r', given source st tys l r' -> r = r'.
Proof.
  induction 1 as [|t tys b l c a avs Hs Hp Hg IH|t tys b l c a e Hs Hp Hg IH|t tys b l c m Hs Hr|t tys b l m sp Hs]; intros Hok r' H';
    inversion H' as [|t1 tys1 b1 l1 c1 a1 avs1 Hs1 Hp1 Hg1|t1 tys1 b1 l1 c1 a1 e1 Hs1 Hp1 Hg1|t1 tys1 b1 l1 c1 m1 Hs1 Hr1|t1 tys1 b1 l1 m1 sp1 Hs1]; subst; auto;
    inversion Hok as [|? ? O1 O2]; subst; pose proof (stands_fun _ _ _ _ O1 Hs Hs1) as E; try discriminate E; injection E as E; subst;
    try (exfalso; eapply passes_not_refused; eassumption); try (specialize (IH O2 _ Hg1); discriminate IH).
  - specialize (IH O2 _ Hg1). injection IH as ->. destruct Hp as (F1 & _), Hp1 as (F2 & _). now rewrite (fits_fun _ _ _ _ F1 F2).
  - exact (IH O2 _ Hg1).
  - now rewrite (refused_fun _ _ _ _ Hr Hr1).
  - reflexivity.
Qed.
Lemma calls_fun f name st c l r r' : Forall (base_ok source) l -> calls source f name st c l r -> calls source f name st c l r' -> r = r'.
Proof.
  intros Hok [a avs El Hf Hg|El|m El Hu|a e El Hf Hg] [a1 avs1 El1 Hf1 Hg1|El1|m1 El1 Hu1|a1 e1 El1 Hf1 Hg1]; try contradiction; auto;
    try (exfalso; eapply fits_not_unfit; eassumption).
  - pose proof (given_fun _ _ _ _ Hg Hok _ Hg1) as E. injection E as ->. now rewrite (fits_fun _ _ _ _ Hf Hf1).
  - pose proof (given_fun _ _ _ _ Hg Hok _ Hg1) as E. discriminate E.
  - now rewrite (unfit_fun _ _ _ _ _ Hu Hu1).
  - pose proof (given_fun _ _ _ _ Hg Hok _ Hg1) as E. discriminate E.
  - pose proof (given_fun _ _ _ _ Hg Hok _ Hg1) as E. injection E as ->. reflexivity.
Qed.
Variable functions : list (str * engine_fn).
Lemma function_fun name o o' : function_is source functions name o -> function_is source functions name o' -> o = o'.
Proof. intros (w & E & <-) (w' & E' & <-). rewrite E in E'. injection E' as ->. reflexivity. Qed.
Ltac same_fn := match goal with H : function_is _ _ ?n ?o, H' : function_is _ _ ?n ?o' |- _ =>
  let E := fresh "E" in pose proof (function_fun _ _ _ H H') as E; try discriminate E; try (injection E as E; subst); clear H' end.
Lemma evaluates_fun st e r : evaluates source functions st e r -> expr_ok source e -> forall r', evaluates source functions st e r' -> r = r'.
Proof.
  induction 1 as [v sp|v c Hs|v m sp Hs|name a recv sp c f av avs v Hr IH Hf Hc Hu|name a recv sp c f av avs m Hr IH Hf Hc Hu
    |name a recv sp c f m esp Hr IH Hf Hc|name a recv sp c f Hr IH Hf|name a recv sp c Hr IH Hf|name a recv sp k m esp Hr IH]; intros Hok r' H';
    try (cbn [expr_ok] in Hok; destruct Hok as (O1 & O2 & O3 & O4); specialize (IH O3)).
  - inversion H'; subst; reflexivity.
  - inversion H' as [|? ? Hs1|? ? ? Hs1| | | | | |]; subst; pose proof (stands_fun _ _ _ _ Hok Hs Hs1) as E; try discriminate E. injection E as ->. reflexivity.
  - inversion H' as [|? ? Hs1|? ? ? Hs1| | | | | |]; subst; pose proof (stands_fun _ _ _ _ Hok Hs Hs1) as E; try discriminate E. injection E as -> ->. reflexivity.
  - inversion H' as [| | |? ? ? ? ? ? ? ? ? Hr1 Hf1 Hc1 Hu1|? ? ? ? ? ? ? ? ? Hr1 Hf1 Hc1 Hu1|? ? ? ? ? ? ? ? Hr1 Hf1 Hc1|? ? ? ? ? ? Hr1 Hf1|? ? ? ? ? Hr1 Hf1|? ? ? ? ? ? ? Hr1]; subst;
    pose proof (IH _ Hr1) as E; try discriminate E; injection E as E; subst; same_fn; pose proof (calls_fun _ _ _ _ _ _ _ (args_base_ok _ a O2) Hc Hc1) as E; try discriminate E; injection E as E; subst; congruence.
  - inversion H' as [| | |? ? ? ? ? ? ? ? ? Hr1 Hf1 Hc1 Hu1|? ? ? ? ? ? ? ? ? Hr1 Hf1 Hc1 Hu1|? ? ? ? ? ? ? ? Hr1 Hf1 Hc1|? ? ? ? ? ? Hr1 Hf1|? ? ? ? ? Hr1 Hf1|? ? ? ? ? ? ? Hr1]; subst;
    pose proof (IH _ Hr1) as E; try discriminate E; injection E as E; subst; same_fn; pose proof (calls_fun _ _ _ _ _ _ _ (args_base_ok _ a O2) Hc Hc1) as E; try discriminate E; injection E as E; subst; congruence.
  - inversion H' as [| | |? ? ? ? ? ? ? ? ? Hr1 Hf1 Hc1 Hu1|? ? ? ? ? ? ? ? ? Hr1 Hf1 Hc1 Hu1|? ? ? ? ? ? ? ? Hr1 Hf1 Hc1|? ? ? ? ? ? Hr1 Hf1|? ? ? ? ? Hr1 Hf1|? ? ? ? ? ? ? Hr1]; subst;
    pose proof (IH _ Hr1) as E; try discriminate E; injection E as E; subst; same_fn; pose proof (calls_fun _ _ _ _ _ _ _ (args_base_ok _ a O2) Hc Hc1) as E; try discriminate E; injection E as E; subst; congruence.
  - inversion H' as [| | |? ? ? ? ? ? ? ? ? Hr1 Hf1 Hc1 Hu1|? ? ? ? ? ? ? ? ? Hr1 Hf1 Hc1 Hu1|? ? ? ? ? ? ? ? Hr1 Hf1 Hc1|? ? ? ? ? ? Hr1 Hf1|? ? ? ? ? Hr1 Hf1|? ? ? ? ? ? ? Hr1]; subst;
    pose proof (IH _ Hr1) as E; try discriminate E; injection E as E; subst; same_fn; reflexivity.
  - inversion H' as [| | |? ? ? ? ? ? ? ? ? Hr1 Hf1 Hc1 Hu1|? ? ? ? ? ? ? ? ? Hr1 Hf1 Hc1 Hu1|? ? ? ? ? ? ? ? Hr1 Hf1 Hc1|? ? ? ? ? ? Hr1 Hf1|? ? ? ? ? Hr1 Hf1|? ? ? ? ? ? ? Hr1]; subst;
    pose proof (IH _ Hr1) as E; try discriminate E; injection E as E; subst; same_fn; reflexivity.
  - inversion H' as [| | |? ? ? ? ? ? ? ? ? Hr1 Hf1 Hc1 Hu1|? ? ? ? ? ? ? ? ? Hr1 Hf1 Hc1 Hu1|? ? ? ? ? ? ? ? Hr1 Hf1 Hc1|? ? ? ? ? ? Hr1 Hf1|? ? ? ? ? Hr1 Hf1|? ? ? ? ? ? ? Hr1]; subst;
    pose proof (IH _ Hr1) as E; try discriminate E; injection E as E; subst; reflexivity.
Qed.
Variable default : formatter.
Lemma emits_fun st e r r' : expr_ok source e -> emits source functions default st e r -> emits source functions default st e r' -> r = r'.
Proof.
  intros Hok H H'.
  assert (Efun := evaluates_fun st).
  destruct H as [e c Hb He|e k m sp Hb He|name recv sp c f Hr Hf|name recv sp f c Hf He|name recv sp f k m esp c Hf Hr He|name recv sp c Hr Hf|name recv sp k m esp Hr];
  try (assert (O3 : expr_ok source recv) by (cbn [expr_ok] in Hok; apply Hok));
  inversion H' as [e1 c1 Hb1 He1|e1 k1 m1 sp1 Hb1 He1|n1 r1 sp1 c1 f1 Hr1 Hf1|n1 r1 sp1 f1 c1 Hf1 He1|n1 r1 sp1 f1 k1 m1 esp1 c1 Hf1 Hr1 He1|n1 r1 sp1 c1 Hr1 Hf1|n1 r1 sp1 k1 m1 esp1 Hr1]; subst;
  try discriminate Hb; try discriminate Hb1; try same_fn;
  try (pose proof (Efun _ _ He Hok _ He1) as Q; try discriminate Q; injection Q as Q; subst; reflexivity);
  try (pose proof (Efun _ _ Hr O3 _ Hr1) as Q; try discriminate Q; injection Q as Q; subst; reflexivity).
  - exfalso. inversion He; subst; match goal with K : evaluates _ _ _ recv (EvValue _) |- _ => pose proof (Efun _ _ K O3 _ Hr1) as Q; discriminate Q end.
  - exfalso. inversion He1; subst; match goal with K : evaluates _ _ _ recv (EvValue _) |- _ => pose proof (Efun _ _ Hr O3 _ K) as Q; discriminate Q end.
Qed.
End Fun.

(** ** What a filter function can observe *)
Section Typed.
Context `{X : Ext}.
(** The values of a type, and the calls of a signature. *)
Definition typed (t : arg_ty) (a : arg_val) : Prop := exists v, fits t v a.
Definition well_typed (f : filter) (a : arg_val) (avs : list arg_val) : Prop :=
  typed (fl_recv f) a /\ Forall2 typed (fl_args f) avs.
(** The same declared types, and the same results on arguments of these types. *)
Definition same_filter (f g : filter) : Prop :=
  fl_recv f = fl_recv g /\ fl_args f = fl_args g /\ forall a avs, well_typed f a avs -> fl_run f a avs = fl_run g a avs.
Inductive same_fn : engine_fn -> engine_fn -> Prop :=
| sm_filter f g : same_filter f g -> same_fn (EFilter f) (EFilter g)
| sm_formatter f : same_fn (EFormatter f) (EFormatter f).

Lemma get_arg_typed t source st b a : get_arg t source st b = Ok a -> typed t a.
Proof.
  unfold get_arg. destruct b as [v|v sp].
  - destruct (lookup_var st source v) as [c| | |]; cbn [bind]; try discriminate. fold (convert t c). pose proof (convert_passes t c) as K.
    destruct (convert t c) as [av|e].
    + intros E. injection E as <-. destruct K as (K & _). now exists (cow_val c).
    + destruct (var_span v); cbn [bind]; try discriminate. rewrite err_arg_complaint. unfold err_render. destruct (build_pretty _ _); discriminate.
  - pose proof (ref_fits [] t v) as K. destruct (from_value_ref t v).
    + intros E. injection E as <-. now exists v.
    + rewrite err_arg_complaint. unfold err_render. destruct (build_pretty _ _); discriminate.
Qed.
Lemma get_args_typed source st l : forall tys avs, get_args tys source st l = Ok avs -> Forall2 typed tys avs.
Proof.
  induction l as [|b l IH]; intros [|t tys] avs; cbn [get_args]; try discriminate; [intros E; injection E as <-; constructor|].
  destruct (get_arg t source st b) as [a| | |] eqn:Ea; cbn [bind]; try discriminate.
  destruct (get_args tys source st l) as [rest| | |] eqn:Er; cbn [bind]; try discriminate.
  intros E. injection E as <-. constructor; [eapply get_arg_typed; eauto|auto].
Qed.
Lemma call_same f g source name st c l : same_filter f g -> call_filter f source name st c l = call_filter g source name st c l.
Proof.
  intros (E1 & E2 & E3). unfold call_filter. rewrite <- E1, <- E2. destruct (check_args _ _ _ _) as [[]| | |]; cbn [bind]; auto.
  unfold from_cow_mut. pose proof (ref_fits [] (fl_recv f) (cow_val c)) as K. destruct (from_value_ref _ _) as [a|e]; cbn [bind].
  - destruct (get_args _ _ _ _) as [avs| | |] eqn:Eg; cbn [bind]; auto. rewrite (E3 a avs); [reflexivity|].
    split; [now exists (cow_val c)|]. eapply get_args_typed; eauto.
  - destruct (err_expected_val e source (id_span name)) as [a| | |] eqn:Ee; cbn [bind]; auto. exfalso. destruct K as (_ & K).
    rewrite (err_val_complaint e _ _ K) in Ee. unfold err_render in Ee. destruct (build_pretty _ _); discriminate Ee.
Qed.

(** ** Renderers that differ in such filters only *)
Definition same_fns (l l' : list (str * engine_fn)) : Prop :=
  Forall2 (fun p p' => fst p = fst p' /\ same_fn (snd p) (snd p')) l l'.
Definition with_functions (e : engine) (l : list (str * engine_fn)) : engine :=
  mkengine (en_searcher e) (en_default_formatter e) l (en_templates e) (en_max_include_depth e).
Definition with_engine (inner : renderer_inner) (e : engine) : renderer_inner :=
  mkinner e (ri_template inner) (ri_template_name inner) (ri_max_include_depth inner) (ri_template_fn inner).
Lemma same_get n l l' : same_fns l l' ->
  match map_get n l, map_get n l' with Some f, Some g => same_fn f g | None, None => True | _, _ => False end.
Proof.
  induction 1 as [|[k f] [k' g] l l' (Ek & Hs) Hl IH]; cbn [map_get]; auto. cbn in Ek, Hs. subst k'. destruct (str_eqb n k); auto.
Qed.
Section Same.
Variable inner : renderer_inner.
Variable l' : list (str * engine_fn).
Hypothesis Hsame : same_fns (en_functions (ri_engine inner)) l'.
Notation inner' := (with_engine inner (with_functions (ri_engine inner) l')).
Lemma same_exec t i pc st ex : exec_instr inner' t i pc st ex = exec_instr inner t i pc st ex.
Proof.
  destruct i; try reflexivity; unfold exec_instr; cbn [ri_engine with_engine en_functions with_functions en_default_formatter];
    destruct (index_span _ _) as [w| | |]; cbn [lift rbind]; auto; pose proof (same_get w _ _ Hsame) as K;
    destruct (map_get w (en_functions (ri_engine inner))) as [f|], (map_get w l') as [g|]; try contradiction; auto;
    destruct K as [f g K|f]; auto; destruct ex as [c|]; cbn [unwrap lift rbind]; auto; now rewrite (call_same f g).
Qed.
Lemma same_one fuel : forall t pc st ex, render_one inner' fuel t pc st ex = render_one inner fuel t pc st ex.
Proof.
  induction fuel as [|fuel IH]; intros t pc st ex; cbn [render_one]; auto. destruct (nth_error _ _); auto. rewrite same_exec.
  apply rbind_ext. intros [pc' st' ex'|rs pc' st']; auto.
Qed.
Lemma same_loop fuel : forall ts st h, render_loop inner' fuel ts st h = render_loop inner fuel ts st h.
Proof.
  induction fuel as [|fuel IH]; intros [|a ts] st h; cbn [render_loop]; auto. rewrite same_one. apply rbind_ext. intros [[rs pc] st1].
  apply rbind_ext. intros [[ts1 st2] h1]. change (max_include_depth inner') with (max_include_depth inner).
  destruct (_ <? _)%N; auto.
Qed.
Lemma same_render fuel st : render inner' fuel st = render inner fuel st.
Proof. exact (same_loop fuel _ st []). Qed.
End Same.
End Typed.
