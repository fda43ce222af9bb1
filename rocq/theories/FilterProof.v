(** Filter calls, pipelines and emitted expressions: the code follows the rules. *)
From Verif Require Import Base Utf8 Ext Errors Syntax AhoCorasick SearchSpec SyntaxSpec Value Ast Lexer LexSpec Wp
  GrammarSpec Parser AstOk Compiler CompileProof ParseMain Fmt Stack Filters Render Engine EngineSpec CompileFacts
  RenderSpec RenderProof RenderErr MapFacts RenderMain RenderObs StackRel LookupSpec LookupProof FilterSpec.
From Coq Require Import Floats.SpecFloat.

Lemma int_range_iff t z : int_range t z <-> (int_ty_min t <= z <= int_ty_max t)%Z.
Proof. destruct t; unfold int_range; cbn -[Z.pow]; lia. Qed.
Lemma int_range_dec t z : ((int_ty_min t <=? z) && (z <=? int_ty_max t))%Z = true <-> int_range t z.
Proof. rewrite int_range_iff, andb_true_iff, !Z.leb_le. reflexivity. Qed.

Section FilterProof.
Context `{X : Ext}.

Lemma build_pretty_no_err source sp e : build_pretty source sp <> Err e.
Proof.
  unfold build_pretty, index_span, slice. destruct (to_ln_col _ _). destruct (_ && _); cbn [bind]; [|discriminate].
  destruct (nth_error _ _); cbn [bind]; [discriminate|]. destruct (hd_error _); cbn; discriminate.
Qed.
Definition complaint (what : str) (e : arg_error) : str :=
  match e with
  | AeType exp got => s2b "filter expected " ++ exp ++ s2b " " ++ what ++ s2b ", found " ++ got
  | AeReference got => s2b "filter expected reference argument but this " ++ got ++ s2b " can only be passed as owned"
  | AeTryFromInt want v => s2b "filter expected " ++ want ++ s2b " " ++ what ++ s2b ", but `" ++ show_Z v ++ s2b "` is out of range"
  end.
Lemma err_arg_complaint {A} e source sp : @err_expected_arg X A e source sp = err_render (complaint (s2b "argument") e) source sp.
Proof. destruct e; reflexivity. Qed.
Lemma err_val_complaint {A} e source sp : (forall g, e <> AeReference g) -> @err_expected_val X A e source sp = err_render (complaint (s2b "value") e) source sp.
Proof. intros H. unfold err_expected_val. destruct e; [reflexivity|now destruct (H expected)|reflexivity]. Qed.

Lemma int_name_ok it : int_ty_name it = int_name it.
Proof. destruct it; reflexivity. Qed.
Lemma ref_fits what t v : match from_value_ref t v with
  | inl a => fits t v a
  | inr e => unfit what t v (complaint what e) /\ forall g, e <> AeReference g
  end.
Proof.
  assert (U : forall t v e, ~ of_kind t v -> e = AeType (ty_name t) (human v) -> unfit what t v (complaint what e) /\ forall g, e <> AeReference g).
  { intros t0 v0 e H ->. split; [now constructor|discriminate]. }
  destruct t; cbn [from_value_ref].
  - destruct v; try (apply U; [intros K; discriminate K|reflexivity]). constructor.
  - destruct v; try (apply U; [intros (? & K); discriminate K|reflexivity]). constructor.
  - destruct v; try (apply U; [intros (? & K); discriminate K|now rewrite int_name_ok]).
    rewrite int_name_ok. destruct ((int_ty_min t <=? _) && _)%Z eqn:E.
    + constructor. now apply int_range_dec.
    + split; [|discriminate]. eapply un_range; [reflexivity|reflexivity|]. intros K. apply int_range_dec in K. congruence.
  - destruct v; try (apply U; [intros (? & K); discriminate K|reflexivity]). constructor.
  - destruct v; try (apply U; [intros (? & K); discriminate K|reflexivity]). constructor.
  - destruct v; try (apply U; [intros (? & K); discriminate K|reflexivity]). constructor.
  - destruct v; try (apply U; [intros (? & K); discriminate K|reflexivity]). constructor.
  - destruct v; try (apply U; [intros (? & K); discriminate K|reflexivity]). constructor.
  - destruct v; try (apply U; [intros (? & K); discriminate K|reflexivity]). constructor.
  - destruct v; try (apply U; [intros (? & K); discriminate K|reflexivity]). constructor.
  - destruct v; try (apply U; [intros (? & K); discriminate K|reflexivity]). constructor.
  - constructor.
  - constructor.
Qed.
(** Argument conversion of either kind. *)
Definition convert (t : arg_ty) (c : cow) : arg_val + arg_error :=
  match c with Borrowed x => from_value_ref t x | Owned x => from_value t x end.
Lemma convert_passes t c : match convert t c with
  | inl a => passes t c a
  | inr e => refused t c (complaint (s2b "argument") e)
  end.
Proof.
  destruct c as [v|v]; cbn [convert].
  - pose proof (ref_fits (s2b "argument") t v) as H. destruct (from_value_ref t v) as [a|e].
    + split; [exact H|reflexivity].
    + apply re_unfit. apply H.
  - destruct (is_reference t) eqn:R.
    + destruct t; try discriminate R; cbn [from_value].
      * destruct v; try (apply re_unfit; apply (un_kind (s2b "argument") TyStr); intros (? & K); discriminate K).
        apply (re_owned TyStr); [reflexivity|reflexivity|]. eexists; reflexivity.
      * destruct v; try (apply re_unfit; apply (un_kind (s2b "argument") TyListRef); intros (? & K); discriminate K).
        apply (re_owned TyListRef); [reflexivity|reflexivity|]. eexists; reflexivity.
      * destruct v; try (apply re_unfit; apply (un_kind (s2b "argument") TyMapRef); intros (? & K); discriminate K).
        apply (re_owned TyMapRef); [reflexivity|reflexivity|]. eexists; reflexivity.
      * apply (re_owned TyValueRef); [reflexivity|reflexivity|exact I].
    + assert (E : from_value t v = from_value_ref t v) by (destruct t; try discriminate R; reflexivity). rewrite E.
      pose proof (ref_fits (s2b "argument") t v) as H. destruct (from_value_ref t v) as [a|e].
      * split; [exact H|]. intros K. congruence.
      * apply re_unfit. apply H.
Qed.
(** The rules are deterministic. *)
Lemma fits_fun t v a a' : fits t v a -> fits t v a' -> a = a'.
Proof. destruct 1; inversion 1; reflexivity. Qed.
Lemma fits_kind t v a : fits t v a -> of_kind t v.
Proof. destruct 1; cbn; eauto. Qed.
Lemma fits_not_unfit what t v a r : fits t v a -> ~ unfit what t v r.
Proof.
  intros H [K|it z -> -> K].
  - apply K. eapply fits_kind; eauto.
  - inversion H; subst. auto.
Qed.
Lemma unfit_fun what t v r r' : unfit what t v r -> unfit what t v r' -> r = r'.
Proof.
  intros [K|it z -> -> K] [K'|it' z' E E' K']; subst; auto.
  - exfalso. apply K. cbn. eauto.
  - exfalso. apply K'. cbn. eauto.
  - injection E as ->. injection E' as ->. reflexivity.
Qed.
Lemma passes_not_refused t c a r : passes t c a -> ~ refused t c r.
Proof.
  intros (H & Hr) [r0 K|R O _].
  - eapply fits_not_unfit; eauto.
  - rewrite (Hr R) in O. discriminate O.
Qed.
Lemma refused_fun t c r r' : refused t c r -> refused t c r' -> r = r'.
Proof.
  intros [r0 K|R O Ki] [r1 K'|R' O' Ki']; auto.
  - eapply unfit_fun; eauto.
  - exfalso. destruct K as [K|it z -> _ _]; [now apply K|discriminate R'].
  - exfalso. destruct K' as [K|it z -> _ _]; [now apply K|discriminate R].
Qed.
Lemma convert_pass t c a : passes t c a -> convert t c = inl a.
Proof.
  intros H. pose proof (convert_passes t c) as K. destruct (convert t c) as [a'|e].
  - f_equal. destruct H, K. eapply fits_fun; eauto.
  - exfalso. eapply passes_not_refused; eauto.
Qed.
Lemma convert_refused t c r : refused t c r -> exists e, convert t c = inr e /\ complaint (s2b "argument") e = r.
Proof.
  intros H. pose proof (convert_passes t c) as K. destruct (convert t c) as [a'|e].
  - exfalso. eapply passes_not_refused; eauto.
  - exists e. split; [reflexivity|]. eapply refused_fun; eauto.
Qed.

Section Source.
Variable source : str.
Hypothesis Hne : source <> [].

Lemma place_var v : var_ok source v -> @var_span error v = Ok (place (BVar v)).
Proof. intros (id & sp & ms & -> & _). unfold var_span, var_first, var_last. cbn [hd_error unwrap bind place]. now rewrite last_hd. Qed.
Lemma stands_sound st b a : base_ok source b -> stands_for source st b a ->
  match b with BVar v => lookup_var st source v = answer_result source a | BLit v _ => a = AnValue (Borrowed v) end.
Proof.
  intros Hok H. destruct H as [v sp|first name rest a Hn Hl]; [reflexivity|].
  destruct Hok as (id & sp & ms & E & F). injection E as -> ->. now apply (looks_sound source Hne _ name ms).
Qed.
Lemma stands_total st b : base_ok source b -> vars_here source st -> exists a, stands_for source st b a.
Proof.
  intros Hok Hv. destruct b as [v|v sp]; [|eexists; constructor]. destruct Hok as (id & sp & ms & -> & F).
  destruct (names_ok source (mkmember Direct (AKey id) sp)) as [(name & Hn)|(i & s & E)]; [now inversion F| |discriminate E].
  destruct (looks_total source _ name ms Hn F st Hv) as (a & Ha). exists a. econstructor; eauto.
Qed.
Lemma get_arg_convert st t b c : base_ok source b -> stands_for source st b (AnValue c) ->
  get_arg t source st b = match convert t c with inl av => Ok av | inr e => err_render (complaint (s2b "argument") e) source (place b) end.
Proof.
  intros Hok H. pose proof (stands_sound st b _ Hok H) as E. destruct b as [v|v sp]; cbn [get_arg].
  - rewrite E. cbn [answer_result bind]. unfold convert. destruct c as [x|x].
    + destruct (from_value_ref t x); [reflexivity|]. rewrite (place_var v Hok). cbn [bind]. apply err_arg_complaint.
    + destruct (from_value t x); [reflexivity|]. rewrite (place_var v Hok). cbn [bind]. apply err_arg_complaint.
  - injection E as ->. cbn [convert place]. destruct (from_value_ref t v); [reflexivity|]. apply err_arg_complaint.
Qed.
Lemma given_sound st tys l r : Forall (base_ok source) l -> given source st tys l r ->
  get_args tys source st l = match r with inl avs => Ok avs | inr (m, sp) => err_render m source sp end.
Proof.
  intros Hok H. induction H as [|t tys b l c a avs Hs Hp Hg IH|t tys b l c a [m sp] Hs Hp Hg IH|t tys b l c m Hs Hr|t tys b l m sp Hs]; cbn [get_args];
    [reflexivity|inversion Hok as [|? ? O1 O2]; subst..].
  - rewrite (get_arg_convert st t b c O1 Hs), (convert_pass _ _ _ Hp). cbn [bind]. now rewrite (IH O2).
  - rewrite (get_arg_convert st t b c O1 Hs), (convert_pass _ _ _ Hp). cbn [bind]. rewrite (IH O2). unfold err_render. now destruct (build_pretty source sp).
  - rewrite (get_arg_convert st t b c O1 Hs). destruct (convert_refused _ _ _ Hr) as (e & -> & <-). unfold err_render. now destruct (build_pretty source (place b)).
  - pose proof (stands_sound st b _ O1 Hs) as E. destruct b as [v|v s]; [|discriminate E]. cbn [get_arg]. rewrite E. cbn [answer_result].
    unfold err_render. now destruct (build_pretty source sp).
Qed.
Lemma given_total st l : Forall (base_ok source) l -> vars_here source st -> forall tys, length l = length tys -> exists r, given source st tys l r.
Proof.
  intros Hok Hv. induction Hok as [|b l Hb Hl IH]; intros [|t tys] E; try discriminate E; [eexists; constructor|].
  injection E as E. destruct (IH tys E) as (r & Hr). destruct (stands_total st b Hb Hv) as ([c|m sp] & Ha).
  - pose proof (convert_passes t c) as K. destruct (convert t c) as [a|e].
    + destruct r as [avs|e]; eexists; [eapply gi_some|eapply gi_later]; eauto.
    + eexists. eapply gi_refused; eauto.
  - eexists. eapply gi_missing; eauto.
Qed.
Lemma calls_sound f name st c l r : Forall (base_ok source) l -> calls source f name st c l r ->
  call_filter f source name st c l =
  match r with
  | inl (a, avs) => match fl_run f a avs with inl v => Ok v | inr m => Err (mk_filter_error m) end
  | inr (m, sp) => err_render m source sp
  end.
Proof.
  intros Hok H. unfold call_filter, check_args, from_cow_mut.
  assert (R : forall a, fits (fl_recv f) (cow_val c) a -> from_value_ref (fl_recv f) (cow_val c) = inl a).
  { intros a Ha. exact (convert_pass (fl_recv f) (Borrowed (cow_val c)) a (conj Ha (fun _ => eq_refl))). }
  destruct H as [a avs El Hf Hg|El|m El Hu|a [m sp] El Hf Hg].
  - rewrite El, Nat.eqb_refl. cbn [bind]. rewrite (R a Hf). cbn [bind]. rewrite (given_sound st _ _ _ Hok Hg). reflexivity.
  - apply Nat.eqb_neq in El. rewrite El. unfold err_render. now destruct (build_pretty source (id_span name)).
  - rewrite El, Nat.eqb_refl. cbn [bind]. pose proof (ref_fits (s2b "value") (fl_recv f) (cow_val c)) as K.
    destruct (from_value_ref _ _) as [a|e]; [exfalso; eapply fits_not_unfit; eauto|]. destruct K as (K & Kr).
    rewrite (err_val_complaint e _ _ Kr), (unfit_fun _ _ _ _ _ Hu K). unfold err_render. now destruct (build_pretty source (id_span name)).
  - rewrite El, Nat.eqb_refl. cbn [bind]. rewrite (R a Hf). cbn [bind]. rewrite (given_sound st _ _ _ Hok Hg).
    unfold err_render. now destruct (build_pretty source sp).
Qed.
Lemma calls_total f name st c l : Forall (base_ok source) l -> vars_here source st -> exists r, calls source f name st c l r.
Proof.
  intros Hok Hv. destruct (Nat.eq_dec (length l) (length (fl_args f))) as [El|El]; [|eexists; now apply ca_number].
  pose proof (ref_fits (s2b "value") (fl_recv f) (cow_val c)) as K. destruct (from_value_ref _ _) as [a|e].
  - destruct (given_total st l Hok Hv _ El) as ([avs|e] & Hg); eexists; [eapply ca_run|eapply ca_argument]; eauto.
  - eexists. apply ca_receiver; auto. apply K.
Qed.

(** ** Expressions *)
Variable inner : renderer_inner.
Notation functions := (en_functions (ri_engine inner)).
Notation evaluates := (evaluates source functions).
Lemma args_base_ok a : oargs_ok source a -> Forall (base_ok source) (match a with Some a => a_values a | None => [] end).
Proof. destruct a as [a|]; [|constructor]. intros (H & _). exact H. Qed.
Lemma function_word name o : function_is source functions name o -> forall A (K : str -> res A), (let* nm := index_span source (id_span name) in K nm) = 
  (let* nm := index_span source (id_span name) in K nm) /\ exists w, @index_span error source (id_span name) = Ok w /\ map_get w functions = o.
Proof. intros H A K. split; [reflexivity|exact H]. Qed.
Lemma apply_sound st name a c f r : oargs_ok source a -> function_is source functions name (Some (EFilter f)) ->
  calls source f name st c (match a with Some a => a_values a | None => [] end) r ->
  s_apply inner source st name (arg_list a) c =
  match r with
  | inl (av, avs) => match fl_run f av avs with inl v => Ok v | inr m => fails source KFilter m (id_span name) end
  | inr (m, sp) => fails source KRender m sp
  end.
Proof.
  intros Ha (w & Ew & Em) Hc. unfold s_apply, arg_list. rewrite Ew. cbn [bind]. rewrite Em, (calls_sound _ _ _ _ _ _ (args_base_ok a Ha) Hc).
  destruct r as [[av avs]|[m sp]].
  - destruct (fl_run f av avs); [reflexivity|]. unfold err_enrich, fails, located_error. cbn. now destruct (build_pretty source _).
  - unfold err_render, fails, located_error. pose proof (build_pretty_no_err source sp) as N. destruct (build_pretty source sp) as [|e0| |]; try reflexivity. now destruct (N e0).
Qed.
Lemma evaluates_sound st e r : expr_ok source e -> evaluates st e r -> s_expr inner source st e = evaluated_result source r.
Proof.
  intros Hok H. induction H as [v sp|v c Hs|v m sp Hs|name a recv sp c f av avs v Hr IH Hf Hc Hu|name a recv sp c f av avs m Hr IH Hf Hc Hu
    |name a recv sp c f m esp Hr IH Hf Hc|name a recv sp c f Hr IH Hf|name a recv sp c Hr IH Hf|name a recv sp k m esp Hr IH]; cbn [s_expr];
    try (cbn [expr_ok] in Hok; destruct Hok as (O1 & O2 & O3 & O4); rewrite (IH O3); cbn [evaluated_result bind]).
  - reflexivity.
  - exact (stands_sound st (BVar v) _ Hok Hs).
  - rewrite (stands_sound st (BVar v) _ Hok Hs). cbn [answer_result evaluated_result]. unfold err_render, fails, located_error. now destruct (build_pretty source sp).
  - rewrite (apply_sound st name a c f _ O2 Hf Hc), Hu. reflexivity.
  - rewrite (apply_sound st name a c f _ O2 Hf Hc), Hu. unfold fails, located_error. now destruct (build_pretty source _).
  - rewrite (apply_sound st name a c f _ O2 Hf Hc). unfold fails, located_error. now destruct (build_pretty source _).
  - destruct Hf as (w & Ew & Em). unfold s_apply. rewrite Ew. cbn [bind]. rewrite Em. unfold err_render, fails, located_error. now destruct (build_pretty source _).
  - destruct Hf as (w & Ew & Em). unfold s_apply. rewrite Ew. cbn [bind]. rewrite Em. unfold err_render, fails, located_error. now destruct (build_pretty source _).
  - unfold fails, located_error. now destruct (build_pretty source esp).
Qed.
Lemma function_total name : span_ok source (id_span name) -> exists o, function_is source functions name o.
Proof. intros H. eexists. exists (sub source (sp_m (id_span name)) (sp_n (id_span name))). split; [now apply index_span_ok|reflexivity]. Qed.
Lemma evaluates_total st e : expr_ok source e -> vars_here source st -> exists r, evaluates st e r.
Proof.
  intros Hok Hv. induction e as [[v|v sp]|name a recv IH sp]; cbn [expr_ok] in Hok.
  - destruct (stands_total st (BVar v) Hok Hv) as ([c|m sp] & Ha); eexists; [eapply ev_var|eapply ev_var_error]; eauto.
  - eexists. constructor.
  - destruct Hok as (O1 & O2 & O3 & O4). destruct (IH O3) as ([c|k m esp] & Hr); [|eexists; eapply ev_before; eauto].
    destruct (function_total name O1) as ([[f|f]|] & Hf).
    + eexists. eapply ev_formatter; eauto.
    + destruct (calls_total f name st c _ (args_base_ok a O2) Hv) as ([[av avs]|[m esp]] & Hc).
      * destruct (fl_run f av avs) as [v|m] eqn:Eu; eexists; [eapply ev_filter|eapply ev_filter_fails]; eauto.
      * eexists. eapply ev_not_callable; eauto.
    + eexists. eapply ev_unknown; eauto.
Qed.
(** ** Emitted expressions *)
Notation default := (en_default_formatter (ri_engine inner)).
Notation emits := (emits source functions default).
Definition emitted_result (r : emitted) : rt unit :=
  match r with
  | EmFormat f v sp => run_fmt (f v) (fun m => err_format m source sp)
  | EmError k m sp => lift (fails source k m sp)
  end.
Lemma expr_place_ok e : expr_ok source e -> @expr_span error e = Ok (expr_place e).
Proof. destruct e as [[v|v sp]|name a recv sp]; cbn [expr_ok expr_span]; intros H; [|reflexivity|reflexivity]. exact (place_var v H). Qed.
Lemma emits_sound st e r : expr_ok source e -> emits st e r -> s_inline inner source st e = emitted_result r.
Proof.
  intros Hok H.
  assert (D : bare_call e = false -> s_inline inner source st e = (let% c := lift (s_expr inner source st e) in let% sp := lift (expr_span e) in s_default inner source (cow_val c) sp)).
  { destruct e as [b|name [a|] recv sp]; try reflexivity. discriminate. }
  destruct H as [e c Hb He|e k m sp Hb He|name recv sp c f Hr Hf|name recv sp f c Hf He|name recv sp f k m esp c Hf Hr He|name recv sp c Hr Hf|name recv sp k m esp Hr].
  - rewrite (D Hb), (evaluates_sound _ _ _ Hok He), (expr_place_ok e Hok). reflexivity.
  - rewrite (D Hb), (evaluates_sound _ _ _ Hok He). cbn [evaluated_result emitted_result]. unfold fails, located_error. now destruct (build_pretty source sp).
  - cbn [expr_ok] in Hok. destruct Hok as (O1 & O2 & O3 & O4). cbn [s_inline]. rewrite (evaluates_sound _ _ _ O3 Hr). cbn [evaluated_result lift rbind].
    destruct Hf as (w & Ew & Em). rewrite Ew. cbn [rbind]. rewrite Em. reflexivity.
  - pose proof (evaluates_sound _ _ _ Hok He) as E. cbn [expr_ok] in Hok. destruct Hok as (O1 & O2 & O3 & O4). cbn [s_inline]. cbn [s_expr arg_list] in E.
    destruct Hf as (w & Ew & Em). destruct (s_expr inner source st recv) as [c0| | |]; cbn [bind] in E; try discriminate E.
    cbn [lift rbind]. rewrite Ew. cbn [rbind]. rewrite Em. destruct (s_apply inner source st name [] c0) as [v| | |]; cbn [bind] in E; try discriminate E.
    cbn [evaluated_result] in E. injection E as <-. reflexivity.
  - pose proof (evaluates_sound _ _ _ Hok He) as E. cbn [expr_ok] in Hok. destruct Hok as (O1 & O2 & O3 & O4). cbn [s_inline]. cbn [s_expr arg_list] in E.
    rewrite (evaluates_sound _ _ _ O3 Hr) in *. cbn [evaluated_result lift rbind bind] in *.
    destruct Hf as (w & Ew & Em). rewrite Ew. cbn [rbind]. rewrite Em. unfold emitted_result. 
    destruct (s_apply inner source st name [] c) as [v| | |]; cbn [bind] in E; unfold fails, located_error in *; destruct (build_pretty source esp); cbn [bind] in *; try discriminate E; try (injection E as <-); reflexivity.
  - cbn [expr_ok] in Hok. destruct Hok as (O1 & O2 & O3 & O4). cbn [s_inline]. rewrite (evaluates_sound _ _ _ O3 Hr). cbn [evaluated_result lift rbind].
    destruct Hf as (w & Ew & Em). rewrite Ew. cbn [rbind]. rewrite Em. cbn [emitted_result]. unfold lift, err_render, fails, located_error. f_equal. now destruct (build_pretty source _).
  - cbn [expr_ok] in Hok. destruct Hok as (O1 & O2 & O3 & O4). cbn [s_inline]. rewrite (evaluates_sound _ _ _ O3 Hr). cbn [evaluated_result emitted_result].
    unfold fails, located_error. now destruct (build_pretty source esp).
Qed.
Lemma emits_total st e : expr_ok source e -> vars_here source st -> exists r, emits st e r.
Proof.
  intros Hok Hv. destruct (evaluates_total st e Hok Hv) as (r & He). destruct (bare_call e) eqn:Eb.
  - destruct e as [b|name [a|] recv sp]; try discriminate Eb. pose proof Hok as (O1 & O2 & O3 & O4).
    destruct (evaluates_total st recv O3 Hv) as ([c|k m esp] & Hr); [|eexists; eapply em_before; eauto].
    destruct (function_total name O1) as ([[f|f]|] & Hf).
    + eexists. eapply em_formatter; eauto.
    + destruct r as [c'|k m esp]; eexists; [eapply em_filter|eapply em_filter_error]; eauto.
    + eexists. eapply em_unknown; eauto.
  - destruct r as [c'|k m esp]; eexists; [eapply em_value|eapply em_error]; eauto.
Qed.
End Source.
End FilterProof.
