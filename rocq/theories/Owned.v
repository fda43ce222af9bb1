(** Taking parameters by value instead of by reference: proofs. *)
From Verif Require Import Base Utf8 Ext Errors Value Ast Fmt Stack Filters Render Engine RenderObs UseSpec OwnedSpec.

Section Owned.
Context `{X : Ext}.
Variable b : bool.

Lemma rephrased_refl e : rephrased e e.
Proof. repeat split; auto. Qed.
Lemma told_refl {A} (r : res A) : told b r r.
Proof. destruct r; cbn; auto. right. eauto using rephrased_refl. Qed.
Lemma told_bind {A B} (x y : res A) (f g : A -> res B) : told b x y -> (forall a, told b (f a) (g a)) -> told b (bind x f) (bind y g).
Proof.
  intros H Hf. destruct x as [a|e| |]; cbn in *.
  - subst y. cbn. apply Hf.
  - destruct H as [H|(e' & -> & H)]; [now left|]. right. cbn. eauto.
  - intros E. now rewrite (H E).
  - now subst y.
Qed.
Lemma told_render {A} m1 m2 source sp : (m1 = m2 \/ exists of got, m1 = s2b "filter expected &str " ++ of ++ s2b ", found " ++ got /\ m2 = s2b "filter expected string " ++ of ++ s2b ", found " ++ got /\ (of = s2b "value" \/ of = s2b "argument")) ->
  told b (@err_render _ A m1 source sp) (err_render m2 source sp).
Proof.
  intros H. unfold err_render. destruct (build_pretty source sp); cbn; auto using rephrased_refl.
  - right. eexists. split; [reflexivity|]. split; [reflexivity|]. split; [reflexivity|]. split; [reflexivity|]. cbn.
    destruct H as [->|(o & got & -> & -> & H)]; [now left|]. right. eauto.
  - right. eauto using rephrased_refl.
Qed.
Lemma told_owned {A} what source sp (r : res A) :
  (exists p, build_pretty source sp = Ok p) \/ build_pretty source sp = Panic -> b = true ->
  told b (err_render (s2b "filter expected reference argument but this " ++ what ++ s2b " can only be passed as owned") source sp) r.
Proof.
  intros [(p & E)|E]; intros Hb; unfold err_render; rewrite E; cbn; [|congruence]. left. split; [exact Hb|]. split; [reflexivity|]. split; [discriminate|]. cbn. eauto.
Qed.
Lemma pretty_ends source sp : (exists p, build_pretty source sp = Ok p) \/ build_pretty source sp = Panic.
Proof.
  unfold build_pretty. destruct (to_ln_col _ _). unfold index_span, slice. destruct (_ && _); cbn; [|now right].
  destruct (nth_error _ _); cbn; [eauto|]. destruct (hd_error _); cbn; eauto.
Qed.
Lemma span_ends (v : var) : (exists sp, @var_span error v = Ok sp) \/ @var_span error v = Panic.
Proof.
  unfold var_span, var_first, var_last, unwrap. destruct (hd_error v); cbn; [|now right]. destruct (hd_error (rev v)); cbn; eauto.
Qed.

(** ** Converting a parameter *)
(** What reading a parameter of the two types gives: the same value; or an error that
    names the type. *)
Lemma ref_taken t1 t2 v : taken_by t1 t2 ->
  from_value_ref t1 v = from_value_ref t2 v \/
  exists got, from_value_ref t1 v = inr (AeType (s2b "&str") got) /\ from_value_ref t2 v = inr (AeType (s2b "string") got).
Proof. intros []; destruct v; cbn; eauto. Qed.
Lemma value_taken t1 t2 v : taken_by t1 t2 ->
  from_value t1 v = from_value t2 v \/ (exists what, from_value t1 v = inr (AeReference what)) \/
  exists got, from_value t1 v = inr (AeType (s2b "&str") got) /\ from_value t2 v = inr (AeType (s2b "string") got).
Proof. intros []; destruct v; cbn; eauto. Qed.

Lemma told_arg t1 t2 source st a : b = true -> taken_by t1 t2 -> told b (get_arg t1 source st a) (get_arg t2 source st a).
Proof.
  intros Hb T. destruct a as [v|x sp]; cbn [get_arg].
  - apply told_bind; [apply told_refl|]. intros [x|x].
    + destruct (ref_taken t1 t2 x T) as [->|(got & -> & ->)].
      * apply told_refl.
      * cbn [err_expected_arg]. apply told_bind; [apply told_refl|]. intros sp. apply told_render. right. exists (s2b "argument"), got. auto.
    + destruct (value_taken t1 t2 x T) as [->|[(what & ->)|(got & -> & ->)]].
      * apply told_refl.
      * destruct (span_ends v) as [(sp & E)|E]; rewrite E; cbn [bind]; [|cbn; congruence]. cbn [err_expected_arg].
        destruct (pretty_ends source sp) as [H|H]; (apply told_owned; auto).
      * cbn [err_expected_arg]. apply told_bind; [apply told_refl|]. intros sp. apply told_render. right. exists (s2b "argument"), got. auto.
  - destruct (ref_taken t1 t2 x T) as [->|(got & -> & ->)].
    + apply told_refl.
    + cbn [err_expected_arg]. apply told_render. right. exists (s2b "argument"), got. auto.
Qed.
Lemma told_args ts1 ts2 source st : b = true -> Forall2 taken_by ts1 ts2 -> forall l, told b (get_args ts1 source st l) (get_args ts2 source st l).
Proof.
  intros Hb. induction 1 as [|t1 t2 ts1 ts2 T _ IH]; intros l; cbn [get_args]; [apply told_refl|]. destruct l as [|a l]; [apply told_refl|].
  apply told_bind; [now apply told_arg|]. intros av. apply told_bind; [apply IH|]. intros. apply told_refl.
Qed.
Lemma told_call f1 f2 source name st c l : same_filter b f1 f2 -> told b (call_filter f1 source name st c l) (call_filter f2 source name st c l).
Proof.
  intros (Tr & Ta & Hf). unfold call_filter, from_cow_mut. assert (El : length (fl_args f1) = length (fl_args f2)) by (destruct b; [induction Ta; cbn; auto|now rewrite Ta]). rewrite El.
  apply told_bind; [apply told_refl|]. intros _. apply told_bind.
  - destruct (ref_taken _ _ (cow_val c) Tr) as [->|(got & -> & ->)]; [apply told_refl|].
    cbn [err_expected_val]. apply told_render. right. exists (s2b "value"), got. auto.
  - intros r. apply told_bind; [destruct b eqn:Eb; [rewrite <- Eb; now apply told_args|rewrite Ta, <- Eb; apply told_refl]|]. intros avs. rewrite Hf. apply told_refl.
Qed.
Lemma told_enrich (r1 r2 : res value) source sp : told b r1 r2 ->
  told b (match r1 with Ok a => Ok a | Err e => err_enrich e source sp | Panic => Panic | OutOfFuel => OutOfFuel end)
    (match r2 with Ok a => Ok a | Err e => err_enrich e source sp | Panic => Panic | OutOfFuel => OutOfFuel end).
Proof.
  intros H. destruct r1 as [a|e| |]; cbn in H; try (subst r2; cbn; auto; fail); [|intros E; now rewrite (H E)].
  destruct H as [H|(e' & -> & H)].
  - unfold err_enrich at 1. destruct H as (Hb & Hk & Hp & Hr). destruct (e_pretty e) eqn:E; [|now destruct Hp]. left. split; [exact Hb|]. split; [exact Hk|]. split; [congruence|exact Hr].
  - destruct H as (Hk & Hn & Hp & Hr). unfold err_enrich. rewrite <- Hp. destruct (e_pretty e) eqn:E.
    + right. exists e'. split; [reflexivity|]. repeat split; auto. congruence.
    + destruct (build_pretty source sp); cbn; auto using rephrased_refl; [|right; eauto using rephrased_refl].
      right. eexists. split; [reflexivity|]. repeat split; auto.
Qed.

(** ** Trees *)
Fixpoint fits {A} (x y : rt A) : Prop :=
  match x with
  | RRet (Ok a) => y = RRet (Ok a)
  | RRet (Err e) => (b = true /\ owned_only e) \/ exists e', y = RRet (Err e') /\ rephrased e e'
  | RRet Panic => b = false -> y = RRet Panic
  | RRet OutOfFuel => y = RRet OutOfFuel
  | RWrite s o e => exists o' e', y = RWrite s o' e' /\ fits o o' /\ fits e e'
  end.
Lemma fits_refl {A} (x : rt A) : fits x x.
Proof.
  induction x as [r|s o IHo e IHe]; [|cbn; eauto 6]. destruct r as [a|e| |]; cbn; auto. right. eauto using rephrased_refl.
Qed.
Lemma fits_bind {A B} (x y : rt A) (f g : A -> rt B) : fits x y -> (forall a, fits (f a) (g a)) -> fits (rbind x f) (rbind y g).
Proof.
  intros H Hf. revert y H. induction x as [r|s o IHo e IHe]; intros y H.
  - destruct r as [a|er| |]; cbn [fits] in H; cbn [rbind].
    + subst y. cbn [rbind]. apply Hf.
    + destruct H as [H|(e' & -> & H)]; [now left|right; cbn [rbind]; eauto].
    + intros E. now rewrite (H E).
    + subst y. reflexivity.
  - destruct H as (o' & e' & -> & Ho & He). cbn [rbind fits]. eauto 8.
Qed.
Lemma fits_lift {A} (x y : res A) : told b x y -> fits (lift x) (lift y).
Proof. destruct x as [a|e| |]; cbn; intros H; try (subst; auto; fail); [|intros E; now rewrite (H E)]. destruct H as [H|(e' & -> & H)]; [now left|right; eauto]. Qed.
Lemma fits_name {A} n (x y : rt A) : fits x y -> fits (name_err n x) (name_err n y).
Proof.
  unfold name_err. revert y. induction x as [r|s o IHo e IHe]; intros y H.
  - destruct r as [a|er| |]; cbn [fits] in H; cbn [rmap_err].
    + subst y. reflexivity.
    + destruct H as [(Hb & Hk & Hp & Hr)|(e' & -> & Hk & Hn & Hp & Hr)].
      * left. split; [exact Hb|]. destruct n as [n|]; [|repeat split; auto]. unfold with_template_name. destruct (e_name er); repeat split; auto.
      * right. cbn [rmap_err]. eexists. split; [reflexivity|]. destruct n as [n|]; [|repeat split; auto]. unfold with_template_name. rewrite <- Hn.
        destruct (e_name er) eqn:E; (split; [exact Hk|]; split; [|split; [exact Hp|exact Hr]]); cbn; congruence.
    + intros E. now rewrite (H E).
    + subst y. reflexivity.
  - destruct H as (o' & e' & -> & Ho & He). cbn [rmap_err fits]. eauto 8.
Qed.

(** ** Rendering *)
Variables (inner : renderer_inner) (e2 : engine).
Hypothesis H : same_engine b (ri_engine inner) e2.
Notation inner2 := (with_engine e2 inner).

Lemma exec_fits t ins pc st ex : fits (exec_instr inner t ins pc st ex) (exec_instr inner2 t ins pc st ex).
Proof.
  destruct H as (Hd & _ & _ & Hf).
  destruct ins; try apply fits_refl; cbn [exec_instr with_engine ri_engine].
  - rewrite <- Hd. apply fits_refl.
  - apply fits_bind; [apply fits_refl|]. intros raw. specialize (Hf raw). unfold same_function in Hf.
    destruct (map_get raw (en_functions (ri_engine inner))) as [[f1|f1]|]; [|destruct (map_get raw (en_functions e2)) as [[f2|f2]|]|];
      try (rewrite <- Hf; apply fits_refl); try discriminate Hf.
    apply fits_bind; [apply fits_refl|]. intros c. apply fits_bind; [apply fits_lift; refine (told_enrich _ _ _ _ (told_call _ _ _ _ _ _ _ Hf))|]. intros v. rewrite <- Hd. apply fits_refl.
  - apply fits_bind; [apply fits_refl|]. intros raw. specialize (Hf raw). unfold same_function in Hf.
    destruct (map_get raw (en_functions (ri_engine inner))) as [[f1|f1]|]; [|destruct (map_get raw (en_functions e2)) as [[f2|f2]|]|];
      try (rewrite <- Hf; apply fits_refl); try discriminate Hf.
    apply fits_bind; [apply fits_refl|]. intros c. apply fits_bind; [apply fits_lift; refine (told_enrich _ _ _ _ (told_call _ _ _ _ _ _ _ Hf))|]. intros v. apply fits_refl.
Qed.
Lemma one_fits fuel t : forall pc st ex, fits (render_one inner fuel t pc st ex) (render_one inner2 fuel t pc st ex).
Proof.
  induction fuel as [|fuel IH]; intros pc st ex; cbn [render_one]; [reflexivity|]. destruct (nth_error _ pc); [|apply fits_refl].
  apply fits_bind; [apply exec_fits|]. intros [pc' st' ex'|rs pc' st']; [apply IH|reflexivity].
Qed.
Lemma loop_fits fuel : forall ts st h, fits (render_loop inner fuel ts st h) (render_loop inner2 fuel ts st h).
Proof.
  assert (G : forall s n h, get_template inner2 s n h = get_template inner s n h).
  { intros s n h. unfold get_template. cbn [with_engine ri_template_fn ri_engine]. destruct H as (_ & Ht & _). now rewrite Ht. }
  assert (M : max_include_depth inner2 = max_include_depth inner).
  { unfold max_include_depth. cbn [with_engine ri_max_include_depth ri_engine]. destruct H as (_ & _ & Hm & _). now rewrite Hm. }
  induction fuel as [|fuel IH]; intros ts st h; (destruct ts as [|a rest]; cbn [render_loop]; [reflexivity|]); [reflexivity|].
  apply fits_bind; [apply fits_name, one_fits|]. intros [[rs pc] st']. apply fits_bind.
  - destruct rs; [apply fits_refl| |]; rewrite G; apply fits_refl.
  - intros [[ts' st''] h']. rewrite M. destruct (_ <? _)%N; [apply fits_refl|apply IH].
Qed.
Lemma render_fits fuel st : fits (render inner fuel st) (render inner2 fuel st).
Proof. apply loop_fits. Qed.
End Owned.

Lemma fits_string b (x y : rt unit) : fits b x y -> forall s0,
  match run_string s0 x with
  | (s, Ok tt) => run_string s0 y = (s, Ok tt)
  | (_, Err e) => (b = true /\ owned_only e) \/ exists s e', run_string s0 y = (s, Err e') /\ rephrased e e'
  | (_, Panic) => b = false -> snd (run_string s0 y) = Panic
  | (_, OutOfFuel) => snd (run_string s0 y) = OutOfFuel
  end.
Proof.
  revert y. induction x as [r|s o IHo e IHe]; intros y H s0; cbn [fits] in H; cbn [run_string].
  - destruct r as [[]|er| |]; try (subst y; reflexivity); [|intros E; now rewrite (H E)]. destruct H as [H|(e' & -> & H)]; [now left|right; cbn [run_string]; eauto].
  - destruct H as (o' & e' & -> & Ho & _). cbn [run_string]. now apply IHo.
Qed.
Lemma fits_run b k (x y : rt unit) : fits b x y -> forall (w : sk_state k) io,
  match run k w io x with
  | (w', io', Ok tt) => run k w io y = (w', io', Ok tt)
  | (w', io', Err e) => (b = true /\ owned_only e) \/ exists e', run k w io y = (w', io', Err e') /\ rephrased e e'
  | (_, _, Panic) => b = false -> snd (run k w io y) = Panic
  | (_, _, OutOfFuel) => snd (run k w io y) = OutOfFuel
  end.
Proof.
  revert y. induction x as [r|s o IHo e IHe]; intros y H w io; cbn [fits] in H; cbn [run].
  - destruct r as [[]|er| |]; try (subst y; reflexivity); [|intros E; now rewrite (H E)]. destruct H as [H|(e' & -> & H)]; [now left|right; cbn [run]; eauto].
  - destruct H as (o' & e' & -> & Ho & He). cbn [run]. destruct (sk_write k w s) as [w' [code|]]; [now apply IHe|now apply IHo].
Qed.
