(** Compiling and rendering in two builds (C51). *)
From Verif Require Import Base Utf8 Ext Errors Syntax AhoCorasick SearchSpec SyntaxSpec Value Ast Lexer LexSpec Wp
  GrammarSpec Parser AstOk Compiler CompileProof ParseMain Fmt Stack Filters Render Engine FeatureSpec.

Notation sbp := same_but_place.
Lemma sbp_refl {A} (x : res A) : sbp x x.
Proof. destruct x; cbn; intuition. Qed.
Lemma sbp_bind {A B} (x y : res A) (f g : A -> res B) : sbp x y -> (forall a, sbp (f a) (g a)) -> sbp (bind x f) (bind y g).
Proof. destruct x, y; cbn; try tauto. intros ->; auto. Qed.

(** Trees of writes *)
Inductive tsim {A} : rt A -> rt A -> Prop :=
| ts_ret x y : sbp x y -> tsim (RRet x) (RRet y)
| ts_write s o1 o2 e1 e2 : tsim o1 o2 -> tsim e1 e2 -> tsim (RWrite s o1 e1) (RWrite s o2 e2).
Lemma tsim_refl {A} (x : rt A) : tsim x x.
Proof. induction x; constructor; auto using sbp_refl. Qed.
Lemma tsim_bind {A B} (x y : rt A) (f g : A -> rt B) : tsim x y -> (forall a, tsim (f a) (g a)) -> tsim (rbind x f) (rbind y g).
Proof.
  induction 1 as [x y H|]; intros Hf; cbn; [|constructor; auto].
  destruct x, y; cbn in H; try tauto; subst; auto; constructor; cbn; auto.
Qed.
Lemma tsim_name {A} n (x y : rt A) : tsim x y -> tsim (name_err n x) (name_err n y).
Proof.
  unfold name_err. induction 1 as [x y H|]; cbn [rmap_err]; [|constructor; auto].
  destruct x as [a|e| |], y as [b|e'| |]; cbn in H; try tauto; constructor; try exact H.
  destruct n as [n|]; [|exact H]. unfold with_template_name. destruct H as (H1 & H2 & H3 & H4). rewrite <- H2.
  destruct (e_name e) eqn:E; (split; [exact H1|split; [|split; [exact H3|exact H4]]]); [now rewrite E|reflexivity].
Qed.
Lemma tsim_lift {A} (x y : res A) : sbp x y -> tsim (lift x) (lift y).
Proof. apply ts_ret. Qed.
Lemma tsim_run {A} (x y : rt A) k : tsim x y -> forall w err, fst (run k w err x) = fst (run k w err y) /\ sbp (snd (run k w err x)) (snd (run k w err y)).
Proof. induction 1 as [|s o1 o2 e1 e2 _ IHo _ IHe]; intros w err; cbn [run]; [auto|]. destruct (sk_write k w s) as [w' [c|]]; auto. Qed.
Lemma tsim_run_string {A} (x y : rt A) : tsim x y -> forall b, fst (run_string b x) = fst (run_string b y) /\ sbp (snd (run_string b x)) (snd (run_string b y)).
Proof. induction 1 as [|s o1 o2 e1 e2 _ IHo _ IHe]; intros b; cbn [run_string]; [auto|]. auto. Qed.

Section Sim.
Variables X1 X2 : Ext.
Hypothesis Hn : @f64_to_f32 X1 = @f64_to_f32 X2.

Lemma pretty_sim source sp : match @build_pretty X1 source sp, @build_pretty X2 source sp with
  | Ok _, Ok _ => True | Panic, Panic => True | _, _ => False end.
Proof.
  unfold build_pretty. destruct (@to_ln_col X1 _ _) as [l1 c1], (@to_ln_col X2 _ _) as [l2 c2].
  destruct (index_span source sp) eqn:E; cbn [bind]; auto.
  - destruct (split_terminator source) as [|x l] eqn:El.
    + destruct l1, l2; cbn; auto.
    + assert (N : forall i, exists t, match nth_error (x :: l) i with Some l0 => Ok l0 | None => @unwrap error str (hd_error (rev (x :: l))) end = Ok t).
      { intros i. destruct (nth_error (x :: l) i); [eauto|]. cbn [rev]. destruct (rev l ++ [x]) eqn:R; [now destruct (rev l)|]. cbn. eauto. }
      destruct (N l1) as (t1 & ->), (N l2) as (t2 & ->). cbn. auto.
  - unfold index_span, slice in E. destruct (_ && _ && _); discriminate.
  - unfold index_span, slice in E. destruct (_ && _ && _); discriminate.
Qed.
Lemma render_sim {A} m source sp : sbp (@err_render X1 A m source sp) (@err_render X2 A m source sp).
Proof.
  unfold err_render. pose proof (pretty_sim source sp) as H.
  destruct (@build_pretty X1 source sp), (@build_pretty X2 source sp); cbn in *; try tauto. split; [|split; [|split]]; auto. split; discriminate.
Qed.
Lemma format_sim {A} m source sp : sbp (@err_format X1 A m source sp) (@err_format X2 A m source sp).
Proof.
  unfold err_format. pose proof (pretty_sim source sp) as H.
  destruct (@build_pretty X1 source sp), (@build_pretty X2 source sp); cbn in *; try tauto. split; [|split; [|split]]; auto. split; discriminate.
Qed.
Lemma enrich_sim {A} e e' source sp : sbp (Err (A := A) e) (Err e') -> sbp (@err_enrich X1 A e source sp) (@err_enrich X2 A e' source sp).
Proof.
  intros (H1 & H2 & H3 & H4). unfold err_enrich. destruct (e_pretty e) as [p|] eqn:E, (e_pretty e') as [p'|] eqn:E'.
  - split; [exact H1|split; [exact H2|split; [exact H3|]]]. rewrite E, E'. split; discriminate.
  - destruct H4 as [_ H4]. discriminate (H4 eq_refl).
  - destruct H4 as [H4 _]. discriminate (H4 eq_refl).
  - pose proof (pretty_sim source sp) as H.
    destruct (@build_pretty X1 source sp), (@build_pretty X2 source sp); cbn in *; try tauto. split; [|split; [|split]]; auto. split; discriminate.
Qed.

Ltac sim := repeat (match goal with
  | |- sbp (bind ?x _) (bind ?x _) => apply sbp_bind; [apply sbp_refl|intros ?]
  | |- sbp ?x ?x => apply sbp_refl
  | |- sbp (err_render _ _ _) (err_render _ _ _) => apply render_sim
  | |- sbp (err_format _ _ _) (err_format _ _ _) => apply format_sim
  | |- sbp (match ?x with _ => _ end) (match ?x with _ => _ end) => destruct x
  end); auto.

Lemma lookup_sim source v m : sbp (@lookup X1 source v m) (@lookup X2 source v m).
Proof. unfold lookup. destruct v, (mb_access m); sim. Qed.
Lemma lookup_path_sim source o ms : forall v, sbp (@lookup_path_loop X1 source o v ms) (@lookup_path_loop X2 source o v ms).
Proof. induction ms as [|m ms IH]; intros v; cbn [lookup_path_loop]; [sim|]. apply sbp_bind; [apply lookup_sim|]. intros []; sim. Qed.
Lemma lookup_path_maybe_sim source o ms : forall v b, sbp (@lookup_path_maybe_loop X1 source o v ms b) (@lookup_path_maybe_loop X2 source o v ms b).
Proof.
  induction ms as [|m ms IH]; intros v b; cbn [lookup_path_maybe_loop]; [sim|].
  pose proof (lookup_sim source v m) as H. destruct (@lookup X1 source v m) as [[v1|]|e1| |], (@lookup X2 source v m) as [[v2|]|e2| |]; cbn in H; try tauto; try discriminate; try exact I.
  - injection H as <-. apply IH.
  - sim.
  - destruct b; [sim|exact H].
Qed.
Lemma resolve_sim source ms : forall v, sbp (@resolve X1 source v ms) (@resolve X2 source v ms).
Proof. induction ms as [|m ms IH]; intros v; cbn [resolve]; [sim|]. apply sbp_bind; [apply lookup_sim|]. intros []; sim. Qed.
Lemma loop_new_sim source vars c sp : sbp (@loop_new X1 source vars c sp) (@loop_new X2 source vars c sp).
Proof. unfold loop_new. destruct (cow_val c), vars; sim. Qed.
Lemma lookup_loop_sim l source p : sbp (@lookup_loop X1 l source p) (@lookup_loop X2 l source p).
Proof.
  unfold lookup_loop. destruct (current_index_and_rem l) as [[i rem]|]; [|sim]. destruct p as [|m0 [|m p]]; [sim..|].
  destruct (mb_access m); [sim|]. apply sbp_bind; [sim|]. intros nm. apply sbp_bind; [|intros v; sim]. sim.
Qed.
Lemma loop_lookup_sim l source v : sbp (@loop_lookup_var X1 l source v) (@loop_lookup_var X2 l source v).
Proof.
  unfold loop_lookup_var. apply sbp_bind; [sim|]. intros first. destruct (mb_access first); [sim|].
  apply sbp_bind; [sim|]. intros nm. destruct (str_eqb nm (s2b "loop")); [apply lookup_loop_sim|].
  destruct l as [o i n it [[k x]|]|o kn vn n it [[k [ky x]]|]]; try (sim; fail).
  - destruct (str_eqb nm i); [|sim]. apply sbp_bind; [apply resolve_sim|intros; sim].
  - destruct (str_eqb nm kn); [sim|]. destruct (str_eqb nm vn); [|sim]. apply sbp_bind; [apply resolve_sim|intros; sim].
Qed.
Lemma not_found_sim {A} source v : sbp (@err_not_found X1 A source v) (@err_not_found X2 A source v).
Proof. unfold err_not_found. sim. Qed.
Lemma lookup_var_sim st source v : sbp (@lookup_var X1 st source v) (@lookup_var X2 st source v).
Proof.
  induction st as [|fr st IH]; cbn [lookup_var]; [apply not_found_sim|]. destruct fr as [f|c|n c|l|].
  - apply sbp_bind; [sim|]. intros p. destruct (f p); sim.
  - apply sbp_bind; [apply lookup_path_maybe_sim|]. intros []; sim.
  - apply sbp_bind; [sim|]. intros first. apply sbp_bind; [sim|]. intros a. apply sbp_bind; [sim|]. intros b.
    destruct (str_eqb a b); [apply lookup_path_sim|apply IH].
  - apply sbp_bind; [apply loop_lookup_sim|]. intros []; sim.
  - apply not_found_sim.
Qed.
Lemma value_ref_same t v : @from_value_ref X1 t v = @from_value_ref X2 t v.
Proof. unfold from_value_ref. now rewrite Hn. Qed.
Lemma value_same t v : @from_value X1 t v = @from_value X2 t v.
Proof. unfold from_value. destruct t; auto using value_ref_same. Qed.
Lemma get_arg_sim t source st a : sbp (@get_arg X1 t source st a) (@get_arg X2 t source st a).
Proof.
  unfold get_arg. destruct a as [v|x sp].
  - apply sbp_bind; [apply lookup_var_sim|]. intros c.
    destruct c as [x|x]; rewrite ?value_ref_same, ?value_same; [destruct (from_value_ref t x)|destruct (from_value t x)]; unfold err_expected_arg; sim.
  - rewrite value_ref_same. destruct (from_value_ref t x); unfold err_expected_arg; sim.
Qed.
Lemma get_args_sim source st tys : forall l, sbp (@get_args X1 tys source st l) (@get_args X2 tys source st l).
Proof.
  induction tys as [|t tys IH]; intros [|a l]; cbn [get_args]; [sim..|]. apply sbp_bind; [apply get_arg_sim|]. intros av.
  apply sbp_bind; [apply IH|]. intros; sim.
Qed.
Lemma call_sim f source name st recv l : sbp (@call_filter X1 f source name st recv l) (@call_filter X2 f source name st recv l).
Proof.
  unfold call_filter. apply sbp_bind; [unfold check_args; sim|]. intros _. unfold from_cow_mut. rewrite value_ref_same.
  apply sbp_bind; [destruct (from_value_ref (fl_recv f) (cow_val recv)) as [|[]]; unfold err_expected_val; sim|]. intros r.
  apply sbp_bind; [apply get_args_sim|]. intros avs. sim.
Qed.
Lemma run_fmt_sim p f g : (forall m, sbp (f m) (g m)) -> tsim (run_fmt p f) (run_fmt p g).
Proof. intros H. induction p; cbn; constructor; auto using sbp_refl. Qed.

Variable inner : renderer_inner.
Ltac tsim := repeat (match goal with
  | |- tsim (rbind ?x _) (rbind ?x _) => apply tsim_bind; [apply tsim_refl|intros ?]
  | |- tsim ?x ?x => apply tsim_refl
  | |- tsim (rbind (run_fmt _ _) _) (rbind (run_fmt _ _) _) => apply tsim_bind; [apply run_fmt_sim; intros; sim|intros ?]
  | |- tsim (lift (err_render _ _ _)) (lift (err_render _ _ _)) => apply tsim_lift, render_sim
  | |- tsim (match ?x with _ => _ end) (match ?x with _ => _ end) => destruct x
  end); auto.
Ltac enriched :=
  match goal with |- tsim (lift (match @call_filter _ ?f ?s ?n ?st ?c ?l with _ => _ end)) _ =>
    apply tsim_lift; pose proof (call_sim f s n st c l) as Hcall;
    destruct (@call_filter X1 f s n st c l), (@call_filter X2 f s n st c l); try exact Hcall; try (exfalso; exact Hcall);
    apply enrich_sim; exact Hcall end.
Lemma exec_sim t i pc st ex : tsim (@exec_instr X1 inner t i pc st ex) (@exec_instr X2 inner t i pc st ex).
Proof.
  unfold exec_instr. destruct i; try (tsim; fail).
  - apply tsim_bind; [tsim|]. intros nm. destruct (map_get nm _) as [[f|f]|]; [tsim| |tsim].
    apply tsim_bind; [tsim|]. intros c. apply tsim_bind; [|intros v; tsim]. enriched.
  - apply tsim_bind; [tsim|]. intros c. apply tsim_bind; [|intros v; tsim]. apply tsim_lift, loop_new_sim.
  - apply tsim_bind; [|intros c; tsim]. apply tsim_lift, lookup_var_sim.
  - apply tsim_bind; [tsim|]. intros nm. destruct (map_get nm _) as [[f|f]|]; [tsim| |tsim].
    apply tsim_bind; [tsim|]. intros c. apply tsim_bind; [|intros v; tsim]. enriched.
Qed.
Lemma render_one_sim t fuel : forall pc st ex, tsim (@render_one X1 inner fuel t pc st ex) (@render_one X2 inner fuel t pc st ex).
Proof.
  induction fuel as [|fuel IH]; intros pc st ex; cbn [render_one]; [tsim|]. destruct (nth_error _ pc); [|tsim].
  apply tsim_bind; [apply exec_sim|]. intros []; auto. tsim.
Qed.
Lemma get_template_sim source name hist : sbp (@get_template X1 inner source name hist) (@get_template X2 inner source name hist).
Proof. unfold get_template. sim. Qed.
Lemma loop_sim fuel : forall ts st hist, tsim (@render_loop X1 inner fuel ts st hist) (@render_loop X2 inner fuel ts st hist).
Proof.
  induction fuel as [|fuel IH]; intros ts st hist; destruct ts as [|a rest]; cbn [render_loop]; try (tsim; fail).
  apply tsim_bind; [apply tsim_name, render_one_sim|]. intros [[rs pc] st'].
  apply tsim_bind.
  - destruct rs; [tsim| |]; (apply tsim_bind; [apply tsim_name, tsim_lift, get_template_sim|intros [t' h']; tsim]).
  - intros [[ts st1] h1]. destruct (_ <? _)%N; [tsim|apply IH].
Qed.
Lemma to_string_sim fuel g : sbp (@to_string X1 fuel inner g) (@to_string X2 fuel inner g).
Proof.
  unfold to_string. apply sbp_bind; [sim|]. intros st. unfold render.
  pose proof (tsim_run_string _ _ (loop_sim fuel [mkact (ri_template inner) (ri_template_name inner) 0 false] st []) []) as (H1 & H2).
  destruct (run_string [] _) as [s1 r1], (run_string [] _) as [s2 r2]. cbn in H1, H2. subst s2.
  destruct r1 as [[]| | |], r2 as [[]| | |]; try (exfalso; exact H2); try exact H2. reflexivity.
Qed.
Lemma to_writer_sim fuel g k w : fst (@to_writer X1 fuel inner g k w) = fst (@to_writer X2 fuel inner g k w) /\
  sbp (snd (@to_writer X1 fuel inner g k w)) (snd (@to_writer X2 fuel inner g k w)).
Proof.
  unfold to_writer. destruct (initial_stack g) as [st|e| |]; try (split; [reflexivity|apply sbp_refl]). unfold render.
  pose proof (tsim_run _ _ k (loop_sim fuel [mkact (ri_template inner) (ri_template_name inner) 0 false] st []) w None) as (H1 & H2).
  destruct (run k w None _) as [[w1 c1] r1], (run k w None _) as [[w2 c2] r2]. cbn in H1, H2. injection H1 as <- <-.
  destruct r1 as [[]| | |], r2 as [[]| | |], c1; try (exfalso; exact H2); (split; [reflexivity|]); try exact H2; try reflexivity; apply sbp_refl.
Qed.
End Sim.
