(** Proofs about the include depth. *)
From Verif Require Import Base Utf8 Ext Errors Syntax Value Ast Fmt Stack Filters Render RenderProof RenderErr RenderObs IncludeFacts DepthSpec Engine.
From Coq Require Import Relations.

(** ** Errors of instructions are never the depth error *)
Section Plain.
Context `{X : Ext}.

Definition plain_err (e : error) : Prop := e_pretty e <> None \/ e_reason e = None.
Definition pe {A} (r : res A) : Prop := match r with Err e => plain_err e | _ => True end.
Lemma pe_bind {A B} (r : res A) (f : A -> res B) : pe r -> (forall a, pe (f a)) -> pe (let* a := r in f a).
Proof. destruct r; cbn; auto. Qed.
Lemma pe_index s sp : pe (@index_span error s sp).
Proof. unfold index_span, slice. now destruct (_ && _). Qed.
Lemma pe_pretty s sp : pe (build_pretty s sp).
Proof.
  unfold build_pretty. destruct (to_ln_col _ _). apply pe_bind; [apply pe_index|]. intros x. apply pe_bind; [|intros; exact I].
  destruct (nth_error _ _); [exact I|]. now destruct (hd_error _).
Qed.
Lemma pe_render {A} r s sp : pe (@err_render X A r s sp).
Proof. unfold err_render. apply pe_bind; [apply pe_pretty|]. intros p. left. discriminate. Qed.
Lemma pe_format {A} r s sp : pe (@err_format X A r s sp).
Proof. unfold err_format. apply pe_bind; [apply pe_pretty|]. intros p. left. discriminate. Qed.
Lemma pe_enrich {A} e s sp : pe (@err_enrich X A e s sp).
Proof. unfold err_enrich. destruct (e_pretty e) eqn:E; [left; congruence|]. apply pe_bind; [apply pe_pretty|]. intros p. left. discriminate. Qed.
Lemma pe_unwrap {A} (o : option A) : pe (@unwrap error A o).
Proof. now destruct o. Qed.
Lemma pe_lookup s v m : pe (lookup s v m).
Proof.
  unfold lookup. destruct v, (mb_access m); try apply pe_render.
  - destruct (list_get _ _); [exact I|]. destruct (mb_op m); [apply pe_render|exact I].
  - apply pe_bind; [apply pe_index|]. intros k. destruct (map_get _ _); [exact I|]. destruct (mb_op m0); [apply pe_render|exact I] || (destruct (mb_op m); [apply pe_render|exact I]).
Qed.
Lemma pe_path s o path : forall v, pe (lookup_path_loop s o v path).
Proof. induction path as [|p path IH]; intros v; cbn [lookup_path_loop]; [exact I|]. apply pe_bind; [apply pe_lookup|]. intros [v'|]; [apply IH|exact I]. Qed.
Lemma pe_maybe s o path : forall v b, pe (lookup_path_maybe_loop s o v path b).
Proof.
  induction path as [|p path IH]; intros v b; cbn [lookup_path_maybe_loop]; [exact I|]. pose proof (pe_lookup s v p) as H.
  destruct (lookup s v p) as [[v'|]|e| |]; auto; destruct b; auto; exact I.
Qed.
Lemma pe_resolve s path : forall v, pe (resolve s v path).
Proof. induction path as [|p path IH]; intros v; cbn [resolve]; [exact I|]. apply pe_bind; [apply pe_lookup|]. intros [v'|]; [apply IH|exact I]. Qed.
Lemma pe_lookup_loop l s path : pe (lookup_loop l s path).
Proof.
  unfold lookup_loop. destruct (current_index_and_rem l) as [[i rem]|]; [|exact I]. destruct path as [|p [|m rest]]; try exact I.
  destruct (mb_access m); [apply pe_render|]. apply pe_bind; [apply pe_index|]. intros k. apply pe_bind.
  - destruct (str_eqb _ _); [exact I|]. destruct (str_eqb _ _); [exact I|]. destruct (str_eqb _ _); [exact I|]. destruct (mb_op m); [apply pe_render|exact I].
  - intros v. destruct rest; [exact I|apply pe_render].
Qed.
Lemma pe_first v : pe (@var_first error v).
Proof. apply pe_unwrap. Qed.
Lemma pe_loop_var l s v : pe (loop_lookup_var l s v).
Proof.
  unfold loop_lookup_var. apply pe_bind; [apply pe_first|]. intros m. destruct (mb_access m); [exact I|].
  apply pe_bind; [apply pe_index|]. intros k. destruct (str_eqb _ _); [apply pe_lookup_loop|].
  destruct l as [? ? ? ? [[? ?]|]|? ? ? ? ? [[? [? ?]]|]]; try exact I.
  - destruct (str_eqb _ _); [|exact I]. apply pe_bind; [apply pe_resolve|]. intros; exact I.
  - destruct (str_eqb _ _); [destruct (var_rest v); [exact I|apply pe_render]|].
    destruct (str_eqb _ _); [|exact I]. apply pe_bind; [apply pe_resolve|]. intros; exact I.
Qed.
Lemma pe_value_path s path : pe (value_path s path).
Proof.
  induction path as [|m path IH]; cbn [value_path]; [exact I|]. apply pe_bind.
  - destruct (mb_access m); [exact I|]. apply pe_bind; [apply pe_index|]. intros; exact I.
  - intros a. apply pe_bind; [exact IH|]. intros; exact I.
Qed.
Lemma pe_var_span v : pe (@var_span error v).
Proof. unfold var_span. apply pe_bind; [apply pe_first|]. intros a. apply pe_bind; [apply pe_unwrap|]. intros; exact I. Qed.
Lemma pe_not_found {A} s v : pe (@err_not_found X A s v).
Proof. unfold err_not_found. apply pe_bind; [apply pe_first|]. intros a. apply pe_render. Qed.
Lemma pe_lookup_var st s v : pe (lookup_var st s v).
Proof.
  induction st as [|fr st IH]; cbn [lookup_var]; [apply pe_not_found|]. destruct fr as [f|c|id c|l|].
  - apply pe_bind; [apply pe_value_path|]. intros p. destruct (f p); [exact I|]. apply pe_bind; [apply pe_var_span|]. intros; apply pe_render.
  - apply pe_bind; [apply pe_maybe|]. intros [x|]; [exact I|exact IH].
  - apply pe_bind; [apply pe_first|]. intros m. apply pe_bind; [apply pe_index|]. intros a. apply pe_bind; [apply pe_index|]. intros b.
    destruct (str_eqb a b); [apply pe_path|exact IH].
  - apply pe_bind; [apply pe_loop_var|]. intros [x|]; [exact I|exact IH].
  - apply pe_not_found.
Qed.
Lemma pe_arg {A} e s sp : pe (@err_expected_arg X A e s sp).
Proof. unfold err_expected_arg. apply pe_render. Qed.
Lemma pe_get_arg ty s st b : pe (get_arg ty s st b).
Proof.
  destruct b as [v|v sp]; cbn [get_arg].
  - apply pe_bind; [apply pe_lookup_var|]. intros c. destruct (match c with Borrowed x => _ | Owned x => _ end); [exact I|].
    apply pe_bind; [apply pe_var_span|]. intros; apply pe_arg.
  - destruct (from_value_ref ty v); [exact I|apply pe_arg].
Qed.
Lemma pe_get_args s st l : forall tys, pe (get_args tys s st l).
Proof.
  induction l as [|b l IH]; intros [|ty tys]; cbn [get_args]; try exact I. apply pe_bind; [apply pe_get_arg|]. intros a.
  apply pe_bind; [apply IH|]. intros; exact I.
Qed.
Lemma pe_call f s name st c l : pe (match call_filter f s name st c l with Err e => err_enrich e s (id_span name) | r => r end).
Proof. destruct (call_filter f s name st c l); try exact I. apply pe_enrich. Qed.
Lemma pe_loop_new s vars c sp : pe (loop_new s vars c sp).
Proof.
  unfold loop_new. destruct (cow_val c); try apply pe_render; destruct vars; try apply pe_render.
  - apply pe_bind; [apply pe_index|]. intros; exact I.
  - apply pe_bind; [apply pe_index|]. intros k. apply pe_bind; [apply pe_index|]. intros; exact I.
Qed.
Lemma pe_get_template inner s name h : pe (get_template inner s name h).
Proof.
  unfold get_template. destruct (ri_template_fn inner) as [f|].
  - destruct (f _ _); [exact I|apply pe_render].
  - destruct (map_get _ _); [exact I|apply pe_render].
Qed.
Lemma rall_bind {A B} (x : rt A) (f : A -> rt B) : rall pe x -> (forall a, rall pe (f a)) -> rall pe (rbind x f).
Proof. intros H Hf. induction x as [r|s o IHo e IHe]; cbn [rbind rall] in *; [destruct r; cbn; auto|]. intuition. Qed.
Lemma rall_fmt p g : (forall m, pe (g m)) -> rall pe (run_fmt p g).
Proof. intros H. induction p; cbn; auto. Qed.
Lemma rall_jump j st ex : rall pe (jump j st ex).
Proof. destruct j; exact I. Qed.
Ltac un := apply rall_bind; [exact (pe_unwrap _)|intros ?].
Lemma pe_exec inner t i pc st ex : rall pe (exec_instr inner t i pc st ex).
Proof.
  destruct i; cbn [exec_instr]; try apply rall_jump.
  - un. destruct (as_bool _); [apply rall_jump|exact I].
  - un. destruct (negb _); [apply rall_jump|exact I].
  - un. apply rall_bind; [apply rall_fmt; intros; apply pe_format|]. intros; exact I.
  - apply rall_bind; [exact (pe_index _ _)|]. intros raw. split; [exact I|]. right. reflexivity.
  - apply rall_bind; [exact (pe_index _ _)|]. intros nm. destruct (map_get nm _) as [[f|f]|].
    + un. apply rall_bind; [apply rall_fmt; intros; apply pe_format|]. intros; exact I.
    + un. apply rall_bind; [exact (pe_call _ _ _ _ _ _)|]. intros v. apply rall_bind; [apply rall_fmt; intros; apply pe_format|]. intros; exact I.
    + exact (pe_render _ _ _).
  - un. apply rall_bind; [exact (pe_loop_new _ _ _ _)|]. intros; exact I.
  - apply rall_bind; [now destruct st as [|[] ?]|]. intros l. destruct (iterate l); [exact I|]. apply rall_bind; [now destruct st as [|[] ?]|]. intros; apply rall_jump.
  - un. exact I.
  - apply rall_bind; [now destruct st as [|[] ?]|]. intros; exact I.
  - exact I.
  - un. exact I.
  - apply rall_bind; [exact (pe_lookup_var _ _ _)|]. intros c. now destruct ex.
  - now destruct ex.
  - apply rall_bind; [exact (pe_index _ _)|]. intros nm. destruct (map_get nm _) as [[f|f]|].
    + exact (pe_render _ _ _).
    + un. apply rall_bind; [exact (pe_call _ _ _ _ _ _)|]. intros; exact I.
    + exact (pe_render _ _ _).
Qed.
Lemma pe_one inner t : forall fuel pc st ex, rall pe (render_one inner fuel t pc st ex).
Proof.
  induction fuel as [|fuel IH]; intros pc st ex; cbn [render_one]; [exact I|].
  destruct (nth_error _ _); [|now destruct (_ =? _)]. apply rall_bind; [apply pe_exec|]. intros [pc' st' ex'|rs pc' st']; [apply IH|exact I].
Qed.
Lemma rall_run_string {A} (P : res A -> Prop) x : rall P x -> forall buf, P (snd (run_string buf x)).
Proof. induction x as [r|s o IHo e IHe]; cbn; intros H buf; auto. destruct H. auto. Qed.
Lemma plain_named e n : plain_err e -> plain_err (match n with Some s => with_template_name e s | None => e end).
Proof. unfold with_template_name, plain_err. destruct n; auto. destruct (e_name e) eqn:E; auto. Qed.
Lemma plain_not_limit e m : plain_err e -> e <> limit_error m.
Proof. intros H ->. destruct H as [H|H]; cbn in H; congruence. Qed.
End Plain.

(** ** Running against a string *)
Lemma run_string_bind {A B} (x : rt A) (f : A -> rt B) : forall buf, run_string buf (rbind x f) =
  match run_string buf x with
  | (o, Ok a) => run_string o (f a)
  | (o, Err e) => (o, Err e)
  | (o, Panic) => (o, Panic)
  | (o, OutOfFuel) => (o, OutOfFuel)
  end.
Proof. induction x as [[a|e| |]|s o IHo e IHe]; intros buf; cbn [rbind run_string]; auto. Qed.
Lemma run_string_map {A} f (x : rt A) : forall buf, run_string buf (rmap_err f x) =
  match run_string buf x with (o, Err e) => (o, Err (f e)) | p => p end.
Proof. induction x as [[a|e| |]|s o IHo e IHe]; intros buf; cbn [rmap_err run_string]; auto. Qed.

Section Depth.
Context `{X : Ext}.
Variable inner : renderer_inner.
Notation maxd := (max_include_depth inner).
(** The root is always allowed. *)
Definition allowed : nat := Nat.max 1 (N.to_nat maxd).
Notation runs_from fuel m := (run_string (mo_written m) (render_loop inner fuel (mo_active m) (mo_vars m) (mo_asked m))).

Lemma check_iff n : 0 < n -> (maxd <? N.of_nat (S n))%N = negb (S n <=? allowed).
Proof.
  intros Hn. unfold allowed. destruct (Nat.leb_spec (S n) (Nat.max 1 (N.to_nat maxd))); cbn [negb];
  [apply N.ltb_ge; lia|apply N.ltb_lt; lia].
Qed.
Lemma follows_run m m' : follows inner m m' -> length (mo_active m) <= allowed ->
  exists n, forall f, n <= f -> runs_from (S f) m =
    if length (mo_active m') <=? allowed then runs_from f m' else (mo_written m', Err (limit_error maxd)).
Proof.
  intros H Hl.
  assert (K : forall out a st out' rs a' st', proceeds inner out a st out' rs a' st' -> exists n pc, a' = mkact (ac_template a) (ac_name a) pc (ac_has_scope a) /\
    forall f, n <= f -> run_string out (name_err (ac_name a) (render_one inner f (ac_template a) (ac_pc a) st None)) = (out', Ok (rs, pc, st'))).
  { intros out a st out' rs a' st' (fuel & pc & E & Ea). exists fuel, pc. split; [exact Ea|]. intros f Hf. unfold name_err. rewrite run_string_map.
    pose proof (le_string _ _ (render_one_mono inner (ac_template a) fuel f (ac_pc a) st None Hf) _ _ _ E ltac:(discriminate)) as E'. now rewrite E'. }
  destruct H as [a rest st h out a' st' out' Hp Hs|a rest st h out a' c st' out' Hp Hs|a rest st h out a' st' out' name t h' Hp Hg|a rest st h out a' st' out' name c t h' Hp Hg];
  cbn [mo_active mo_vars mo_asked mo_written] in *; destruct (K _ _ _ _ _ _ _ Hp) as (n & pc & -> & E); exists n; intros f Hf; cbn [render_loop];
  rewrite run_string_bind, (E f Hf); cbn beta iota; rewrite run_string_bind.
  - cbn [ac_has_scope]. rewrite Hs. cbn [run_string].
    replace (maxd <? N.of_nat (length rest))%N with false by (symmetry; apply N.ltb_ge; unfold allowed in Hl; cbn [length] in Hl; lia).
    replace (length rest <=? allowed) with true by (symmetry; apply Nat.leb_le; cbn [length] in Hl; lia). reflexivity.
  - cbn [ac_has_scope]. rewrite Hs. cbn [pop_scope pop_boundary lift rbind run_string].
    replace (maxd <? N.of_nat (length rest))%N with false by (symmetry; apply N.ltb_ge; unfold allowed in Hl; cbn [length] in Hl; lia).
    replace (length rest <=? allowed) with true by (symmetry; apply Nat.leb_le; cbn [length] in Hl; lia). reflexivity.
  - rewrite Hg. cbn [lift name_err rmap_err rbind run_string]. cbn [length]. rewrite check_iff by lia.
    destruct (S (S (length rest)) <=? allowed); reflexivity.
  - rewrite Hg. cbn [lift name_err rmap_err rbind run_string]. cbn [length]. rewrite check_iff by lia.
    destruct (S (S (length rest)) <=? allowed); reflexivity.
Qed.
Lemma follows_length m m' : follows inner m m' -> length (mo_active m') <= S (length (mo_active m)).
Proof. destruct 1; cbn; lia. Qed.

Lemma exceeds m m' : leads_to inner m m' -> length (mo_active m) <= allowed -> allowed < length (mo_active m') ->
  exists m1, leads_to inner m m1 /\ length (mo_active m1) = S allowed /\
    exists n, forall f, n <= f -> runs_from f m = (mo_written m1, Err (limit_error maxd)).
Proof.
  induction 1 as [m|m m2 m' Hf Hr IH]; intros Hl Hg; [lia|].
  destruct (follows_run _ _ Hf Hl) as (n & Hn). pose proof (follows_length _ _ Hf) as Hk.
  destruct (length (mo_active m2) <=? allowed) eqn:E.
  - apply Nat.leb_le in E. destruct (IH E Hg) as (m1 & H1 & H2 & k & Hk'). exists m1. split; [econstructor; eauto|]. split; [exact H2|].
    exists (S (n + k)). intros [|f] Hf'; [lia|]. rewrite Hn by lia. apply Hk'. lia.
  - apply Nat.leb_gt in E. exists m2. split; [econstructor; eauto; constructor|]. split; [lia|].
    exists (S n). intros [|f] Hf'; [lia|]. apply Hn. lia.
Qed.
Lemma limit_reached : forall f m o, runs_from f m = (o, Err (limit_error maxd)) -> length (mo_active m) <= allowed ->
  exists m', leads_to inner m m' /\ allowed < length (mo_active m').
Proof.
  induction f as [|f IH]; intros [ts st h out] o; cbn [mo_active mo_vars mo_asked mo_written]; intros E Hl.
  - destruct ts; discriminate E.
  - destruct ts as [|a rest]; [discriminate E|]. cbn [render_loop] in E. rewrite run_string_bind in E.
    unfold name_err at 1 in E. rewrite run_string_map in E.
    pose proof (rall_run_string _ _ (pe_one inner (ac_template a) f (ac_pc a) st None) out) as P.
    destruct (run_string out (render_one inner f (ac_template a) (ac_pc a) st None)) as [o1 [[[rs pc] st1]|e| |]] eqn:Er; try discriminate E.
    2:{ injection E as _ E. exfalso. revert E. apply plain_not_limit. now apply plain_named. }
    assert (Hp : proceeds inner out a st o1 rs (mkact (ac_template a) (ac_name a) pc (ac_has_scope a)) st1) by (exists f, pc; auto).
    cbn beta iota in E. rewrite run_string_bind in E. cbn [ac_has_scope] in E.
    assert (G : forall m', follows inner (mkmoment (a :: rest) st h out) m' ->
      (if (maxd <? N.of_nat (length (mo_active m')))%N then (mo_written m', Err (limit_error maxd)) else runs_from f m') = (o, Err (limit_error maxd)) ->
      exists m'0, leads_to inner (mkmoment (a :: rest) st h out) m'0 /\ allowed < length (mo_active m'0)).
    { intros m' Hf E'. destruct (le_lt_dec (length (mo_active m')) allowed) as [Hle|Hgt].
      - destruct (maxd <? N.of_nat (length (mo_active m')))%N eqn:Ec.
        + exfalso. apply N.ltb_lt in Ec. unfold allowed in Hle, Hl. cbn [length] in Hl.
          inversion Hf; subst; cbn [mo_active length] in *; lia.
        + destruct (IH m' o E' Hle) as (m2 & H1 & H2). exists m2. split; [econstructor; eauto|exact H2].
      - exists m'. split; [econstructor; eauto; constructor|exact Hgt]. }
    destruct rs as [|name|name c].
    + destruct (ac_has_scope a) eqn:Es.
      * destruct st1 as [|[] [|[] st2]]; cbn [pop_scope pop_boundary lift rbind run_string] in E; try discriminate E.
        eapply G; [eapply fo_end_scope; eauto|]. cbn [mo_active mo_vars mo_asked mo_written].
        destruct (maxd <? _)%N; exact E.
      * cbn [run_string] in E. eapply G; [eapply fo_end; eauto|]. cbn [mo_active mo_vars mo_asked mo_written]. destruct (maxd <? _)%N; exact E.
    + rewrite run_string_bind in E. unfold name_err in E. rewrite run_string_map in E. cbn [lift run_string] in E.
      pose proof (pe_get_template inner (t_source (ac_template a)) name h) as P2.
      destruct (get_template inner (t_source (ac_template a)) name h) as [[t h']|e| |] eqn:Eg; try discriminate E.
      * cbn [run_string] in E. eapply G; [eapply fo_include; eauto|]. cbn [mo_active mo_vars mo_asked mo_written]. destruct (maxd <? _)%N; exact E.
      * injection E as _ E. exfalso. revert E. apply plain_not_limit. now apply plain_named.
    + rewrite run_string_bind in E. unfold name_err in E. rewrite run_string_map in E. cbn [lift run_string] in E.
      pose proof (pe_get_template inner (t_source (ac_template a)) name h) as P2.
      destruct (get_template inner (t_source (ac_template a)) name h) as [[t h']|e| |] eqn:Eg; try discriminate E.
      * cbn [run_string] in E. eapply G; [eapply fo_include_with; eauto|]. cbn [mo_active mo_vars mo_asked mo_written]. destruct (maxd <? _)%N; exact E.
      * injection E as _ E. exfalso. revert E. apply plain_not_limit. now apply plain_named.
Qed.
End Depth.
