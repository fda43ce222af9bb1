(** Proofs about the includes carried out by a rendering. *)
From Verif Require Import Base Utf8 Ext Errors Syntax Value Ast Fmt Stack Filters Render RenderProof RenderErr RenderObs IncludeFacts
  DepthSpec DepthProof Engine TraceSpec.
From Coq Require Import Relations.

Section Trace.
Context `{X : Ext}.
Variable inner : renderer_inner.
Notation maxd := (max_include_depth inner).
Notation runs_from fuel m := (run_string (mo_written m) (render_loop inner fuel (mo_active m) (mo_vars m) (mo_asked m))).

(** Every step is an end or an include. *)
Lemma follows_cases m m' : follows inner m m' ->
  (length (mo_active m') < length (mo_active m) /\ mo_asked m' = mo_asked m) \/
  exists a rest name t, mo_active m = a :: rest /\ get_template inner (t_source (ac_template a)) name (mo_asked m) = Ok (t, mo_asked m') /\
    exists a' rest' b, mo_active m' = mkact t (Some (as_name name)) 0 b :: a' :: rest' /\ length (mo_active m) < length (mo_active m').
Proof.
  destruct 1; cbn [mo_active mo_asked length].
  - left. split; [lia|reflexivity].
  - left. split; [lia|reflexivity].
  - right. exists a, rest, name, t. split; [reflexivity|]. split; [assumption|]. exists a', rest, false. split; [reflexivity|lia].
  - right. exists a, rest, name, t. split; [reflexivity|]. split; [assumption|]. exists a', rest, true. split; [reflexivity|lia].
Qed.
Lemma journey_asked f m l m' : ri_template_fn inner = Some f -> journey inner m l m' ->
  mo_asked m' = rev (map fst l) ++ mo_asked m /\
  forall l1 n t l2, l = l1 ++ (n, t) :: l2 -> f (rev (map fst l1) ++ mo_asked m) n = inl t.
Proof.
  intros Hf. induction 1 as [m|m m1 l m2 Hfo Hl Hj (IH1 & IH2)|m m1 a rest n l m2 Hfo Ea Hl En Hj (IH1 & IH2)].
  - split; [reflexivity|]. intros l1 n t l2 E. now apply app_cons_not_nil in E.
  - destruct (follows_cases _ _ Hfo) as [(_ & E)|(a & rest & name & t & _ & _ & a' & rest' & b & _ & K)]; [|lia]. rewrite E in *. auto.
  - destruct (follows_cases _ _ Hfo) as [(K & _)|(a0 & rest0 & name & t & Em & Eg & a' & rest' & b & Ea' & _)]; [lia|].
    rewrite Ea in Ea'. injection Ea' as -> ->. cbn [ac_name ac_template] in *. injection En as <-.
    unfold get_template in Eg. rewrite Hf in Eg. destruct (f (mo_asked m) (as_name name)) as [t'|r] eqn:Ef.
    + injection Eg as <- Eh. rewrite <- Eh in *. cbn [map fst rev]. split; [rewrite IH1, <- app_assoc; reflexivity|].
      intros l1 n t l2 E. destruct l1 as [|p l1]; cbn [app] in E.
      * injection E as <- <- <-. cbn. exact Ef.
      * injection E as <- E. cbn [map fst rev]. rewrite <- app_assoc. cbn [app]. eapply IH2; eauto.
    + exfalso. unfold err_render in Eg. destruct (build_pretty _ _); discriminate Eg.
Qed.
Lemma journey_leads m l m' : journey inner m l m' -> leads_to inner m m'.
Proof. induction 1; econstructor; eauto. Qed.
Lemma leads_journey m m' : leads_to inner m m' -> exists l, journey inner m l m'.
Proof.
  induction 1 as [m|m m1 m2 Hf Hr (l & IH)]; [exists []; constructor|].
  destruct (follows_cases _ _ Hf) as [(K & _)|(a0 & rest0 & name & t & Em & Eg & a' & rest' & b & Ea' & K)].
  - exists l. econstructor; eauto.
  - eexists. eapply jo_enter; eauto. reflexivity.
Qed.
(** A rendering that succeeds has come to the end of every template. *)
Lemma success_leads : forall f m o, runs_from f m = (o, Ok tt) -> exists st h, leads_to inner m (mkmoment [] st h o).
Proof.
  induction f as [|f IH]; intros [ts st h out] o; cbn [mo_active mo_vars mo_asked mo_written]; intros E.
  - destruct ts; [|discriminate E]. injection E as <-. exists st, h. constructor.
  - destruct ts as [|a rest]; [injection E as <-; exists st, h; constructor|]. cbn [render_loop] in E. rewrite run_string_bind in E.
    unfold name_err at 1 in E. rewrite run_string_map in E.
    destruct (run_string out (render_one inner f (ac_template a) (ac_pc a) st None)) as [o1 [[[rs pc] st1]|e| |]] eqn:Er; try discriminate E.
    assert (Hp : proceeds inner out a st o1 rs (mkact (ac_template a) (ac_name a) pc (ac_has_scope a)) st1) by (exists f, pc; auto).
    cbn beta iota in E. rewrite run_string_bind in E. cbn [ac_has_scope] in E.
    assert (G : forall m', follows inner (mkmoment (a :: rest) st h out) m' ->
      (if (maxd <? N.of_nat (length (mo_active m')))%N then (mo_written m', Err (limit_error maxd)) else runs_from f m') = (o, Ok tt) ->
      exists st' h', leads_to inner (mkmoment (a :: rest) st h out) (mkmoment [] st' h' o)).
    { intros m' Hf E'. destruct (maxd <? _)%N; [discriminate E'|]. destruct (IH m' o E') as (st' & h' & H1). exists st', h'. econstructor; eauto. }
    destruct rs as [|name|name c].
    + destruct (ac_has_scope a) eqn:Es.
      * destruct st1 as [|[] [|[] st2]]; cbn [pop_scope pop_boundary lift rbind run_string] in E; try discriminate E.
        eapply G; [eapply fo_end_scope; eauto|]. cbn [mo_active mo_vars mo_asked mo_written]. destruct (maxd <? _)%N; exact E.
      * cbn [run_string] in E. eapply G; [eapply fo_end; eauto|]. cbn [mo_active mo_vars mo_asked mo_written]. destruct (maxd <? _)%N; exact E.
    + rewrite run_string_bind in E. unfold name_err in E. rewrite run_string_map in E. cbn [lift run_string] in E.
      destruct (get_template inner (t_source (ac_template a)) name h) as [[t h']|e| |] eqn:Eg; try discriminate E.
      cbn [run_string] in E. eapply G; [eapply fo_include; eauto|]. cbn [mo_active mo_vars mo_asked mo_written]. destruct (maxd <? _)%N; exact E.
    + rewrite run_string_bind in E. unfold name_err in E. rewrite run_string_map in E. cbn [lift run_string] in E.
      destruct (get_template inner (t_source (ac_template a)) name h) as [[t h']|e| |] eqn:Eg; try discriminate E.
      cbn [run_string] in E. eapply G; [eapply fo_include_with; eauto|]. cbn [mo_active mo_vars mo_asked mo_written]. destruct (maxd <? _)%N; exact E.
Qed.
Lemma leads_run m m' : leads_to inner m m' -> (forall m1, leads_to inner m m1 -> length (mo_active m1) <= allowed inner) ->
  exists n k, forall f, n <= f -> runs_from (k + f) m = runs_from f m'.
Proof.
  induction 1 as [m|m m1 m2 Hf Hr IH]; intros Hl; [exists 0, 0; reflexivity|].
  destruct IH as (n & k & H). { intros m3 H3. apply Hl. econstructor; eauto. }
  destruct (follows_run inner _ _ Hf) as (n1 & H1); [apply Hl; constructor|].
  replace (length (mo_active m1) <=? allowed inner) with true in H1.
  2:{ symmetry. apply Nat.leb_le. apply Hl. econstructor; eauto. constructor. }
  exists (n + n1), (S k). intros f Hf1. cbn [Nat.add]. rewrite H1 by lia. apply H. lia.
Qed.
(** An include that cannot be resolved. *)
Lemma refused_run a rest st h out out' name w a' st' :
  proceeds inner out a st out' (match w with None => RsInclude name | Some c => RsIncludeWith name c end) a' st' ->
  forall e, get_template inner (t_source (ac_template a)) name h = Err e ->
  exists n, forall f, n <= f -> run_string out (render_loop inner f (a :: rest) st h) =
    (out', Err (match ac_name a with Some s => with_template_name e s | None => e end)).
Proof.
  intros (fuel & pc & E & Ea) e Eg. exists (S fuel). intros [|f] Hf; [lia|]. cbn [render_loop]. rewrite run_string_bind. unfold name_err at 1. rewrite run_string_map.
  rewrite (le_string _ _ (render_one_mono inner (ac_template a) fuel f (ac_pc a) st None ltac:(lia)) _ _ _ E ltac:(destruct w; discriminate)).
  cbn beta iota. rewrite run_string_bind. destruct w as [c|]; rewrite run_string_bind; unfold name_err; rewrite run_string_map, Eg; reflexivity.
Qed.

(** ** The templates of the engine are not used *)
Section Table.
Variable ts : list (str * template).
Notation inner' := (with_templates ts inner).
Lemma table_exec t i pc st ex : exec_instr inner' t i pc st ex = exec_instr inner t i pc st ex.
Proof. destruct i; reflexivity. Qed.
Lemma table_one t : forall fuel pc st ex, render_one inner' fuel t pc st ex = render_one inner fuel t pc st ex.
Proof.
  induction fuel as [|fuel IH]; intros pc st ex; [reflexivity|]. cbn [render_one]. destruct (nth_error (t_instrs t) pc) as [i|]; [|reflexivity].
  rewrite table_exec. apply rbind_ext. intros [pc' st' ex'|rs pc' st']; [apply IH|reflexivity].
Qed.
Lemma table_loop : ri_template_fn inner <> None -> forall fuel acts st hist, render_loop inner' fuel acts st hist = render_loop inner fuel acts st hist.
Proof.
  intros Hf. induction fuel as [|fuel IH]; intros acts st hist; destruct acts as [|a rest]; try reflexivity. cbn [render_loop]. rewrite table_one.
  apply rbind_ext. intros [[rs pc] st1].
  assert (G : forall s n h, get_template inner' s n h = get_template inner s n h).
  { intros s n h. unfold get_template. change (ri_template_fn inner') with (ri_template_fn inner). destruct (ri_template_fn inner); [reflexivity|congruence]. }
  destruct rs as [|name|name c]; rewrite ?G; apply rbind_ext; intros [[ts1 st2] h1];
    change (max_include_depth inner') with (max_include_depth inner); destruct (_ <? _)%N; try reflexivity; apply IH.
Qed.
End Table.
End Trace.
