(** The error of a rendering points at what is at fault (C59): the proof. *)
From Verif Require Import Base Utf8 Ext Errors Syntax Value Ast Wp AstOk Compiler CompileProof Fmt Stack Filters Render RenderSpec
  RenderProof RenderErr LookupSpec LookupProof FilterSpec FilterProof Meaning MeaningProof FaultSpec Fault PlaceSpec.

Section Place.
Context `{X : Ext}.
Variable inner : renderer_inner.
Variable ast_of : template -> scope.
Variable st0 : stack.
Notation functions := (en_functions (ri_engine inner)).
Notation default := (en_default_formatter (ri_engine inner)).
Notation inside := (inside inner).
Notation gets_to := (gets_to inner ast_of st0).
Definition explained (e : error) : Prop := (exists sp t n, points inner ast_of st0 e sp t n) \/ too_deep inner ast_of st0 e.

Lemma ends_lift {A} (r : res A) e : ends (lift r) e -> r = Err e.
Proof. destruct r; cbn; try contradiction. now intros ->. Qed.
(** Errors before and after they get their name. *)
Lemma ends_name {A} n (x : rt A) e : ends (name_err n x) e -> exists e0, ends x e0 /\ e = match n with Some s => with_template_name e0 s | None => e0 end.
Proof. unfold name_err. induction x as [[]|s o IH er _]; cbn; try contradiction; [intros <-; eauto|exact IH]. Qed.
Lemma fails_ends {A} source k r sp e : @fails X source A k r sp = Err e -> exists p, build_pretty source sp = Ok p /\ e = mkerror k None (Some r) (Some p).
Proof.
  unfold fails, located_error. pose proof (build_pretty_no_err source sp) as K. destruct (build_pretty source sp) as [p|e'| |]; cbn; intros H; try discriminate.
  - injection H as <-. eauto.
  - now destruct (K e').
Qed.
Lemma render_ends {A} source r sp e : @err_render X A r source sp = Err e -> exists p, build_pretty source sp = Ok p /\ e = mkerror KRender None (Some r) (Some p).
Proof. rewrite fails_render. apply fails_ends. Qed.
Lemma titled_name k n r p : match n with Some s => with_template_name (mkerror k None r p) s | None => mkerror k None r p end = mkerror k n r p.
Proof. now destruct n. Qed.

Section Template.
Variable t : template.
Variable n : option str.
Variable stt : stack.
Variable depth : nat.
Variable inc : option rend.
Notation source := (t_source t).
Hypothesis Hne : source <> [].
Hypothesis Hr : gets_to t n stt depth.
Hypothesis Hd : inc = None -> N.of_nat (S depth) = N.max 1 (max_include_depth inner).
Hypothesis Hinc : forall run name t' st hist e, inc = Some run -> named inner t' -> gets_to t' (Some name) st (S depth) -> no_vars st ->
  ends (run t' (Some name) st hist) e -> explained e.
Notation s_stmt := (s_stmt inner inc source n).
Notation s_scope := (s_scope inner inc source n).
Notation evaluates := (evaluates source functions).

Definition pointing (s : stmt) : Prop := stmt_ok source s -> forall b st hist e, vars_here source st -> (b = false -> no_vars st) -> sharing_ok b s ->
  (forall s' st', inside source [s] st s' st' -> inside source (ast_of t) stt s' st') -> ends (s_stmt s st hist) e -> explained e.

Lemma point s st' k r sp p e : inside source (ast_of t) stt s st' -> at_fault inner source st' s k r sp -> build_pretty source sp = Ok p ->
  e = mkerror k n r (Some p) -> explained e.
Proof. intros I F P ->. left. exists sp, t, n. exists k, r, p, stt, depth, s, st'. auto. Qed.
Lemma inside_more l l' : (forall x, In x l -> In x l') -> forall st s st', inside source l st s st' -> inside source l' st s st'.
Proof.
  intros J st s st' H. destruct H; [eapply in_here|eapply in_then|eapply in_else|eapply in_for|eapply in_entries|eapply in_with]; eauto.
Qed.
Lemma scope_pointing l : Forall pointing l -> Forall (stmt_ok source) l -> forall b st hist e, vars_here source st -> (b = false -> no_vars st) -> sharing_all b l ->
  (forall s' st', inside source l st s' st' -> inside source (ast_of t) stt s' st') -> ends (s_scope l st hist) e -> explained e.
Proof.
  induction 1 as [|s l Hs _ IH]; intros Hok b st hist e Hv Hn Hsh W E; cbn [RenderSpec.s_scope ends] in E; [contradiction|].
  inversion Hok as [|? ? O1 O2]; subst. destruct Hsh as (S1 & S2). apply ends_bind in E as [E|(h & E)].
  - apply (Hs O1 b st hist e); auto. intros s' st' K. apply W. revert K. apply inside_more. intros x [->|[]]. now left.
  - apply (IH O2 b st h e); auto. intros s' st' K. apply W. revert K. apply inside_more. intros x I. now right.
Qed.
(** The expression of a statement. *)
Lemma header_ends st e0 : expr_ok source e0 -> vars_here source st ->
  (exists c, evaluates st e0 (EvValue c) /\ s_expr inner source st e0 = Ok c) \/
  exists k r sp, evaluates st e0 (EvError k r sp) /\ s_expr inner source st e0 = fails source k r sp.
Proof.
  intros Hok Hv. destruct (evaluates_total source inner st e0 Hok Hv) as ([c|k r sp] & He); pose proof (evaluates_sound source Hne inner st e0 _ Hok He) as E; [left|right]; eauto 6.
Qed.
Lemma here_ends {A} (x : res A) e : ends (here n x) e -> exists e0, x = Err e0 /\ e = match n with Some s => with_template_name e0 s | None => e0 end.
Proof. intros H. apply ends_name in H as (e0 & H & ->). apply ends_lift in H. eauto. Qed.
Lemma header_points s st e0 {B} (f : cow -> rt B) e : header s = Some e0 -> expr_ok source e0 -> vars_here source st ->
  inside source (ast_of t) stt s st -> ends (rbind (here n (s_expr inner source st e0)) f) e ->
  explained e \/ exists c, evaluates st e0 (EvValue c) /\ ends (f c) e.
Proof.
  intros Hh Hok Hv I E. destruct (header_ends st e0 Hok Hv) as [(c & He & Es)|(k & r & sp & He & Es)]; rewrite Es in E.
  - right. exists c. split; [exact He|]. cbn in E. now destruct n.
  - left. assert (K : ends (here n (@fails X source cow k r sp)) e).
    { unfold fails, located_error in E |- *. pose proof (build_pretty_no_err source sp) as K. destruct (build_pretty source sp) as [p|e1| |]; cbn in E |- *; auto; now destruct (K e1). }
    apply here_ends in K as (e1 & K & ->). apply fails_ends in K as (p & Ep & ->). rewrite titled_name.
    eapply point; [exact I|eapply af_header; [exact Hh|exact He]|exact Ep|reflexivity].
Qed.
Lemma find_ends name hist e : ends (here n (s_find inner source name hist)) e ->
  exists r p, finds inner hist (as_name name) (inr r) /\ build_pretty source (as_span name) = Ok p /\ e = mkerror KRender n (Some r) (Some p).
Proof.
  intros E. apply here_ends in E as (e0 & E & ->). unfold s_find in E. unfold finds. destruct (ri_template_fn inner) as [f|].
  - destruct (f hist (as_name name)) as [t'|r] eqn:Ef; [discriminate|]. apply render_ends in E as (p & Ep & ->). exists r, p. rewrite titled_name. auto.
  - destruct (map_get _ _) as [t'|]; [discriminate|]. apply render_ends in E as (p & Ep & ->). exists (s2b "unknown template"), p. rewrite titled_name. auto.
Qed.
Lemma find_finds name hist t' h' : s_find inner source name hist = Ok (t', h') -> finds inner hist (as_name name) (inl t') /\ named inner t'.
Proof.
  unfold s_find, finds, named, err_render. destruct (ri_template_fn inner) as [f|] eqn:Ef.
  - destruct (f hist (as_name name)) eqn:E; [|destruct (build_pretty _ _); discriminate]. injection 1 as <- <-. split; [reflexivity|]. left. eauto 6.
  - destruct (map_get _ _) eqn:E; [|destruct (build_pretty _ _); discriminate]. injection 1 as <- <-. split; [reflexivity|]. right. eauto.
Qed.
Lemma list_frames_in o i l fr : forall k, In fr (list_frames o i k l) -> exists j x, nth_error l j = Some x /\ fr = FrLoop (LList o i (S (k + j)) (skipn (S j) l) (Some (k + j, x))).
Proof.
  induction l as [|x l IH]; intros k I; cbn [list_frames] in I; [contradiction|]. destruct I as [<-|I].
  - exists 0, x. rewrite Nat.add_0_r. split; reflexivity.
  - destruct (IH _ I) as (j & y & N & ->). exists (S j), y. split; [exact N|]. replace (k + S j) with (S k + j) by lia. reflexivity.
Qed.
Lemma map_frames_in o i i' l fr : forall k, In fr (map_frames o i i' k l) -> exists j x, nth_error l j = Some x /\ fr = FrLoop (LMap o i i' (S (k + j)) (skipn (S j) l) (Some (k + j, x))).
Proof.
  induction l as [|x l IH]; intros k I; cbn [map_frames] in I; [contradiction|]. destruct I as [<-|I].
  - exists 0, x. rewrite Nat.add_0_r. split; reflexivity.
  - destruct (IH _ I) as (j & y & N & ->). exists (S j), y. split; [exact N|]. replace (k + S j) with (S k + j) by lia. reflexivity.
Qed.
Lemma each_ends body st frs e : forall hist, ends (s_each body st frs hist) e -> exists fr h, In fr frs /\ ends (body (fr :: st) h) e.
Proof.
  induction frs as [|fr frs IH]; intros hist E; cbn [s_each ends] in E; [contradiction|]. apply ends_bind in E as [E|(h & E)].
  - exists fr, hist. split; [now left|exact E].
  - destruct (IH h E) as (fr' & h' & I & K). exists fr', h'. split; [now right|exact K].
Qed.
Lemma vars_frame fr st : (match fr with FrVar m _ => span_ok source (id_span m) | _ => True end) -> vars_here source st -> vars_here source (fr :: st).
Proof. unfold vars_here. intros H Hv. destruct fr; cbn [visible]; constructor; auto. Qed.
Lemma include_ends st st' name hist w e : inside source (ast_of t) stt (SInclude name w) st -> no_vars st' ->
  (forall asked t', finds inner asked (as_name name) (inl t') -> gets_to t' (Some (as_name name)) st' (S depth)) ->
  ends (let% (t', hist) := here n (s_find inner source name hist) in
    match inc with
    | None => lift (err_max_include_depth (max_include_depth inner))
    | Some run => run t' (Some (as_name name)) st' hist
    end) e -> explained e.
Proof.
  intros I Hn G E. destruct (s_find inner source name hist) as [[t' h']|e0| |] eqn:Ef.
  - destruct (find_finds _ _ _ _ Ef) as (Fi & Na). cbn in E. assert (E' : ends (match inc with
      | None => lift (err_max_include_depth (max_include_depth inner))
      | Some run => run t' (Some (as_name name)) st' h' end) e) by (destruct n; exact E). clear E.
    destruct inc as [run|] eqn:Ei.
    + eapply Hinc; [reflexivity|exact Na|eapply G; exact Fi|exact Hn|exact E'].
    + right. exists t, n, stt, depth, name, w, st. split; [exact Hr|]. split; [exact I|]. split; [now apply Hd|]. cbn in E'. now subst e.
  - assert (K : ends (here n (s_find inner source name hist)) e) by (rewrite Ef; exact E). clear E.
    apply find_ends in K as (r & p & Fi & Ep & ->). eapply point; [exact I|eapply af_template; exact Fi|exact Ep|reflexivity].
  - cbn in E. contradiction.
  - cbn in E. contradiction.
Qed.
Lemma pointing_all s : pointing s.
Proof.
  induction s as [sp|e0 sp|nm g|neg c thn els Ht He|v e0 body Hb|e0 nm body Hb] using stmt_ind'; intros Hok b st hist e Hv Hn Hsh W E;
  inversion Hok; subst.
  - cbn [RenderSpec.s_stmt] in E. rewrite (word_ok _ sp) in E by assumption. cbn in E. destruct n; contradiction.
  - assert (I : inside source (ast_of t) stt (SInline e0 sp) st) by (apply W, in_here; now left).
    cbn [RenderSpec.s_stmt] in E. apply ends_bind in E as [E|(h & E)]; [|contradiction].
    destruct (emits_total source inner st e0 ltac:(assumption) Hv) as (r & Hr').
    rewrite (emits_sound source Hne inner st e0 r ltac:(assumption) Hr') in E. apply ends_name in E as (e1 & E & ->).
    destruct r as [f x fsp|k m esp]; cbn [emitted_result] in E.
    + apply ends_fmt in E as (m & R & E). unfold err_format in E. pose proof (build_pretty_no_err source fsp) as K.
      destruct (build_pretty source fsp) as [p|e2| |] eqn:Ep; cbn in E; try discriminate E; [|now destruct (K e2)]. injection E as <-. rewrite titled_name.
      eapply point; [exact I|eapply af_format; [exact Hr'|exact R]|exact Ep|reflexivity].
    + apply ends_lift, fails_ends in E as (p & Ep & ->). rewrite titled_name. eapply point; [exact I|eapply af_show; exact Hr'|exact Ep|reflexivity].
  - cbn [RenderSpec.s_stmt rbind] in E. assert (I : inside source (ast_of t) stt (SInclude nm None) st) by (apply W, in_here; now left).
    eapply include_ends; [exact I|now apply Hn| |exact E]. intros asked t' Fi. eapply gt_include; [exact Hr|exact I|exact Fi].
  - assert (I : inside source (ast_of t) stt (SInclude nm (Some e0)) st) by (apply W, in_here; now left).
    cbn [RenderSpec.s_stmt] in E.
    match type of E with ends (rbind (rbind ?x ?f) ?k) ?er => assert (E' : ends (rbind x (fun c => k (FrScope c :: FrBoundary :: st))) er) end.
    { destruct (s_expr inner source st e0) as [c|e1| |]; cbn in E |- *; destruct n; exact E. }
    clear E. destruct (header_points (SInclude nm (Some e0)) st e0 _ _ eq_refl ltac:(assumption) Hv I E') as [D|(c & Hc & E)]; [exact D|].
    apply (include_ends st (FrScope c :: FrBoundary :: st) nm hist (Some e0) e I); [unfold no_vars; cbn [visible]; repeat constructor| |exact E].
    intros asked t' Fi. eapply gt_include_with; [exact Hr|exact I|exact Hc|exact Fi].
  - rewrite s_stmt_if' in E. assert (I : inside source (ast_of t) stt (SIf neg c thn None) st) by (apply W, in_here; now left).
    destruct (header_points (SIf neg c thn None) st c _ _ eq_refl ltac:(assumption) Hv I E) as [D|(cv & Hc & E')]; [exact D|]. clear E.
    destruct (xorb neg (as_bool (cow_val cv))) eqn:Eb; [|contradiction].
    eapply (scope_pointing thn Ht ltac:(assumption) b st hist e Hv Hn); [apply Hsh| |exact E']. intros s' st' K. apply W. eapply in_then; [now left|exact Hc|exact Eb|exact K].
  - rewrite s_stmt_if' in E. match goal with H : stmt_ok source (SIf neg c thn (Some ?l)) |- _ => rename l into el end.
    assert (I : inside source (ast_of t) stt (SIf neg c thn (Some el)) st) by (apply W, in_here; now left).
    destruct (header_points (SIf neg c thn (Some el)) st c _ _ eq_refl ltac:(assumption) Hv I E) as [D|(cv & Hc & E')]; [exact D|]. clear E.
    destruct (xorb neg (as_bool (cow_val cv))) eqn:Eb.
    + eapply (scope_pointing thn Ht ltac:(assumption) b st hist e Hv Hn); [apply Hsh| |exact E']. intros s' st' K. apply W. eapply in_then; [now left|exact Hc|exact Eb|exact K].
    + eapply (scope_pointing el He ltac:(assumption) b st hist e Hv Hn); [apply Hsh| |exact E']. intros s' st' K. apply W. eapply in_else; [now left|exact Hc|exact Eb|exact K].
  - rewrite s_stmt_for' in E. assert (I : inside source (ast_of t) stt (SFor v e0 body) st) by (apply W, in_here; now left).
    destruct (header_points (SFor v e0 body) st e0 _ _ eq_refl ltac:(assumption) Hv I E) as [D|(c & Hc & E')]; [exact D|]. clear E.
    rewrite (expr_place_ok source e0) in E' by assumption. change (here n (Ok (expr_place e0))) with (@RRet span (Ok (expr_place e0))) in E'. cbn [rbind] in E'.
    assert (Body : forall l hist, ends (s_scope body (FrLoop l :: st) hist) e -> (forall s' st', inside source body (FrLoop l :: st) s' st' -> inside source (ast_of t) stt s' st') -> explained e).
    { intros l h K Wi. eapply (scope_pointing body Hb ltac:(assumption) b (FrLoop l :: st) h e); [apply vars_frame; [exact Logic.I|exact Hv]| |apply Hsh|exact Wi|exact K].
      intros Eb. unfold no_vars. cbn [visible]. constructor; [exact Logic.I|]. now apply Hn. }
    destruct (s_loop source v c (expr_place e0)) as [frs|e1| |] eqn:El.
    + change (here n (Ok frs)) with (@RRet (list frame) (Ok frs)) in E'. cbn [rbind] in E'. apply each_ends in E' as (fr & h & Ifr & E').
      unfold s_loop, err_render in El. destruct v as [i|ki vi vsp]; destruct (cow_val c) eqn:Ec; try (destruct (build_pretty _ _); discriminate El).
      * destruct (index_span source (id_span i)) as [name| | |] eqn:Ei; cbn in El; try discriminate El. injection El as <-.
        apply list_frames_in in Ifr as (j & x & N & ->). eapply Body; [exact E'|]. intros s' st' K. apply W. eapply in_for; [now left|exact Hc|exact Ec|exact N|exact Ei|exact K].
      * destruct (index_span source (id_span ki)) as [kn| | |] eqn:Ek; cbn [bind] in El; try discriminate El.
        destruct (index_span source (id_span vi)) as [vn| | |] eqn:Evi; cbn [bind] in El; try discriminate El. injection El as <-.
        apply map_frames_in in Ifr as (j & x & N & ->). eapply Body; [exact E'|]. intros s' st' K. apply W. eapply in_entries; [now left|exact Hc|exact Ec|exact N|exact Ek|exact Evi|exact K].
    + cbn in E'. assert (K : e = match n with Some s => with_template_name e1 s | None => e1 end) by (destruct n; now symmetry). clear E'.
      assert (P : forall r sp p, at_fault inner source st (SFor v e0 body) KRender (Some r) sp -> build_pretty source sp = Ok p -> e1 = mkerror KRender None (Some r) (Some p) -> explained e).
      { intros r sp p F Ep ->. rewrite titled_name in K. eapply point; [exact I|exact F|exact Ep|exact K]. }
      unfold s_loop in El. destruct v as [i|ki vi vsp]; cbn [loop_vars_ok] in *; destruct (cow_val c) eqn:Ec;
        try (apply render_ends in El as (p & Ep & E1); eapply P; [|exact Ep|exact E1];
             first [eapply af_two_variables; [exact Hc|exact Ec]|eapply af_one_variable; [exact Hc|exact Ec]
                   |rewrite <- Ec; eapply af_iterated; [exact Hc|rewrite Ec; discriminate|rewrite Ec; discriminate]]).
      * rewrite (word_ok _ (id_span i)) in El by assumption. discriminate El.
      * match goal with H : span_ok _ _ /\ _ |- _ => destruct H as (V1 & V2 & V3) end. rewrite (word_ok _ _ V1), (word_ok _ _ V2) in El. discriminate El.
    + cbn in E'. contradiction.
    + cbn in E'. contradiction.
  - rewrite s_stmt_with' in E. assert (I : inside source (ast_of t) stt (SWith e0 nm body) st) by (apply W, in_here; now left).
    destruct (header_points (SWith e0 nm body) st e0 _ _ eq_refl ltac:(assumption) Hv I E) as [D|(c & Hc & E')]; [exact D|]. clear E.
    eapply (scope_pointing body Hb ltac:(assumption) true (FrVar nm c :: st) hist e); [apply vars_frame; assumption|discriminate|apply Hsh| |exact E'].
    intros s' st' K. apply W. eapply in_with; [now left|exact Hc|exact K].
Qed.
End Template.

Hypothesis Hast : forall t, provided inner t -> Forall (stmt_ok (t_source t)) (ast_of t) /\ (ast_of t <> [] -> t_source t <> []) /\
  sharing_all false (ast_of t).
Lemma template_points d : forall t n st depth hist e, provided inner t -> gets_to t n st depth -> no_vars st ->
  d + depth = N.to_nat (max_include_depth inner) - 1 -> ends (s_template inner ast_of d t n st hist) e -> explained e.
Proof.
  induction d as [|d IH]; intros t n st depth hist e Hp Hr Hv Hd E; cbn [s_template] in E; destruct (Hast t Hp) as (H1 & H2 & H3).
  - destruct (ast_of t) as [|s l] eqn:Ea; [contradiction|]. rewrite <- Ea in *. assert (Hne : t_source t <> []) by (apply H2; rewrite Ea; discriminate).
    apply (scope_pointing t n st None) with (l := ast_of t) (b := false) (st := st) (hist := hist); auto.
    + apply Forall_forall. intros x _. eapply pointing_all; [exact Hne|exact Hr|intros _; lia|discriminate].
    + eapply Forall_impl; [|exact Hv]. intros []; cbn; tauto.
  - destruct (ast_of t) as [|s l] eqn:Ea; [contradiction|]. rewrite <- Ea in *. assert (Hne : t_source t <> []) by (apply H2; rewrite Ea; discriminate).
    apply (scope_pointing t n st (Some (s_template inner ast_of d))) with (l := ast_of t) (b := false) (st := st) (hist := hist); auto.
    + apply Forall_forall. intros x _. eapply pointing_all; [exact Hne|exact Hr|discriminate|].
      intros run name t' st' hist' e' Er Na G Hv' E'. injection Er as <-. eapply IH; [right; exact Na|exact G|exact Hv'| |exact E']. lia.
    + eapply Forall_impl; [|exact Hv]. intros []; cbn; tauto.
Qed.
Theorem render_points e : no_vars st0 -> ends (s_render inner ast_of st0) e -> explained e.
Proof.
  unfold s_render. intros Hv E. apply ends_bind in E as [E|(a & E)]; [|contradiction].
  eapply template_points; [now left|apply gt_root|exact Hv| |exact E]. lia.
Qed.
End Place.
