(** Properties C18-C20: includes, path lookup, optional access. *)
From Verif Require Import Base Utf8 Ext Errors Syntax AhoCorasick SearchSpec SyntaxSpec Value Ast Lexer LexSpec Wp
  GrammarSpec Parser AstOk Compiler CompileProof ParseMain Fmt Stack Filters Render Engine EngineSpec CompileFacts
  RenderSpec RenderProof RenderErr MapFacts RenderMain RenderObs StackRel Parts IncludeFacts LookupSpec LookupProof
  BlockSpec BlockProof Props2 Demo Props3 Props4.

(** ** C19 *)
Section C19.
Context `{X : Ext}.

(** C19.  What a path means is given by the rules [looks] and [walks]: they give
    exactly one answer, and it is the result of the lookup.  ([var_ok] and
    [vars_here]: the path and the [with] variables in sight are written in the
    source, as they are in compiled templates; see C13.) *)
Theorem C19_path_lookup source st v :
  source <> [] -> var_ok source v -> vars_here source st ->
  exists first name rest a,
    v = first :: rest /\ names source first name /\
    looks source first name rest st a /\
    (forall a', looks source first name rest st a' -> a' = a) /\
    lookup_var st source v = answer_result source a.
Proof.
  intros Hne (id & sp & ms & -> & Hok) Hv.
  assert (Hn : exists name, names source (mkmember Direct (AKey id) sp) name).
  { destruct (names_ok source (mkmember Direct (AKey id) sp)) as [H|(i & s & E)]; [now inversion Hok|exact H|discriminate E]. }
  destruct Hn as (name & Hn). exists (mkmember Direct (AKey id) sp), name, ms.
  destruct (looks_total source _ name ms Hn Hok st Hv) as (a & Ha). exists a. repeat split; auto.
  - intros a' Ha'. eapply looks_fun; eauto.
  - now apply (looks_sound source Hne _ name ms).
Qed.
(** The same for the effect of an emitted path: the value is formatted, or
    rendering ends with the error of the answer. *)
Theorem C19_emitted_path inner origin source st v sp :
  library inner origin -> source <> [] -> var_ok source v -> span_ok source sp -> vars_here source st ->
  exists first name rest a,
    v = first :: rest /\ names source first name /\ looks source first name rest st a /\
    match a with
    | AnValue c => exists vsp, span_ok source vsp /\ acts inner source [SInline (EBase (BVar v)) sp] st
        (name_err (ri_template_name inner) (run_fmt (en_default_formatter (ri_engine inner) (cow_val c)) (fun m => err_format m source vsp)))
    | AnError r asp => exists p, build_pretty source asp = Ok p /\
        acts inner source [SInline (EBase (BVar v)) sp] st (RRet (Err (titled inner (mkerror KRender None (Some r) (Some p)))))
    end.
Proof.
  intros Hlib Hne Hok Hsp Hv. destruct (C19_path_lookup source st v Hne Hok Hv) as (first & name & rest & a & Ev & Hn & Ha & _ & El).
  exists first, name, rest, a. split; [exact Ev|]. split; [exact Hn|]. split; [exact Ha|].
  assert (Hs : Forall (stmt_ok source) [SInline (EBase (BVar v)) sp]) by (constructor; [constructor; auto|constructor]).
  destruct a as [c|r asp].
  - destruct (expr_span_sok source (EBase (BVar v)) Hok) as (vsp & Es & Hvs). exists vsp. split; [exact Hvs|].
    apply (acts_iff inner origin Hlib); auto. rewrite part_one. cbn [s_stmt s_inline s_expr]. rewrite El. cbn [answer_result lift rbind]. rewrite Es. cbn [rbind].
    unfold s_default. set (x := name_err _ (run_fmt _ _)). clearbody x. unfold forget.
    rewrite rbind_assoc. cbn [rbind]. induction x as [[[]| | |]|s o IHo e IHe]; cbn [rbind]; auto. now rewrite <- IHo, <- IHe.
  - pose proof (fine_lookup_var true source Hne v Hok st (fun _ => Hv)) as F. rewrite El in F. unfold answer_result, err_render in F, El.
    destruct (build_pretty source asp) as [p| | |] eqn:Ep; cbn in F; try contradiction.
    + exists p. split; [reflexivity|]. apply (acts_iff inner origin Hlib); auto. rewrite part_one. cbn [s_stmt s_inline s_expr]. rewrite El. reflexivity.
    + exfalso. clear - Ep. unfold build_pretty in Ep. destruct (to_ln_col _ _). unfold index_span, slice in Ep.
      destruct (_ && _); cbn [bind] in Ep; [|discriminate Ep].
      destruct (nth_error _ _); cbn [bind] in Ep; [discriminate Ep|]. destruct (hd_error _); discriminate Ep.
    + discriminate F.
Qed.
End C19.
Print Assumptions C19_path_lookup.
Print Assumptions C19_emitted_path.

(** ** The same path in two templates *)
Section Alike.
Context `{X : Ext}.
Variable source source' : str.

(** The two members are written alike in the two texts. *)
Definition alike (m m' : member) : Prop := mb_op m = mb_op m' /\
  ((exists k, names source m k /\ names source' m' k) \/ (exists i, indexes m i /\ indexes m' i)).
Definition walked_alike (w w' : walked) : Prop :=
  match w, w' with
  | WFound v, WFound v' => v = v'
  | WAbsent, WAbsent => True
  | WStuck r _, WStuck r' _ => r = r'
  | _, _ => False
  end.
Definition answer_alike (a a' : answer) : Prop :=
  match a, a' with
  | AnValue c, AnValue c' => c = c'
  | AnError r _, AnError r' _ => r = r'
  | _, _ => False
  end.
(** The [with] variables in sight, if any, have the same name in both texts. *)
Definition names_shared (st : stack) : Prop :=
  Forall (fun fr => match fr with FrVar id _ => exists n, index_span source (id_span id) = @Ok error _ n /\ index_span source' (id_span id) = @Ok error _ n | _ => True end)
    (visible st).

Ltac pick H := let H1 := fresh in let H2 := fresh in let H3 := fresh in destruct H as (H1 & [(? & H2 & H3)|(? & H2 & H3)]).
Lemma alike_key m m' k : alike m m' -> names source m k -> names source' m' k /\ mb_op m' = mb_op m.
Proof.
  intros (Ho & [(k' & H1 & H2)|(i & H1 & _)]) H.
  - now rewrite (names_fun source m k k' H H1).
  - destruct (names_indexes source m k i H H1).
Qed.
Lemma alike_index m m' i : alike m m' -> indexes m i -> indexes m' i /\ mb_op m' = mb_op m.
Proof.
  intros (Ho & [(k' & H1 & H2)|(i' & H1 & H2)]) H.
  - destruct (names_indexes source m k' i H1 H).
  - now rewrite (indexes_fun m i i' H H1).
Qed.
Lemma walks_alike v ms w : walks source v ms w -> forall ms', Forall2 alike ms ms' -> exists w', walks source' v ms' w' /\ walked_alike w w'.
Proof.
  induction 1 as [v|l m ms i x r Hi Hx Hw IH|mp m ms k x r Hi Hx Hw IH|l m ms i Hi Hx Ho|l m ms i Hi Hx Ho|mp m ms k Hi Hx Ho|mp m ms k Hi Hx Ho|v m ms i Hi Hx|v m ms k Hi Hx];
  intros ms' Hm; inversion Hm as [|? m' ? ms2 Ha Hr]; subst; try (destruct (IH _ Hr) as (w' & Hw' & Hs));
  try (destruct (alike_key _ _ _ Ha Hi) as (Hi' & Eo)); try (destruct (alike_index _ _ _ Ha Hi) as (Hi' & Eo)).
  - eexists. split; [constructor|reflexivity].
  - exists w'. split; [eapply w_index; eauto|auto].
  - exists w'. split; [eapply w_key; eauto|auto].
  - eexists. split; [eapply w_no_index; eauto; congruence|reflexivity].
  - eexists. split; [eapply w_no_index_opt; eauto; congruence|exact I].
  - eexists. split; [eapply w_no_key; eauto; congruence|reflexivity].
  - eexists. split; [eapply w_no_key_opt; eauto; congruence|exact I].
  - eexists. split; [eapply w_not_list; eauto|reflexivity].
  - eexists. split; [eapply w_not_map; eauto|reflexivity].
Qed.
Lemma answers_alike o w w' a : walked_alike w w' -> answers o w a -> exists a', answers o w' a' /\ answer_alike a a'.
Proof.
  destruct 2; destruct w'; cbn in H; try contradiction; subst; eexists; (split; [constructor|]); reflexivity.
Qed.
Lemma loop_alike i rem ms a : loop_answers source i rem ms a -> forall ms', Forall2 alike ms ms' -> exists a', loop_answers source' i rem ms' a' /\ answer_alike a a'.
Proof.
  destruct 1 as [|m k v Hn Hf|m k Hn Hf Ho|m ms k Hn Hf Ho|m ms n Hn|m m2 ms k v Hn Hf|m m2 ms k Hn Hf Ho];
  intros ms' Hm; inversion Hm as [|? m' ? ms2 Ha Hr]; subst; 
  try (destruct (alike_key _ _ _ Ha Hn) as (Hn' & Eo)); try (destruct (alike_index _ _ _ Ha Hn) as (Hn' & Eo)).
  - eexists. split; [constructor|reflexivity].
  - inversion Hr; subst. eexists. split; [eapply la_field; eauto|reflexivity].
  - inversion Hr; subst. eexists. split; [eapply la_unknown_opt; eauto; congruence|reflexivity].
  - eexists. split; [eapply la_unknown; eauto; congruence|reflexivity].
  - eexists. split; [eapply la_index; eauto|reflexivity].
  - inversion Hr as [|? m2' ? ms3 Ha2 Hr2]; subst. eexists. split; [eapply la_field_more; eauto|reflexivity].
  - inversion Hr as [|? m2' ? ms3 Ha2 Hr2]; subst. eexists. split; [eapply la_unknown_more; eauto; congruence|reflexivity].
Qed.
Lemma reads_alike ms path : Forall2 (reads source) ms path -> forall ms', Forall2 alike ms ms' -> Forall2 (reads source') ms' path.
Proof.
  induction 1 as [|m vm ms path Hr Hrs IH]; intros ms' Hm; inversion Hm as [|? m' ? ms2 Ha Hrest]; subst; constructor; auto.
  destruct Hr as [(k & Hn & ->)|(i & Hn & ->)].
  - destruct (alike_key _ _ _ Ha Hn) as (Hn' & Eo). left. exists k. now rewrite Eo.
  - destruct (alike_index _ _ _ Ha Hn) as (Hn' & Eo). right. exists i. now rewrite Eo.
Qed.
Lemma looks_alike first name rest st a : looks source first name rest st a -> forall first' rest', alike first first' -> names source first name -> Forall2 alike rest rest' ->
  names_shared st -> exists a', looks source' first' name rest' st a' /\ answer_alike a a'.
Proof.
  unfold names_shared.
  induction 1 as [|st|id c st w a Hi Hw Ha|id c st n a Hi Hn Hl IH|c st x w a He Hw Ha|c st a He Hl IH|l st i rem a Hn Hp Ha|l st o x w a Hn Hp Hw Hwa Ha|l st o x a Hn Hp Hw Hl IH|l st k Hn Hk Hr|l st k m ms Hn Hk Hr|l st a Hl Hr IH|f st path v Hr Hf|f st path r Hr Hf];
  intros first' rest' Hf' Hn' Hrest Hs; cbn [visible] in Hs; try (inversion Hs as [|? ? Hs1 Hs2]; subst);
  try (destruct (walks_alike _ _ _ Hw _ Hrest) as (w' & Hw' & Hww)); try (destruct (answers_alike _ _ _ _ Hww Ha) as (a' & Ha' & Haa));
  try (destruct (IH _ _ Hf' Hn' Hrest) as (a2 & Hl2 & Haa2); [assumption|]).
  - eexists. split; [constructor|reflexivity].
  - eexists. split; [constructor|reflexivity].
  - destruct Hs1 as (n & E1 & E2). exists a'. split; [eapply lk_with; eauto; congruence|auto].
  - destruct Hs1 as (n' & E1 & E2). exists a2. split; [eapply lk_with_other; eauto; congruence|auto].
  - exists a'. split; [eapply lk_scope; eauto|auto].
  - exists a2. split; [eapply lk_scope_other; eauto|auto].
  - destruct (loop_alike _ _ _ _ Ha _ Hrest) as (a' & Ha' & Haa). exists a'. split; [eapply lk_loop; eauto|auto].
  - exists a'. split; [eapply lk_item; eauto|auto]. intros ->. now destruct w.
  - destruct w'; cbn in Hww; try contradiction. exists a2. split; [eapply lk_item_absent; eauto|auto].
  - inversion Hrest; subst; try discriminate. eexists. split; [eapply lk_key; eauto|reflexivity].
  - subst. inversion Hrest; subst. eexists. split; [eapply lk_key_more; eauto|reflexivity].
  - exists a2. split; [eapply lk_loop_other; eauto|auto].
  - eexists. split; [eapply lk_fn; [eapply reads_alike; eauto|eauto]|reflexivity].
  - eexists. split; [eapply lk_fn_error; [eapply reads_alike; eauto|eauto]|reflexivity].
Qed.
End Alike.

Section C18.
Context `{X : Ext}.
Variable inner : renderer_inner.
Variable origin : template -> syntax.
Variable source : str.
Hypothesis Hlib : library inner origin.

(** What the renderer finds under a name (asked for the first time). *)
Definition resolves (name : str) (t : template) : Prop :=
  match ri_template_fn inner with
  | Some f => f [] name = inl t
  | None => map_get name (en_templates (ri_engine inner)) = Some t
  end.
Lemma resolves_find nm t : resolves (as_name nm) t -> exists h, s_find inner source nm [] = Ok (t, h).
Proof. unfold resolves, s_find. destruct (ri_template_fn inner) as [f|]; intros ->; eauto. Qed.

(** The rendering of an included template on its own. *)
Lemma does_included t name m st : named inner t ->
  does (included inner t name m) st (forget (s_template (included inner t name m) (lib_ast origin) (N.to_nat m - 1) t (Some name) st [])).
Proof.
  intros Ht. unfold does.
  pose proof (render_spec (included inner t name m) (lib_ast origin) (fun t' H => lib_sourced inner origin Hlib t' H) st (lib_sourced inner origin Hlib t Ht)) as (n & Hn).
  exists n. intros fuel Hf. rewrite Hn by auto. reflexivity.
Qed.
Lemma lib_facts t : named inner t -> Forall (stmt_ok (t_source t)) (lib_ast origin t) /\ (lib_ast origin t <> [] -> t_source t <> []).
Proof. intros Ht. split; [apply (lib_sourced inner origin Hlib t Ht)|now apply (lib_nonempty inner origin Hlib)]. Qed.
Lemma rmap_forget {A} f (x : rt A) : rmap_err f (forget x) = forget (rmap_err f x).
Proof. unfold forget. now rewrite rmap_err_bind. Qed.

Hypothesis Hsteady : steady inner.
Lemma resolves_named name t : resolves name t -> named inner t.
Proof. unfold resolves, named. destruct (ri_template_fn inner) as [f|]; intros H; [left|right]; eauto 6. Qed.

Definition limit := max_include_depth inner.
(** C18.  [include name] does what rendering the named template does, as a root of
    its own (named, with one level less), in the very variables of the includer;
    errors about the depth mention the limit of the whole rendering. *)
Theorem C18_include_shares nm t st tree :
  stmt_ok source (SInclude nm None) -> resolves (as_name nm) t -> (2 <= limit)%N ->
  does (included inner t (as_name nm) (limit - 1)) st tree ->
  acts inner source [SInclude nm None] st (rmap_err (relimit limit) tree).
Proof.
  intros Hok Hr Hm Hd. destruct (resolves_find nm t Hr) as (h & Eh). pose proof (resolves_named _ _ Hr) as Ht.
  pose proof (does_fun _ _ _ _ Hd (does_included t (as_name nm) (limit - 1) st Ht)) as ->. 
  apply (acts_iff inner origin Hlib); [auto|]. rewrite part_one. cbn [s_stmt rbind]. rewrite Eh, here_ok.
  replace (N.to_nat (max_include_depth inner) - 1) with (S (N.to_nat (limit - 1) - 1)) by (unfold limit in *; lia).
  rewrite rmap_forget. rewrite <- (template_limit inner (included inner t (as_name nm) (limit - 1)) (lib_ast origin) eq_refl eq_refl lib_facts); auto.
  now apply steady_template.
Qed.
(** C18.  [include name with e] does what rendering the named template does in the
    members of the value of [e] and nothing else. *)
Theorem C18_include_with_isolates nm e t st c tree :
  stmt_ok source (SInclude nm (Some e)) -> resolves (as_name nm) t -> (2 <= limit)%N ->
  s_expr inner source st e = Ok c ->
  does (included inner t (as_name nm) (limit - 1)) [FrScope c] tree ->
  acts inner source [SInclude nm (Some e)] st (rmap_err (relimit limit) tree).
Proof.
  intros Hok Hr Hm He Hd. destruct (resolves_find nm t Hr) as (h & Eh). pose proof (resolves_named _ _ Hr) as Ht.
  pose proof (does_fun _ _ _ _ Hd (does_included t (as_name nm) (limit - 1) [FrScope c] Ht)) as ->. 
  apply (acts_iff inner origin Hlib); [auto|]. rewrite part_one. cbn [s_stmt]. rewrite He, here_ok. cbn [rbind]. rewrite Eh, here_ok.
  replace (N.to_nat (max_include_depth inner) - 1) with (S (N.to_nat (limit - 1) - 1)) by (unfold limit in *; lia).
  rewrite rmap_forget. rewrite <- (template_limit inner (included inner t (as_name nm) (limit - 1)) (lib_ast origin) eq_refl eq_refl lib_facts); auto.
  rewrite (template_rel inner (lib_ast origin) (cut st) (cut_push st) (fun t _ => cut_same st t _) _ t (Some (as_name nm)) (FrScope c :: FrBoundary :: st) [FrScope c]); auto.
  - now apply steady_template.
  - exists [FrScope c]. auto.
Qed.
(** With a limit of 0 or 1 every include fails. *)
Theorem C18_include_limit nm w t st : stmt_ok source (SInclude nm w) -> resolves (as_name nm) t -> (limit < 2)%N ->
  match w with None => True | Some e => exists c, s_expr inner source st e = Ok c end ->
  acts inner source [SInclude nm w] st (RRet (Err (limit_error limit))).
Proof.
  intros Hok Hr Hm He. destruct (resolves_find nm t Hr) as (h & Eh). 
  apply (acts_iff inner origin Hlib); [auto|]. rewrite part_one.
  replace (N.to_nat (max_include_depth inner) - 1) with 0 by (unfold limit in *; lia).
  destruct w as [e|]; cbn [s_stmt].
  - destruct He as (c & He). rewrite He, here_ok. cbn [rbind]. rewrite Eh. reflexivity.
  - cbn [rbind]. rewrite Eh. reflexivity.
Qed.
End C18.
Section C18b.
Context `{X : Ext}.
(** C18.  Isolation, for every template function: the effect depends on nothing but
    the value passed. *)
Theorem C18_nothing_else_matters inner origin source nm e st st' tree : library inner origin ->
  stmt_ok source (SInclude nm (Some e)) -> s_expr inner source st e = s_expr inner source st' e ->
  (acts inner source [SInclude nm (Some e)] st tree <-> acts inner source [SInclude nm (Some e)] st' tree).
Proof.
  intros Hlib Hok He. rewrite !(acts_iff inner origin Hlib) by auto. rewrite !part_one. cbn [s_stmt]. rewrite <- He.
  assert (E : forall d c h, 
    (let% (t, hist) := here (ri_template_name inner) (s_find inner source nm h) in
     match d with None => lift (err_max_include_depth (max_include_depth inner)) | Some d => s_template inner (lib_ast origin) d t (Some (as_name nm)) (FrScope c :: FrBoundary :: st) hist end) =
    (let% (t, hist) := here (ri_template_name inner) (s_find inner source nm h) in
     match d with None => lift (err_max_include_depth (max_include_depth inner)) | Some d => s_template inner (lib_ast origin) d t (Some (as_name nm)) (FrScope c :: FrBoundary :: st') hist end)).
  { intros d c h. apply rbind_ext_oks. intros [t h'] Ho. apply (find_named inner (mktemplate source [])) in Ho. destruct d as [d|]; [|reflexivity].
    rewrite (template_rel inner (lib_ast origin) (cut st) (cut_push st) (fun t _ => cut_same st t _) _ t (Some (as_name nm)) (FrScope c :: FrBoundary :: st) [FrScope c]);
      [|exact Ho|now exists [FrScope c]].
    now rewrite (template_rel inner (lib_ast origin) (cut st') (cut_push st') (fun t _ => cut_same st' t _) _ t (Some (as_name nm)) (FrScope c :: FrBoundary :: st') [FrScope c]);
      [|exact Ho|exists [FrScope c]]. }
  set (K := fun d => match d with 0 => None | S d' => Some d' end).
  assert (F : forget (let% st' := (let% c := here (ri_template_name inner) (s_expr inner source st e) in RRet (Ok (FrScope c :: FrBoundary :: st))) in
       let% (t, hist) := here (ri_template_name inner) (s_find inner source nm []) in
       match (match N.to_nat (max_include_depth inner) - 1 with 0 => None | S d' => Some (s_template inner (lib_ast origin) d') end) with
       | None => lift (err_max_include_depth (max_include_depth inner)) | Some run => run t (Some (as_name nm)) st' hist end) =
     forget (let% st' := (let% c := here (ri_template_name inner) (s_expr inner source st e) in RRet (Ok (FrScope c :: FrBoundary :: st'))) in
       let% (t, hist) := here (ri_template_name inner) (s_find inner source nm []) in
       match (match N.to_nat (max_include_depth inner) - 1 with 0 => None | S d' => Some (s_template inner (lib_ast origin) d') end) with
       | None => lift (err_max_include_depth (max_include_depth inner)) | Some run => run t (Some (as_name nm)) st' hist end)).
  { f_equal. rewrite !rbind_assoc. apply rbind_ext. intros c. cbn [rbind]. specialize (E (K (N.to_nat (max_include_depth inner) - 1)) c []).
    destruct (N.to_nat (max_include_depth inner) - 1); exact E. }
  split; intros ->; [exact F|symmetry; exact F].
Qed.
(** C18.  The variables in sight of an [include name] mean the same in the included
    template: the same path finds the same value, or an error for the same reason
    (elsewhere), if no [with] variable is in sight (or its name is written at the
    same place in both texts, see C18_with_variables_refuted). *)
Theorem C18_variables_visible_partial source source' st v v' :
  source <> [] -> source' <> [] -> var_ok source v -> var_ok source' v' -> Forall2 (alike source source') v v' ->
  names_shared source source' st -> vars_here source st -> vars_here source' st ->
  match lookup_var st source v, lookup_var st source' v' with
  | Ok c, Ok c' => c = c'
  | Err e, Err e' => e_reason e = e_reason e'
  | _, _ => False
  end.
Proof.
  intros Hne Hne' Hok Hok' Hal Hsh Hv Hv'.
  destruct (C19_path_lookup source st v Hne Hok Hv) as (first & name & rest & a & -> & Hn & Ha & _ & El).
  inversion Hal as [|? first' ? rest' A1 A2]; subst.
  destruct (looks_alike source source' first name rest st a Ha first' rest' A1 Hn A2 Hsh) as (a' & Ha' & Haa).
  assert (El' : lookup_var st source' (first' :: rest') = answer_result source' a').
  { destruct Hok' as (id & sp & ms & E & F). injection E as -> ->. apply (looks_sound source' Hne' _ name ms); auto.
    now apply (alike_key source source' first). }
  pose proof (fine_lookup_var true source Hne _ Hok st (fun _ => Hv)) as F.
  pose proof (fine_lookup_var true source' Hne' _ Hok' st (fun _ => Hv')) as F'.
  rewrite El in F |- *. rewrite El' in F' |- *.
  destruct a as [c|r sp], a' as [c'|r' sp']; cbn in Haa; try contradiction; subst; cbn [answer_result]; [reflexivity|].
  unfold answer_result, err_render in F, F' |- *.
  assert (B : forall s p, build_pretty s p = Panic \/ exists q, build_pretty s p = Ok q).
  { intros s p. unfold build_pretty. destruct (to_ln_col _ _). unfold index_span, slice.
    destruct (_ && _); cbn [bind]; [|now left].
    destruct (nth_error _ _); cbn [bind]; [now right; eexists|]. destruct (hd_error _); [now right; eexists|now left]. }
  destruct (B source sp) as [E|(q & E)]; rewrite E in F |- *; [discriminate F|].
  destruct (B source' sp') as [E'|(q' & E')]; rewrite E' in F' |- *; [discriminate F'|]. reflexivity.
Qed.
(** C18.  What happens to a [with] variable of the includer: in the included template,
    whose text is [source'], its name is whatever stands there at the place of the name
    in the includer.  Under that name it is found and hides the others; under other names
    it is not found; and if the place is no part of the text, every lookup that comes to
    it panics (C13). *)
Theorem C18_with_variables_exact source' id c st v name :
  starts source' v name ->
  match @index_span error source' (id_span id) with
  | Ok n => (n <> name -> lookup_var (FrVar id c :: st) source' v = lookup_var st source' v) /\
            (n = name -> (forall st', lookup_var (FrVar id c :: st) source' v = lookup_var (FrVar id c :: st') source' v) /\
                         (written source' v [name] -> lookup_var (FrVar id c :: st) source' v = Ok c))
  | _ => lookup_var (FrVar id c :: st) source' v = Panic
  end.
Proof.
  intros Hs. assert (T : (exists n, @index_span error source' (id_span id) = Ok n) \/ @index_span error source' (id_span id) = Panic).
  { unfold index_span, slice. destruct (_ && _); eauto. }
  destruct T as [(n & Ei)|Ei].
  - rewrite Ei. split.
    + intros Hn. destruct (C17_with_variable source' st st id c n v Ei) as (_ & _ & H). apply (H name Hs). congruence.
    + intros ->. split.
      * intros st'. destruct (C17_with_variable source' st st' id c name v Ei) as (H & _ & _). exact (H Hs).
      * intros Hw. destruct (C17_with_variable source' st st id c name v Ei) as (_ & H & _). exact (H Hw).
  - rewrite Ei. destruct Hs as (m & ms & -> & (id' & Ea & Ei')). cbn [lookup_var var_first hd_error unwrap bind]. rewrite Ea. cbn [access_span].
    rewrite Ei', Ei. reflexivity.
Qed.
End C18b.
Print Assumptions C18_with_variables_exact.
Print Assumptions C18_include_shares.
Print Assumptions C18_include_with_isolates.
Print Assumptions C18_include_limit.
Print Assumptions C18_nothing_else_matters.
Print Assumptions C18_variables_visible_partial.

(** ** C20 *)
Section C20.
Context `{X : Ext}.
(** C20, the part that holds.  A missing optional member is [None] for a [with]
    variable and for a member of a scope; on a loop variable (of the same name),
    whatever is not missing is found.  What happens instead of the rest: a missing
    optional member of a loop variable is what the same path means outside the loop (so
    it is [None] exactly when that is). *)
Theorem C20_optional_access_partial source first name rest st :
  source <> [] -> mb_op first = Direct -> names source first name -> Forall (member_ok source) (first :: rest) ->
  (forall id c, index_span source (id_span id) = @Ok error _ name -> walks source (cow_val c) rest WAbsent ->
     lookup_var (FrVar id c :: st) source (first :: rest) = Ok (Borrowed VNone)) /\
  (forall c x, entry (cow_val c) name = Some x -> walks source x rest WAbsent ->
     lookup_var (FrScope c :: st) source (first :: rest) = Ok (Borrowed VNone)) /\
  (forall l o x y, name <> s2b "loop" -> loop_item l name = Some (o, x) -> walks source x rest (WFound y) ->
     lookup_var (FrLoop l :: st) source (first :: rest) = Ok (mk_cow o y)) /\
  (forall l o x, name <> s2b "loop" -> loop_item l name = Some (o, x) -> walks source x rest WAbsent ->
     lookup_var (FrLoop l :: st) source (first :: rest) = lookup_var st source (first :: rest)).
Proof.
  intros Hne Hop Hn Hok. split; [|split; [|split]].
  - intros id c Hi Hw. apply (looks_sound source Hne first name rest Hop Hn Hok _ (AnValue (Borrowed VNone))).
    eapply lk_with; eauto. constructor.
  - intros c x He Hw. apply (looks_sound source Hne first name rest Hop Hn Hok _ (AnValue (Borrowed VNone))).
    eapply lk_scope; eauto. constructor.
  - intros l o x y Hl Hi Hw. apply (looks_sound source Hne first name rest Hop Hn Hok _ (AnValue (mk_cow o y))).
    eapply lk_item; eauto; [discriminate|constructor].
  - intros l o x Hl Hi Hw. apply (C17_loop_hides_nothing_else source l st first rest name Hn Hok). right. split; [exact Hl|].
    assert (K : loop_key l name = None).
    { destruct l as [? ? ? ? [[? ?]|]|? ? ? ? ? [[? [? ?]]|]]; cbn [loop_item loop_key] in Hi |- *; try reflexivity. now destruct (str_eqb name k). }
    split; [exact K|]. intros o' x' E. rewrite Hi in E. injection E as <- <-. exact Hw.
Qed.
End C20.
Print Assumptions C20_optional_access_partial.

Local Existing Instance ascii_ext.
(** C20 in full is false of the code: in a loop, [x?.a] with [a] missing in the item
    is an error, or even a value of another [x] outside the loop; the same access
    to the same value as a [with] variable is [None]. *)
Definition opt_engine : engine :=
  match engine_new with
  | Ok e => adds [("loop"%string, "{% for x in xs %}[{{ x?.a }}]{% endfor %}"%string);
                  ("with"%string, "{% with xs.0 as x %}[{{ x?.a }}]{% endwith %}"%string)] e
  | _ => mkengine [] fmt_default [] [] 0
  end.
Lemma opt_for : engine_for default_syntax opt_engine.
Proof.
  unfold opt_engine. destruct engine_new as [e| | |] eqn:E; try (vm_compute in E; discriminate).
  apply adds_for; [vm_compute; reflexivity|]. now apply ef_new.
Qed.
Definition items_ctx : value := VMap [(s2b "xs", VList [VMap [(s2b "b", VInt 1)]])].
Definition items_ctx' : value := VMap [(s2b "x", VMap [(s2b "a", VStr (s2b "outer"))]); (s2b "xs", VList [VMap [(s2b "b", VInt 1)]])].
Theorem C20_optional_on_loop_variable_refuted :
  engine_for default_syntax opt_engine /\
  (exists e, renders (renderer_of opt_engine "loop") (GBorrowed items_ctx) (Err e) /\ e_reason e = Some (s2b "not found in this scope")) /\
  renders (renderer_of opt_engine "loop") (GBorrowed items_ctx') (Ok (s2b "[outer]")) /\
  renders (renderer_of opt_engine "with") (GBorrowed items_ctx) (Ok (s2b "[]")) /\
  renders (renderer_of opt_engine "with") (GBorrowed items_ctx') (Ok (s2b "[]")).
Proof.
  split; [exact opt_for|]. split.
  { eexists. split; [apply (renders_by _ 50); [vm_compute; reflexivity|discriminate]|reflexivity]. }
  split; [|split]; apply (renders_by _ 50); try (vm_compute; reflexivity); discriminate.
Qed.
Print Assumptions C20_optional_on_loop_variable_refuted.

(** C18 in full is false of the code: a [with] variable of the includer is not
    visible in the included template, or under another name. *)
Definition sight_engine : engine :=
  match engine_new with
  | Ok e => adds [("outer"%string, "{% with x as n %}{% include ""inner"" %}{% endwith %}"%string);
                  ("inner"%string, "{{ n }}             "%string);
                  ("outer2"%string, "{% with x as n %}{% include ""inner2"" %}{% endwith %}"%string);
                  ("inner2"%string, "{{ q }}      q      "%string)] e
  | _ => mkengine [] fmt_default [] [] 0
  end.
Lemma sight_for : engine_for default_syntax sight_engine.
Proof.
  unfold sight_engine. destruct engine_new as [e| | |] eqn:E; try (vm_compute in E; discriminate).
  apply adds_for; [vm_compute; reflexivity|]. now apply ef_new.
Qed.
Theorem C18_with_variables_refuted :
  engine_for default_syntax sight_engine /\
  (exists e, renders (renderer_of sight_engine "outer") (GBorrowed (VMap [(s2b "x", VInt 1)])) (Err e) /\ e_reason e = Some (s2b "not found in this scope")) /\
  renders (renderer_of sight_engine "outer2") (GBorrowed (VMap [(s2b "x", VInt 1)])) (Ok (s2b "1      q      ")).
Proof.
  split; [exact sight_for|]. split.
  { eexists. split; [apply (renders_by _ 50); [vm_compute; reflexivity|discriminate]|reflexivity]. }
  apply (renders_by _ 50); [vm_compute; reflexivity|discriminate].
Qed.
Print Assumptions C18_with_variables_refuted.

(** Beside them: the hypotheses hold for the demo engine and this text. *)
Definition includes : string := "{% include ""foot"" %}{% include ""foot"" with user %}{{ user.name }}".
Definition inc_plain : stmt := SInclude (mkaststr (s2b "foot") (mkspan 11 17)) None.
Definition inc_with : stmt := SInclude (mkaststr (s2b "foot") (mkspan 31 37)) (Some (EBase (BVar (var_at 43 47)))).
Definition inc_var : var := [mkmember Direct (AKey (mkident (mkspan 53 57))) (mkspan 53 57); mkmember Direct (AKey (mkident (mkspan 58 62))) (mkspan 57 62)].
Example includes_parsed : parsed includes = [inc_plain; inc_with; SInline (EBase (BVar inc_var)) (mkspan 50 65)].
Proof. vm_compute. reflexivity. Qed.
Definition inc_stack : stack := [FrScope (Borrowed demo_value)].
Definition foot : template := match map_get (s2b "foot") (en_templates demo_engine) with Some t => t | None => mktemplate [] [] end.
Example C18_case : 
  stmt_ok (s2b includes) inc_plain /\ stmt_ok (s2b includes) inc_with /\
  resolves (demo "page") (s2b "foot") foot /\ (2 <= limit (demo "page"))%N /\ steady (demo "page") /\ library (demo "page") (fun _ => default_syntax) /\
  s_expr (demo "page") (s2b includes) inc_stack (EBase (BVar (var_at 43 47))) = Ok (Borrowed (VMap [(s2b "name", VStr (s2b "ann"))])).
Proof.
  assert (O : Forall (stmt_ok (s2b includes)) (parsed includes)) by (apply parsed_ok; vm_compute; reflexivity). rewrite includes_parsed in O.
  inversion O as [|? ? O1 O2]; subst. inversion O2 as [|? ? O3 _]; subst.
  split; [exact O1|]. split; [exact O3|]. split; [vm_compute; reflexivity|]. split; [vm_compute; discriminate|].
  split; [apply demo_steady; vm_compute; reflexivity|]. split; [apply demo_library; vm_compute; reflexivity|]. vm_compute. reflexivity.
Qed.
Example C18_case_out : renders (template_renderer (program (s2b includes) (parsed includes)) demo_engine) (GBorrowed (VMap [(s2b "name", VStr (s2b "b")); (s2b "user", VMap [(s2b "name", VStr (s2b "ann"))])]))
  (Ok (s2b "-B--ANN-ann")).
Proof. apply (renders_by _ 200); [vm_compute; reflexivity|discriminate]. Qed.
Example C19_case : s2b includes <> [] /\ var_ok (s2b includes) inc_var /\ vars_here (s2b includes) inc_stack /\
  lookup_var inc_stack (s2b includes) inc_var = Ok (Borrowed (VStr (s2b "ann"))).
Proof.
  assert (O : Forall (stmt_ok (s2b includes)) (parsed includes)) by (apply parsed_ok; vm_compute; reflexivity). rewrite includes_parsed in O.
  inversion O as [|? ? O1 O2]; subst. inversion O2 as [|? ? O3 O4]; subst. inversion O4 as [|? ? O5 _]; subst. inversion O5; subst.
  split; [intros E; vm_compute in E; discriminate E|]. split; [assumption|]. split; [constructor; [exact I|constructor]|]. vm_compute. reflexivity.
Qed.
Example C18_visible_case : names_shared (s2b includes) (t_source foot) inc_stack.
Proof. constructor; [exact I|constructor]. Qed.
