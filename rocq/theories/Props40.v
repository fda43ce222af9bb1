(** C67: templates kept in a store of one's own behave like those of the engine. *)
From Verif Require Import Base Utf8 Ext Errors Syntax SyntaxSpec Value Ast Compiler Fmt Stack Filters Render Engine EngineSpec CompileFacts
  RenderErr RenderObs MapFacts RenderSpec RenderMain NameSpec Naming TraceSpec TraceProof RenderProof StackRel Parts IncludeFacts Props2 Demo StoreSpec.

Section C67.
Context `{X : Ext}.
Section Trees.
Variable store : list (str * template).
Variable msg : str -> str.
Notation stored := (as_stored store msg).
Inductive twin {A} (R : A -> A -> Prop) : rt A -> rt A -> Prop :=
| tw_ok a b : R a b -> twin R (RRet (Ok a)) (RRet (Ok b))
| tw_err (e1 e2 : error) : stored (@Err error A e1) (Err e2) -> twin R (RRet (Err e1)) (RRet (Err e2))
| tw_panic : twin R (RRet Panic) (RRet Panic)
| tw_fuel : twin R (RRet OutOfFuel) (RRet OutOfFuel)
| tw_write s o1 o2 x1 x2 : twin R o1 o2 -> twin R x1 x2 -> twin R (RWrite s o1 x1) (RWrite s o2 x2).
Lemma twin_refl {A} (R : A -> A -> Prop) x : (forall a, R a a) -> twin R x x.
Proof. intros HR. induction x as [[]|]; constructor; auto. constructor. Qed.
Lemma stored_err {A B} e1 e2 : stored (@Err error A e1) (Err e2) -> stored (@Err error B e1) (Err e2).
Proof. intros H. inversion H; subst; now constructor. Qed.
Lemma twin_bind {A B} (R : A -> A -> Prop) (Q : B -> B -> Prop) x y f g :
  twin R x y -> (forall a b, R a b -> twin Q (f a) (g b)) -> twin Q (rbind x f) (rbind y g).
Proof. induction 1; intros Hf; cbn; auto; constructor; auto. eapply stored_err; eassumption. Qed.
Lemma twin_name {A} (R : A -> A -> Prop) n x y : twin R x y -> twin R (name_err n x) (name_err n y).
Proof.
  unfold name_err. induction 1 as [a b H|e1 e2 H| | |s o1 o2 x1 x2 _ IHo _ IHx]; cbn; constructor; auto.
  inversion H; subst; [constructor|]. destruct n as [n|]; [|now constructor]. destruct tname; cbn; now constructor.
Qed.
Lemma get_twin inner source name h1 h2 :
  twin (fun a b => fst a = fst b) (lift (get_template (shared store inner) source name h1)) (lift (get_template (own store msg inner) source name h2)).
Proof.
  unfold get_template. cbn [shared own with_template_fn ri_template_fn ri_engine set_templates en_templates]. unfold store_fn.
  destruct (map_get (as_name name) store) as [t|] eqn:E; [constructor; reflexivity|]. unfold err_render. destruct (build_pretty source (as_span name)) as [p| | |]; cbn; constructor; now constructor.
Qed.
Lemma exec_shared inner t i pc st ex : exec_instr (shared store inner) t i pc st ex = exec_instr (own store msg inner) t i pc st ex.
Proof. destruct i; reflexivity. Qed.
Lemma one_shared inner t : forall fuel pc st ex, render_one (shared store inner) fuel t pc st ex = render_one (own store msg inner) fuel t pc st ex.
Proof.
  induction fuel as [|fuel IH]; intros pc st ex; [reflexivity|]. cbn [render_one]. destruct (nth_error (t_instrs t) pc) as [i|]; [|reflexivity].
  rewrite exec_shared. apply rbind_ext. intros [pc' st' ex'|rs pc' st']; [apply IH|reflexivity].
Qed.
Lemma loop_twin inner fuel : forall ts st h1 h2, twin eq (render_loop (shared store inner) fuel ts st h1) (render_loop (own store msg inner) fuel ts st h2).
Proof.
  induction fuel as [|fuel IH]; intros ts st h1 h2; destruct ts as [|a rest]; try (cbn; constructor; reflexivity). cbn [render_loop]. rewrite one_shared.
  eapply twin_bind; [apply twin_refl with (R := eq); reflexivity|]. intros [[rs pc] st1] ? <-.
  eapply twin_bind with (R := fun a b => fst (fst a) = fst (fst b) /\ snd (fst a) = snd (fst b)).
  - destruct rs as [|nm|nm c].
    + destruct (ac_has_scope _).
      * eapply twin_bind; [apply twin_refl with (R := eq); reflexivity|]. intros st2 ? <-.
        eapply twin_bind; [apply twin_refl with (R := eq); reflexivity|]. intros st3 ? <-. constructor. cbn. auto.
      * constructor. cbn. auto.
    + eapply twin_bind; [apply twin_name, get_twin|]. intros [t1 k1] [t2 k2] E. cbn in E. subst t2. constructor. cbn. auto.
    + eapply twin_bind; [apply twin_name, get_twin|]. intros [t1 k1] [t2 k2] E. cbn in E. subst t2. constructor. cbn. auto.
  - intros [[ts1 st2] k1] [[ts2 st3] k2] (E1 & E2). cbn in E1, E2. subst ts2 st3. change (max_include_depth (own store msg inner)) with (max_include_depth (shared store inner)).
    destruct (_ <? _)%N; [apply twin_refl; reflexivity|apply IH].
Qed.
Lemma twin_run {A} (x y : rt A) k : twin eq x y -> forall w err, fst (run k w err x) = fst (run k w err y) /\ stored (snd (run k w err x)) (snd (run k w err y)).
Proof.
  induction 1 as [a b ->|e1 e2 H| | |s o1 o2 x1 x2 _ IHo _ IHx]; intros w err; cbn [run].
  1-4: split; [reflexivity|cbn; first [exact H|constructor]].
  destruct (sk_write k w s) as [w' [c|]]; auto.
Qed.
Lemma twin_string {A} (x y : rt A) : twin eq x y -> forall buf, fst (run_string buf x) = fst (run_string buf y) /\ stored (snd (run_string buf x)) (snd (run_string buf y)).
Proof.
  induction 1 as [a b ->|e1 e2 H| | |s o1 o2 x1 x2 _ IHo _ IHx]; intros buf; cbn [run_string].
  1-4: split; [reflexivity|cbn; first [exact H|constructor]].
  apply IHo.
Qed.
End Trees.

(** C67.  Rendering with [with_template_fn] and a function that looks names up in a store is
    rendering with an engine that has the templates of the store: the same text, the same writes,
    the same errors; only of a name that is not in the store the function tells in its own words. *)
Theorem C67_store store msg inner g fuel :
  as_stored store msg (to_string fuel (shared store inner) g) (to_string fuel (own store msg inner) g) /\
  forall k w, fst (to_writer fuel (shared store inner) g k w) = fst (to_writer fuel (own store msg inner) g k w) /\
    as_stored store msg (snd (to_writer fuel (shared store inner) g k w)) (snd (to_writer fuel (own store msg inner) g k w)).
Proof.
  assert (T : forall st, twin store msg eq (render (shared store inner) fuel st) (render (own store msg inner) fuel st)) by (intros st; apply loop_twin).
  unfold to_string, to_writer. destruct (initial_stack g) as [st|e| |]; cbn [bind]; try (split; [constructor|intros k w; split; [reflexivity|constructor]]).
  split.
  - pose proof (twin_string _ _ _ _ (T st) []) as (H1 & H2). destruct (run_string [] (render (shared store inner) fuel st)) as [s1 r1], (run_string [] (render (own store msg inner) fuel st)) as [s2 r2].
    cbn in H1, H2. subst s2. destruct H2 as [r|]; [constructor|now apply as_unknown].
  - intros k w. pose proof (twin_run _ _ _ _ k (T st) w None) as (H1 & H2).
    destruct (run k w None (render (shared store inner) fuel st)) as [[w1 c1] r1], (run k w None (render (own store msg inner) fuel st)) as [[w2 c2] r2].
    cbn in H1, H2. injection H1 as <- <-. destruct H2 as [r|nm n p E].
    + split; [reflexivity|constructor].
    + destruct c1; cbn; split; try reflexivity; [constructor|now apply as_unknown].
Qed.
(** With the same words the results are equal. *)
Lemma same_words {A} store (x y : res A) : as_stored store (fun _ => s2b "unknown template") x y -> x = y.
Proof. destruct 1; reflexivity. Qed.
Theorem C67_same_words store inner g :
  let words := fun _ : str => s2b "unknown template" in
  (forall r, renders (shared store inner) g r <-> renders (own store words inner) g r) /\
  forall k w p, writes (shared store inner) g k w p <-> writes (own store words inner) g k w p.
Proof.
  cbv zeta. assert (K : forall fuel, to_string fuel (shared store inner) g = to_string fuel (own store (fun _ => s2b "unknown template") inner) g /\
    forall k w, to_writer fuel (shared store inner) g k w = to_writer fuel (own store (fun _ => s2b "unknown template") inner) g k w).
  { intros fuel. destruct (C67_store store (fun _ => s2b "unknown template") inner g fuel) as (S & W). split; [exact (same_words _ _ _ S)|].
    intros k w. destruct (W k w) as (W1 & W2). apply same_words in W2. destruct (to_writer fuel (shared store inner) g k w), (to_writer fuel (own store _ inner) g k w). cbn in *. congruence. }
  split.
  - intros r. unfold renders. split; intros (H & n & Hn); (split; [exact H|]); exists n; intros f Hf; rewrite <- (Hn f Hf); [symmetry|]; apply K.
  - intros k w p. unfold writes. split; intros (H & n & Hn); (split; [exact H|]); exists n; intros f Hf; rewrite <- (Hn f Hf); [symmetry|]; apply K.
Qed.

(** C67.  Filling a store by [compile] and [insert] succeeds when adding the same templates to the
    engine does, and gives the same templates under the same names; an error is the same but for
    the name of the template, which only [add_template] knows. *)
Lemma add_all_filled e : forall l store, 
  match fill e l store with
  | Ok store' => add_all (set_templates store e) l = (set_templates store' e, Ok tt)
  | Err er => exists name e', add_all (set_templates store e) l = (e', Err (with_template_name er name))
  | Panic => snd (add_all (set_templates store e) l) = Panic
  | OutOfFuel => snd (add_all (set_templates store e) l) = OutOfFuel
  end.
Proof.
  induction l as [|[name source] l IH]; intros store; cbn [fill add_all]; [reflexivity|]. unfold add_template.
  change (engine_compile source (set_templates store e)) with (engine_compile source e).
  destruct (engine_compile source e) as [t|er| |] eqn:E; cbn [bind]; [|eauto|reflexivity..].
  change (set_templates (map_insert name t (en_templates (set_templates store e))) (set_templates store e)) with (set_templates (map_insert name t store) e).
  apply IH.
Qed.
Theorem C67_filled e l store :
  fill e l [] = Ok store <-> add_all (set_templates [] e) l = (set_templates store e, Ok tt).
Proof.
  pose proof (add_all_filled e l []) as H. split.
  - intros E. rewrite E in H. exact H.
  - intros E. destruct (fill e l []) as [store'|er| |].
    + rewrite H in E. injection E as E. now subst.
    + destruct H as (name & e' & H). rewrite H in E. discriminate E.
    + rewrite E in H. discriminate H.
    + rewrite E in H. discriminate H.
Qed.

(** C67.  The example: the template of a store, rendered with the function, against the template of
    that name of an engine to which the same sources were added: text and writes are the same, and
    one fails when the other does, with an error of the same kind and at the same place. *)
Definition like {A} (r1 r2 : res A) : Prop :=
  match r1, r2 with
  | Ok a, Ok b => a = b
  | Err e1, Err e2 => e_kind e1 = e_kind e2 /\ e_pretty e1 = e_pretty e2
  | Panic, Panic | OutOfFuel, OutOfFuel => True
  | _, _ => False
  end.
Theorem C67_example e l store e' name t msg g fuel :
  fill e l [] = Ok store -> add_all (set_templates [] e) l = (e', Ok tt) -> map_get name store = Some t ->
  engine_get_template name e' = Some (name, t) /\
  like (to_string fuel (template_ref_renderer (name, t) e') g) (to_string fuel (own store msg (template_renderer t e)) g) /\
  forall k w, fst (to_writer fuel (template_ref_renderer (name, t) e') g k w) = fst (to_writer fuel (own store msg (template_renderer t e)) g k w) /\
    like (snd (to_writer fuel (template_ref_renderer (name, t) e') g k w)) (snd (to_writer fuel (own store msg (template_renderer t e)) g k w)).
Proof.
  intros F A E. apply C67_filled in F. rewrite F in A. injection A as <-. split.
  { unfold engine_get_template. cbn [en_templates set_templates]. now rewrite E. }
  assert (Lk : forall A (a b c : res A), same_up_to_name (Some name) None a b -> as_stored store msg b c -> like a c).
  { intros A a b c [r|e1 e2 [K1 K2 K3 _]] H; inversion H; subst; cbn; auto.
    destruct c; cbn; auto. }
  change (template_ref_renderer (name, t) (set_templates store e)) with (called (Some name) (shared store (template_renderer t e))).
  assert (En : shared store (template_renderer t e) = called None (shared store (template_renderer t e))) by reflexivity.
  destruct (C67_store store msg (template_renderer t e) g fuel) as (S & W). rewrite En in S, W. split.
  - eapply Lk; [|exact S]. apply to_string_twin.
  - intros k w. destruct (W k w) as (W1 & W2). pose proof (to_writer_twin (Some name) None (shared store (template_renderer t e)) fuel g k w) as (N1 & N2).
    split; [now rewrite N1|]. eapply Lk; [exact N2|exact W2].
Qed.
End C67.
Print Assumptions C67_store.
Print Assumptions C67_same_words.
Print Assumptions C67_filled.
Print Assumptions C67_example.

(** ** A concrete case: the three templates of the example *)
Local Existing Instance ascii_ext.
Definition example_sources : list (str * str) :=
  [(s2b "index", s2b "<html>{% include ""header"" %}<h1>{{ title }}</h1>{% include ""footer"" %}</html>");
   (s2b "header", s2b "<head>{{ title }}</head>"); (s2b "footer", s2b "<p>{{ year }}{% if more %}{% include ""more"" %}{% endif %}</p>")].
Definition example_engine : engine := match engine_new with Ok e => e | _ => mkengine [] fmt_default [] [] 0 end.
Definition example_store : list (str * template) := match fill example_engine example_sources [] with Ok s => s | _ => [] end.
Definition index_template : template := match map_get (s2b "index") example_store with Some t => t | None => mktemplate [] [] end.
Definition not_found : str -> str := fun _ => s2b "template not found".
Definition example_data (more : bool) : value := VMap (map_of_list [(s2b "title", VStr (s2b "My Webpage!")); (s2b "year", VInt 2022); (s2b "more", VBool more)]).
Example example_filled : fill example_engine example_sources [] = Ok example_store /\ map_get (s2b "index") example_store = Some index_template.
Proof. vm_compute. split; reflexivity. Qed.
Definition example_page : str := s2b "<html><head>My Webpage!</head><h1>My Webpage!</h1><p>2022</p></html>".
Example example_output :
  to_string 100 (own example_store not_found (template_renderer index_template example_engine)) (GBorrowed (example_data false)) = Ok example_page /\
  to_string 100 (template_ref_renderer (s2b "index", index_template) (set_templates example_store example_engine)) (GBorrowed (example_data false)) = Ok example_page.
Proof. vm_compute. split; reflexivity. Qed.
(** A name that is not in the store: the words differ. *)
Example example_missing : exists n p,
  to_string 100 (own example_store not_found (template_renderer index_template example_engine)) (GBorrowed (example_data true)) = Err (mkerror KRender n (Some (s2b "template not found")) p) /\
  to_string 100 (shared example_store (template_renderer index_template example_engine)) (GBorrowed (example_data true)) = Err (mkerror KRender n (Some (s2b "unknown template")) p).
Proof. eexists. eexists. vm_compute. split; reflexivity. Qed.
