(** C61: filters may take their parameters by reference or by value. *)
From Verif Require Import Base Utf8 Ext Errors Syntax Value Ast Parser Compiler Fmt Stack Filters Render Engine EngineSpec
  RenderSpec RenderObs RenderMain UseSpec Props3 Props14 Demo OwnedSpec Owned.

Section C61.
Context `{X : Ext}.
Variables (args : bool) (inner : renderer_inner) (e2 : engine).
Hypothesis H : same_engine args (ri_engine inner) e2.

(** C61.  With an engine whose filters take their receivers (or also their arguments) by value
    instead of by reference, a rendering says the same: the same text, or the same error but for
    the name of a parameter type. *)
Theorem C61_string g r1 r2 : renders inner g r1 -> renders (with_engine e2 inner) g r2 -> told args r1 r2.
Proof.
  intros (_ & n & H1) (_ & m & H2). specialize (H1 (n + m) ltac:(lia)). specialize (H2 (n + m) ltac:(lia)). subst r1 r2.
  unfold to_string. destruct (initial_stack g) as [st|e| |]; cbn [bind].
  - pose proof (fits_string args _ _ (render_fits args inner e2 H (n + m) st) []) as F.
    destruct (run_string [] (render inner (n + m) st)) as [s [[]|e| |]]; cbn in F |- *.
    + now rewrite F.
    + destruct F as [F|(s' & e' & F & R)]; [now left|]. right. rewrite F. eauto.
    + intros E. specialize (F E). destruct (run_string [] _) as [s' r]. cbn in F. subst r. reflexivity.
    + destruct (run_string [] (render (with_engine e2 inner) _ _)) as [s' r]. cbn in F. subst r. reflexivity.
  - apply told_refl.
  - intros E. reflexivity.
  - reflexivity.
Qed.

(** C61.  And to a writer. *)
Theorem C61_writer g k (w w1 w2 : sk_state k) r1 r2 :
  writes inner g k w (w1, r1) -> writes (with_engine e2 inner) g k w (w2, r2) ->
  match r1 with
  | Ok _ => w2 = w1 /\ r2 = r1
  | Err e => (args = true /\ (owned_only e \/ exists code, e = mk_io_error code)) \/
             (w2 = w1 /\ exists e', r2 = Err e' /\ rephrased e e')
  | Panic => args = false -> r2 = Panic
  | OutOfFuel => False
  end.
Proof.
  intros (N1 & n & H1) (_ & m & H2). specialize (H1 (n + m) ltac:(lia)). specialize (H2 (n + m) ltac:(lia)). cbn in N1.
  unfold to_writer in H1, H2. destruct (initial_stack g) as [st|e| |].
  - pose proof (fits_run args k _ _ (render_fits args inner e2 H (n + m) st) w None) as F.
    destruct (run k w None (render inner (n + m) st)) as [[w' io] r].
    destruct r as [[]|e| |].
    + assert (E1 : (w1, r1) = (w', Ok tt)) by (rewrite <- H1; destruct io; reflexivity).
      assert (E2 : (w2, r2) = (w', Ok tt)) by (rewrite <- H2, F; destruct io; reflexivity).
      injection E1 as -> ->. injection E2 as -> ->. auto.
    + destruct F as [(Fa & Fo)|(e' & F & R)].
      * destruct io as [code|]; injection H1 as -> <-; left; split; auto. right. eauto.
      * rewrite F in H2. destruct io as [code|]; injection H1 as -> <-; injection H2 as -> <-; right; split; auto; eauto using rephrased_refl.
    + assert (r1 = Panic) as -> by (destruct io; injection H1; auto). intros E. specialize (F E).
      destruct (run k w None (render (with_engine e2 inner) _ _)) as [[w'' io''] r]. cbn in F. subst r. destruct io''; injection H2; auto.
    + assert (r1 = OutOfFuel) as -> by (destruct io; injection H1; auto). now apply N1.
  - injection H1 as -> <-. injection H2 as -> <-. right. split; auto. eauto using rephrased_refl.
  - injection H1 as -> <-. injection H2 as -> <-. auto.
  - injection H1 as -> <-. now apply N1.
Qed.

(** Both renderings end. *)
Theorem C61_ends origin g : well_made inner origin -> initial_stack g <> OutOfFuel ->
  (exists r1 r2, renders inner g r1 /\ renders (with_engine e2 inner) g r2) /\
  forall k w, exists p1 p2, writes inner g k w p1 /\ writes (with_engine e2 inner) g k w p2.
Proof.
  intros W Hg.
  assert (W2 : well_made (with_engine e2 inner) origin).
  { intros t Hp. apply W. destruct H as (_ & Ht & _). destruct Hp as [->|[(f & h & n & E & E')|(E & n & E')]]; cbn in *; [now left|right; left; eauto|].
    right. right. rewrite Ht. eauto. }
  destruct (C12_rendering_terminates inner origin g W Hg) as ((r1 & R1) & P1).
  destruct (C12_rendering_terminates _ origin g W2 Hg) as ((r2 & R2) & P2).
  split; [eauto|]. intros k w. destruct (P1 k w) as (p1 & Q1). destruct (P2 k w) as (p2 & Q2). eauto.
Qed.
End C61.
Print Assumptions C61_string.
Print Assumptions C61_writer.
Print Assumptions C61_ends.

(** ** A concrete case *)
Local Existing Instance ascii_ext.
(** The filter [upper] of the demo takes a [&str]; here is one that takes a [String]; and
    [pick], that takes its argument by reference or by value. *)
Definition upper_owned : filter := mkfilter TyString [] (fl_run upper).
Definition pick (t : arg_ty) : filter := mkfilter TyStr [t] (fun _ l => match l with [AvValue v] => inl v | _ => inr [] end).
Definition picking (t : arg_ty) (u : filter) : engine := fst (add_filter (s2b "pick") (pick t) (fst (add_filter (s2b "upper") u demo_engine))).
Definition by_ref : engine := picking TyValueRef upper.
Definition by_recv : engine := picking TyValueRef upper_owned.
Definition by_value : engine := picking TyValue upper_owned.
Lemma picking_functions t u : en_functions (picking t u) = map_insert (s2b "pick") (EFilter (pick t)) (map_insert (s2b "upper") (EFilter u) (en_functions demo_engine)).
Proof. reflexivity. Qed.
Lemma same_upper (args : bool) (t1 t2 : arg_ty) : (if args then taken_by t1 t2 else t1 = t2) -> same_engine args (picking t1 upper) (picking t2 upper_owned).
Proof.
  intros T.
  split; [reflexivity|]. split; [reflexivity|]. split; [reflexivity|]. intros n. rewrite !picking_functions. generalize (en_functions demo_engine). intros fs.
  destruct (str_eq_dec n (s2b "pick")) as [->|Np].
  { rewrite !map_get_insert_same. split; [apply tb_same|]. split; [|reflexivity]. destruct args; [apply Forall2_cons; [exact T|apply Forall2_nil]|]. cbn. now rewrite T. }
  rewrite !(map_get_insert_other (s2b "pick") n) by exact Np. destruct (str_eq_dec n (s2b "upper")) as [->|Nu].
  { rewrite !map_get_insert_same. split; [apply tb_str|]. split; [|reflexivity]. destruct args; [apply Forall2_nil|reflexivity]. }
  rewrite !(map_get_insert_other (s2b "upper") n) by exact Nu.
  destruct (map_get n fs) as [[f|f]|]; cbn; try reflexivity. split; [apply tb_same|]. split; [|reflexivity]. destruct args; [|reflexivity].
  induction (fl_args f); constructor; [apply tb_same|assumption].
Qed.
Definition compiled (e : engine) (s : string) : template := match engine_compile (s2b s) e with Ok t => t | _ => mktemplate [] [] end.
Definition says (e : engine) (s : string) : res str := to_string 200 (template_renderer (compiled e s) e) (GBorrowed demo_value).
Definition reason_is (m : string) (r : res str) : bool :=
  match r with Err e => match e_reason e with Some x => str_eqb x (s2b m) | None => false end | _ => false end.
(** Receivers by value: the same text, and the type is named in the error.  Arguments by value: what
    could not be passed by reference now can. *)
Example C61_case :
  same_engine false by_ref by_recv /\ same_engine true by_ref by_value /\
  says by_ref "{{ title | upper }} {{ title | pick: user.name }}" = Ok (s2b "T ann") /\
  says by_value "{{ title | upper }} {{ title | pick: user.name }}" = Ok (s2b "T ann") /\
  reason_is "filter expected &str value, found list" (says by_ref "{{ items | upper }}") = true /\
  reason_is "filter expected string value, found list" (says by_recv "{{ items | upper }}") = true /\
  reason_is "filter expected reference argument but this value can only be passed as owned" (says by_ref "{% for i in items %}{{ title | pick: loop.index }}{% endfor %}") = true /\
  says by_value "{% for i in items %}{{ title | pick: loop.index }}{% endfor %}" = Ok (s2b "01").
Proof.
  split; [exact (same_upper false TyValueRef TyValueRef eq_refl)|]. split; [exact (same_upper true TyValueRef TyValue tb_value)|].
  split; [vm_compute; reflexivity|]. split; [vm_compute; reflexivity|]. split; [vm_compute; reflexivity|]. split; [vm_compute; reflexivity|]. split; vm_compute; reflexivity.
Qed.
