(** C68: the fuzz targets find no panic, and what they would find if they rendered. *)
From Verif Require Import Base Utf8 Ext Errors Syntax SyntaxSpec Value Ast LexSpec GrammarSpec Parser Compiler Fmt Stack Filters Render RenderErr Engine EngineSpec
  CompileFacts MapFacts RenderSpec RenderMain RenderObs Serde PanicSpec Props2 Props3 Demo Fuzz.

Section C68.
Context `{X : Ext}.
(** What the serializer makes of the data: [None] is the text "None", anything else a map of one entry. *)
Fixpoint fuzz_meaning (v : fuzz_value) : value :=
  let tagged t x := VMap [(s2b t, x)] in
  match v with
  | FNone => VStr (s2b "None")
  | FBool b => tagged "Bool"%string (VBool b)
  | FInteger z => tagged "Integer"%string (VInt z)
  | FFloat f => tagged "Float"%string (VFloat f)
  | FString s => tagged "String"%string (VStr s)
  | FList l => tagged "List"%string (VList (map fuzz_meaning l))
  | FMap m => tagged "Map"%string (VMap (map_of_list (map (fun kv => (fst kv, fuzz_meaning (snd kv))) m)))
  end.
Section Ind.
Variable P : fuzz_value -> Prop.
Hypothesis H0 : P FNone.
Hypothesis H1 : forall b, P (FBool b).
Hypothesis H2 : forall z, P (FInteger z).
Hypothesis H3 : forall f, P (FFloat f).
Hypothesis H4 : forall s, P (FString s).
Hypothesis H5 : forall l, Forall P l -> P (FList l).
Hypothesis H6 : forall m, Forall (fun kv => P (snd kv)) m -> P (FMap m).
Fixpoint fuzz_ind (v : fuzz_value) : P v :=
  match v with
  | FNone => H0 | FBool b => H1 b | FInteger z => H2 z | FFloat f => H3 f | FString s => H4 s
  | FList l => H5 l ((fix go l : Forall P l := match l with [] => Forall_nil _ | x :: l' => Forall_cons x (fuzz_ind x) (go l') end) l)
  | FMap m => H6 m ((fix go m : Forall (fun kv => P (snd kv)) m := match m with [] => Forall_nil _ | x :: m' => Forall_cons x (fuzz_ind (snd x)) (go m') end) m)
  end.
End Ind.

(** C68.  The data of the render target can always be serialized. *)
Theorem C68_data v : to_value (fuzz_serialize v) = Ok (fuzz_meaning v).
Proof.
  induction v as [|b|z|f|s|l IH|m IH] using fuzz_ind; try reflexivity.
  - cbn [fuzz_serialize to_value]. match goal with |- context [bind ?a _] => assert (E : a = Ok (VList (map fuzz_meaning l))) end.
    { match goal with |- bind ?a _ = _ => assert (E : a = Ok (map fuzz_meaning l)) end.
      { induction IH as [|x l Hx _ IHl]; [reflexivity|]. cbn [map]. rewrite Hx. cbn [bind]. rewrite IHl. reflexivity. }
      rewrite E. reflexivity. }
    rewrite E. reflexivity.
  - cbn [fuzz_serialize to_value]. unfold fuzz_meaning at 1. fold fuzz_meaning.
    assert (E : forall acc, (fix to_entries (l : list (sdata * sdata)) (m : list (str * value)) : res (list (str * value)) :=
         match l with
         | [] => Ok m
         | (k, d) :: l' => let* k := serialize_key k in let* v := to_value d in to_entries l' (map_insert k v m)
         end) (map (fun kv => (SStr (fst kv), fuzz_serialize (snd kv))) m) acc =
       Ok (fold_left (fun m kv => map_insert (fst kv) (snd kv) m) (map (fun kv => (fst kv, fuzz_meaning (snd kv))) m) acc)).
    { induction IH as [|[k x] m Hx _ IHm]; intros acc; [reflexivity|]. cbn [map fst snd fold_left serialize_key]. cbn [snd] in Hx. rewrite Hx. cbn [bind]. apply IHm. }
    rewrite E. reflexivity.
Qed.

(** C68.  The compile target returns for every text. *)
Theorem C68_compile data : valid_utf8 data -> fuzz_compile data = Ok tt.
Proof.
  intros Hv. destruct (C02_compile_total default_syntax default_user_syntax default_closers_ok) as ((e & E) & H).
  unfold fuzz_compile, engine_new. rewrite E. cbn [bind]. pose proof (proj2 (H e data (s2b "fuzz") (ef_new _ _ E) Hv)) as F.
  destruct (snd (add_template (s2b "fuzz") data e)); cbn in F; try contradiction; reflexivity.
Qed.

Definition fails (e : engine) (source : str) : Prop := exists er, engine_compile source e = Err er.
(** [t] is the template of the last source in the list that is called "fuzz" and compiles. *)
Definition last_fuzz (e : engine) (l : list (str * str)) (t : template) : Prop :=
  exists before source after, l = before ++ (s2b "fuzz", source) :: after /\ engine_compile source e = Ok t /\
    forall s, In (s2b "fuzz", s) after -> fails e s.
Lemma includes_added e0 l : engine_for default_syntax e0 -> Forall (fun p => valid_utf8 (snd p)) l -> forall e t done, engine_for default_syntax e -> en_searcher e = en_searcher e0 ->
  map_get (s2b "fuzz") (en_templates e) = Some t -> last_fuzz e0 done t ->
  exists e' t', fuzz_includes l e = Ok e' /\ engine_for default_syntax e' /\ map_get (s2b "fuzz") (en_templates e') = Some t' /\ last_fuzz e0 (done ++ l) t'.
Proof.
  intros He0 Hl. destruct (C02_compile_total default_syntax default_user_syntax default_closers_ok) as (_ & H).
  induction Hl as [|[name data] l Hv _ IH]; intros e t done He Hs Hg Hd; [exists e, t; rewrite app_nil_r; auto|]. cbn [snd] in Hv. cbn [fuzz_includes].
  pose proof (proj2 (H e data name He Hv)) as F. pose proof (ef_template _ name data e Hv He) as He'.
  assert (Ec : engine_compile data e = engine_compile data e0) by (unfold engine_compile; now rewrite Hs).
  replace (done ++ (name, data) :: l) with ((done ++ [(name, data)]) ++ l) by (rewrite <- app_assoc; reflexivity).
  unfold add_template in *. rewrite Ec in *. destruct (engine_compile data e0) as [t1|er| |] eqn:E1; cbn [fst snd] in *; try contradiction.
  - destruct (str_eqb (s2b "fuzz") name) eqn:E.
    + apply str_eqb_eq in E. subst name. apply (IH _ t1); [exact He'|exact Hs|cbn [set_templates en_templates]; now rewrite map_get_insert_same|].
      exists done, data, []. split; [reflexivity|]. split; [exact E1|]. intros s [].
    + assert (N : s2b "fuzz" <> name) by (intros K; apply str_eqb_eq in K; congruence).
      apply (IH _ t); [exact He'|exact Hs| |].
      * cbn [set_templates en_templates]. rewrite map_get_insert_other; [exact Hg|congruence].
      * destruct Hd as (b & src & a & -> & K1 & K2). exists b, src, (a ++ [(name, data)]). split; [now rewrite <- app_assoc|]. split; [exact K1|].
        intros s Hi. apply in_app_or in Hi as [Hi|[Hi|[]]]; [now apply K2|]. injection Hi as Hi _. congruence.
  - apply (IH _ t); auto. destruct Hd as (b & src & a & -> & K1 & K2). exists b, src, (a ++ [(name, data)]). split; [now rewrite <- app_assoc|]. split; [exact K1|].
    intros s Hi. apply in_app_or in Hi as [Hi|[Hi|[]]]; [now apply K2|]. injection Hi as _ <-. exists er. exact E1.
Qed.
(** C68.  The render target returns for all texts and all data: there is no renderer only if the
    root does not compile; otherwise it is one for the template "fuzz" (the root, or the last of the
    others with that name that compiles), with the value of the data. *)
Theorem C68_render root includes v :
  valid_utf8 root -> Forall (fun p => valid_utf8 (snd p)) includes ->
  exists e, engine_new = Ok e /\
  ((fuzz_render root includes v = Ok None /\ fails e root) \/
  exists inner g, fuzz_render root includes v = Ok (Some (inner, g)) /\
    well_made inner (fun _ => default_syntax) /\ last_fuzz e ((s2b "fuzz", root) :: includes) (ri_template inner) /\ ri_template_name inner = Some (s2b "fuzz") /\ initial_stack g = initial_stack (GBorrowed (fuzz_meaning v))).
Proof.
  intros Hv Hi. destruct (C02_compile_total default_syntax default_user_syntax default_closers_ok) as ((e & E) & H).
  exists e. unfold fuzz_render. unfold engine_new. rewrite E. cbn [bind]. split; [reflexivity|].
  pose proof (ef_new _ _ E) as He. pose proof (proj2 (H e root (s2b "fuzz") He Hv)) as F. pose proof (ef_template _ (s2b "fuzz") root e Hv He) as He'.
  unfold add_template in *. destruct (engine_compile root e) as [t|er| |] eqn:Ec; cbn [fst snd] in *; try contradiction; [right|left; split; [reflexivity|exists er; exact Ec]].
  destruct (includes_added e includes He Hi _ t [(s2b "fuzz", root)] He' eq_refl) as (e' & t' & Ei & Hf & Eg & Hl).
  { cbn [set_templates en_templates]. now rewrite map_get_insert_same. }
  { exists [], root, []. split; [reflexivity|]. split; [exact Ec|]. intros s []. }
  rewrite Ei. cbn [bind]. unfold engine_template, engine_get_template. rewrite Eg.
  cbn [option_map unwrap bind]. rewrite C68_data. eexists. eexists. split; [reflexivity|]. split; [|split; [exact Hl|split; reflexivity]].
  apply engine_well_made; [exact default_user_syntax|intros ? ? _; apply default_trims_ok|exact Hf|].
  exact (engine_templates _ _ default_user_syntax Hf (s2b "fuzz") _ (map_get_In _ _ _ Eg) (default_trims_ok _)).
Qed.
(** C68.  If the target rendered, rendering would end, and would not panic if no [include] without a
    [with] of its own stands in a [with] block. *)
Theorem C68_rendering root includes v inner g :
  valid_utf8 root -> Forall (fun p => valid_utf8 (snd p)) includes -> fuzz_render root includes v = Ok (Some (inner, g)) ->
  (exists r, renders inner g r) /\
  ((forall t s, provided inner t -> derives default_syntax (t_source t) s -> sharing_all false s) -> forall r, renders inner g r -> finished r).
Proof.
  intros Hv Hi E. destruct (C68_render root includes v Hv Hi) as (e & _ & [(E' & _)|(inner' & g' & E' & W & _ & _ & G)]); rewrite E in E'; [discriminate E'|].
  injection E' as <- <-. split.
  - apply (C12_rendering_terminates inner _ g W). rewrite G. discriminate.
  - intros Hs. apply (C13_rendering_never_panics_partial inner _ g W Hs). rewrite G. exact I.
Qed.
End C68.
Print Assumptions C68_data.
Print Assumptions C68_compile.
Print Assumptions C68_render.
Print Assumptions C68_rendering.

(** ** Concrete cases *)
Local Existing Instance ascii_ext.
(** Data for which the target returns, although rendering panics: the target cannot find it. *)
Definition fuzz_root : str := s2b "{% with Integer as n %}{% include ""inner"" %}{% endwith %}".
Definition fuzz_others : list (str * str) := [(s2b "broken", s2b "{% if %}"); (s2b "inner", s2b "{{ y }}")].
Lemma target_renders fuel (x : res (option (renderer_inner * globals))) r : r <> OutOfFuel ->
  match x with Ok (Some (inner, g)) => to_string fuel inner g | _ => OutOfFuel end = r ->
  exists inner g, x = Ok (Some (inner, g)) /\ renders inner g r.
Proof.
  intros Hr E. destruct x as [[[inner g]|]| | |]; try congruence. exists inner, g. split; [reflexivity|]. exact (renders_by _ fuel _ _ E Hr).
Qed.
Example C68_missed : exists inner g, fuzz_render fuzz_root fuzz_others (FInteger 1) = Ok (Some (inner, g)) /\ renders inner g Panic.
Proof. apply (target_renders 50); [discriminate|]. vm_compute. reflexivity. Qed.
(** The data of Arbitrary is wrapped: templates that render well see the tags. *)
Example C68_good : match fuzz_render (s2b "{% for x in List %}{% include ""inner"" %}{% endfor %}") [(s2b "inner", s2b "[{{ x.Integer }}]")] (FList [FInteger 1; FInteger 2]) with
  Ok (Some (inner, g)) => to_string 100 inner g | _ => Panic end = Ok (s2b "[1][2]").
Proof. vm_compute. reflexivity. Qed.
Example C68_no_renderer : fuzz_render (s2b "{% if %}") [] FNone = Ok None /\ valid_utf8 fuzz_root.
Proof. split; [vm_compute; reflexivity|]. apply asciib_valid. vm_compute. reflexivity. Qed.
