(** The code's lookup follows the rules of LookupSpec.v. *)
From Verif Require Import Base Utf8 Ext Errors Value Ast Wp AstOk Fmt Stack LookupSpec RenderErr.

Lemma str_eqb_ne (a b : str) : a <> b -> str_eqb a b = false.
Proof. intros H. now apply str_eqb_neq. Qed.

Section LookupProof.
Context `{X : Ext}.
Variable source : str.
Notation sok := (span_ok source).

Lemma names_ok m : member_ok source m -> (exists k, names source m k) \/ exists i, indexes m i.
Proof.
  intros (H & _). destruct (mb_access m) as [i sp|id] eqn:E; [right; exists i, sp; auto|left].
  exists (sub source (sp_m (id_span id)) (sp_n (id_span id))), id. split; auto. rewrite index_span_ok; auto.
Qed.
Lemma names_fun m k k' : names source m k -> names source m k' -> k = k'.
Proof. intros (id & E & H) (id' & E' & H'). congruence. Qed.
Lemma indexes_fun m i i' : indexes m i -> indexes m i' -> i = i'.
Proof. intros (sp & E) (sp' & E'). congruence. Qed.
Lemma names_indexes m k i : names source m k -> indexes m i -> False.
Proof. intros (id & E & _) (sp & E'). congruence. Qed.
Lemma list_get_nth {A} (l : list A) i : list_get l i = nth_error l (N.to_nat i).
Proof.
  unfold list_get. destruct (i <? N.of_nat (length l))%N eqn:E; auto. apply N.ltb_ge in E. symmetry. apply nth_error_None. lia.
Qed.

(** One member. *)
Lemma lookup_index v m i : indexes m i -> lookup source v m =
  match v with
  | VList l => match nth_error l (N.to_nat i), mb_op m with
    | Some x, _ => Ok (Some x) | None, Optional => Ok None
    | None, Direct => err_render (s2b "index out of bounds, the length is " ++ show_nat (length l)) source (mb_span m) end
  | v => err_render (human v ++ s2b " does not support integer-based access") source (mb_span m)
  end.
Proof. intros (sp & E). unfold lookup. rewrite E. destruct v; auto. now rewrite list_get_nth. Qed.
Lemma lookup_key v m k : names source m k -> lookup source v m =
  match v with
  | VMap mp => match map_get k mp, mb_op m with
    | Some x, _ => Ok (Some x) | None, Optional => Ok None
    | None, Direct => err_render (s2b "not found in map") source (mb_span m) end
  | v => err_render (human v ++ s2b " does not support key-based access") source (mb_span m)
  end.
Proof.
  intros (id & E & H). unfold lookup. rewrite E. destruct v; auto. unfold index_span in *.
  destruct (slice source _ _); try discriminate. injection H as ->. reflexivity.
Qed.

Lemma walks_total ms : Forall (member_ok source) ms -> forall v, exists w, walks source v ms w.
Proof.
  induction 1 as [|m ms Hm _ IH]; intros v; [eexists; constructor|].
  destruct (names_ok m Hm) as [(k & Hk)|(i & Hi)].
  - assert (D : (exists mp, v = VMap mp) \/ forall mp, v <> VMap mp) by (destruct v; eauto; right; discriminate).
    destruct D as [(mp & ->)|D]; [|eexists; eapply w_not_map; eauto].
    destruct (map_get k mp) as [x|] eqn:E.
    + destruct (IH x) as (w & Hw). eexists. eapply w_key; eauto.
    + destruct (mb_op m) eqn:Eo; eexists; [eapply w_no_key|eapply w_no_key_opt]; eauto.
  - assert (D : (exists mp, v = VList mp) \/ forall mp, v <> VList mp) by (destruct v; eauto; right; discriminate).
    destruct D as [(mp & ->)|D]; [|eexists; eapply w_not_list; eauto].
    destruct (nth_error mp (N.to_nat i)) as [x|] eqn:E.
    + destruct (IH x) as (w & Hw). eexists. eapply w_index; eauto.
    + destruct (mb_op m) eqn:Eo; eexists; [eapply w_no_index|eapply w_no_index_opt]; eauto.
Qed.
Lemma walks_fun v ms w : walks source v ms w -> forall w', walks source v ms w' -> w = w'.
Proof.
  induction 1; inversion 1; subst; auto;
  repeat match goal with
  | H : names source ?m ?k, H' : names source ?m ?k' |- _ => assert (k = k') by (eapply names_fun; eauto); subst k'; clear H'
  | H : indexes ?m ?k, H' : indexes ?m ?k' |- _ => assert (k = k') by (eapply indexes_fun; eauto); subst k'; clear H'
  | H : names source ?m ?k, H' : indexes ?m ?k' |- _ => exfalso; eapply names_indexes; eauto; fail
  | H : forall l, ?v _ <> _ |- _ => now destruct (H _ eq_refl)
  end; try congruence; try (exfalso; match goal with H : forall l, _ <> _ |- _ => eapply H; reflexivity end).
  - apply IHwalks. congruence.
  - apply IHwalks. congruence.
Qed.

Definition walk_result {A} (f : option value -> A) (w : walked) : res A :=
  match w with WFound x => Ok (f (Some x)) | WAbsent => Ok (f None) | WStuck r sp => err_render r source sp end.
Lemma err_render_bind {A B} r sp (f : A -> res B) : (let* a := @err_render X A r source sp in f a) = err_render r source sp.
Proof. unfold err_render. now destruct (build_pretty _ _). Qed.

Lemma resolve_walks v ms w : walks source v ms w -> resolve source v ms = walk_result (fun x => x) w.
Proof.
  induction 1; cbn [resolve walk_result]; auto;
  try (erewrite lookup_index by eauto); try (erewrite lookup_key by eauto).
  - rewrite H0. cbn [bind]. exact IHwalks.
  - rewrite H0. cbn [bind]. exact IHwalks.
  - rewrite H0, H1. apply err_render_bind.
  - rewrite H0, H1. reflexivity.
  - rewrite H0, H1. apply err_render_bind.
  - rewrite H0, H1. reflexivity.
  - destruct v; try apply err_render_bind. now destruct (H0 l).
  - destruct v; try apply err_render_bind. now destruct (H0 m0).
Qed.
Lemma path_walks o v ms w : walks source v ms w -> forall a, answers o w a -> lookup_path_loop source o v ms = answer_result source a.
Proof.
  induction 1; intros a Ha; cbn [lookup_path_loop]; auto;
  try (erewrite lookup_index by eauto); try (erewrite lookup_key by eauto); try (inversion Ha; subst; cbn [answer_result]).
  - reflexivity.
  - rewrite H0. cbn [bind]. rewrite (IHwalks _ Ha). reflexivity.
  - rewrite H0. cbn [bind]. rewrite (IHwalks _ Ha). reflexivity.
  - rewrite H0. cbn [bind]. rewrite (IHwalks _ Ha). reflexivity.
  - rewrite H0. cbn [bind]. rewrite (IHwalks _ Ha). reflexivity.
  - rewrite H0. cbn [bind]. rewrite (IHwalks _ Ha). reflexivity.
  - rewrite H0. cbn [bind]. rewrite (IHwalks _ Ha). reflexivity.
  - rewrite H0, H1. apply err_render_bind.
  - rewrite H0, H1. reflexivity.
  - rewrite H0, H1. apply err_render_bind.
  - rewrite H0, H1. reflexivity.
  - destruct v; try apply err_render_bind. now destruct (H0 l).
  - destruct v; try apply err_render_bind. now destruct (H0 m0).
Qed.
Lemma maybe_walks o v ms w : walks source v ms w -> forall a, answers o w a ->
  lookup_path_maybe_loop source o v ms false = let* c := answer_result source a in Ok (Some c).
Proof.
  induction 1; intros a Ha; cbn [lookup_path_maybe_loop]; auto;
  try (erewrite lookup_index by eauto); try (erewrite lookup_key by eauto).
  - inversion Ha; subst. reflexivity.
  - rewrite H0. exact (IHwalks _ Ha).
  - rewrite H0. exact (IHwalks _ Ha).
  - rewrite H0, H1. inversion Ha; subst. cbn [answer_result]. unfold err_render. now destruct (build_pretty _ _).
  - rewrite H0, H1. inversion Ha; subst. reflexivity.
  - rewrite H0, H1. inversion Ha; subst. cbn [answer_result]. unfold err_render. now destruct (build_pretty _ _).
  - rewrite H0, H1. inversion Ha; subst. reflexivity.
  - inversion Ha; subst. cbn [answer_result]. destruct v; try (unfold err_render; now destruct (build_pretty _ _)). now destruct (H0 l).
  - inversion Ha; subst. cbn [answer_result]. destruct v; try (unfold err_render; now destruct (build_pretty _ _)). now destruct (H0 m0).
Qed.

Hypothesis Hne : source <> [].
Variable first : member.
Variable name : str.
Variable rest : list member.
Hypothesis Hop : mb_op first = Direct.
Hypothesis Hname : names source first name.
Hypothesis Hok : Forall (member_ok source) (first :: rest).

Lemma err_render_ok {A} r sp : sok sp -> exists e, @err_render X A r source sp = Err e.
Proof. intros H. unfold err_render. destruct (build_pretty_ok source sp Hne H) as (p & E). rewrite E. cbn. eauto. Qed.
Lemma first_span : sok (mb_span first).
Proof. inversion Hok as [|? ? (_ & H) _]. exact H. Qed.

Lemma scope_none c : entry (cow_val c) name = None -> lookup_path_maybe source c (first :: rest) = Ok None.
Proof.
  intros E. unfold lookup_path_maybe. cbn [lookup_path_maybe_loop]. rewrite (lookup_key _ _ _ Hname).
  destruct (cow_val c); cbn [entry] in E; try (edestruct (@err_render_ok (option value)) as (e & Ee); [exact first_span|rewrite Ee; reflexivity]).
  rewrite E, Hop. edestruct (@err_render_ok (option value)) as (e & Ee); [exact first_span|rewrite Ee; reflexivity].
Qed.
Lemma scope_some c x w a : entry (cow_val c) name = Some x -> walks source x rest w -> answers (is_owned c) w a ->
  lookup_path_maybe source c (first :: rest) = let* r := answer_result source a in Ok (Some r).
Proof.
  intros E Hw Ha. unfold lookup_path_maybe. cbn [lookup_path_maybe_loop]. rewrite (lookup_key _ _ _ Hname).
  destruct (cow_val c); cbn [entry] in E; try discriminate. rewrite E. now apply maybe_walks with w.
Qed.
Lemma index_name : exists id, mb_access first = AKey id /\ @index_span error source (id_span id) = Ok name.
Proof. exact Hname. Qed.

Lemma loop_answers_spec i rem ms0 a : loop_answers source i rem ms0 a -> forall l, loop_position l = Some (i, rem) ->
  lookup_loop l source (first :: ms0) = let* r := answer_result source a in Ok (Some r).
Proof.
  intros H l Hl. assert (Hc : current_index_and_rem l = Some (i, rem)).
  { destruct l as [o i' n it [[k x]|]|o kn vn n it [[k [ky x]]|]]; cbn in *; congruence. }
  unfold lookup_loop. rewrite Hc. clear Hc Hl. destruct H as [|m k v H1 H2|m k H1 H2 H3|m ms k H1 H2 H3|m ms n H1|m m2 ms k v H1 H2|m m2 ms k H1 H2 H3].
  - cbn. reflexivity.
  - destruct H1 as (id & E & En). rewrite E. rewrite En. cbn [bind]. unfold loop_field in H2.
    destruct (str_eqb k (s2b "index")); [injection H2 as <-; reflexivity|].
    destruct (str_eqb k (s2b "first")); [injection H2 as <-; reflexivity|].
    destruct (str_eqb k (s2b "last")); [injection H2 as <-; reflexivity|]. discriminate.
  - destruct H1 as (id & E & En). rewrite E. rewrite En. cbn [bind]. unfold loop_field in H2.
    destruct (str_eqb k (s2b "index")); [discriminate|].
    destruct (str_eqb k (s2b "first")); [discriminate|].
    destruct (str_eqb k (s2b "last")); [discriminate|]. rewrite H3. reflexivity.
  - destruct H1 as (id & E & En). rewrite E. rewrite En. cbn [bind]. unfold loop_field in H2.
    destruct (str_eqb k (s2b "index")); [discriminate|].
    destruct (str_eqb k (s2b "first")); [discriminate|].
    destruct (str_eqb k (s2b "last")); [discriminate|]. rewrite H3. cbn [answer_result]. unfold err_render. now destruct (build_pretty _ _).
  - destruct H1 as (sp & E). rewrite E. cbn [answer_result]. unfold err_render. now destruct (build_pretty _ _).
  - destruct H1 as (id & E & En). rewrite E. rewrite En. cbn [bind]. unfold loop_field in H2. cbn [answer_result].
    destruct (str_eqb k (s2b "index")); [injection H2 as <-; unfold err_render; now destruct (build_pretty _ _)|].
    destruct (str_eqb k (s2b "first")); [injection H2 as <-; unfold err_render; now destruct (build_pretty _ _)|].
    destruct (str_eqb k (s2b "last")); [injection H2 as <-; unfold err_render; now destruct (build_pretty _ _)|]. discriminate.
  - destruct H1 as (id & E & En). rewrite E. rewrite En. cbn [bind]. unfold loop_field in H2.
    destruct (str_eqb k (s2b "index")); [discriminate|].
    destruct (str_eqb k (s2b "first")); [discriminate|].
    destruct (str_eqb k (s2b "last")); [discriminate|]. rewrite H3. cbn [answer_result]. unfold err_render. now destruct (build_pretty _ _).
Qed.

(** A loop frame that does not have the name. *)
Lemma bind_some a : (let* r := (let* c := answer_result source a in Ok (Some c)) in match r with Some x => Ok x | None => @Panic error cow end) = answer_result source a.
Proof. destruct a; cbn [answer_result bind]; auto. unfold err_render. now destruct (build_pretty _ _). Qed.

Lemma value_path_reads ms path : Forall2 (reads source) ms path -> value_path source ms = Ok path.
Proof.
  induction 1 as [|m vm ms path Hm _ IH]; cbn [value_path]; auto. rewrite IH. destruct Hm as [(k & (id & E & En) & ->)|(i & (sp & E) & ->)]; rewrite E.
  - rewrite En. reflexivity.
  - reflexivity.
Qed.
Lemma reads_total ms : Forall (member_ok source) ms -> exists path, Forall2 (reads source) ms path.
Proof.
  induction 1 as [|m ms Hm _ (path & IH)]; [eexists; constructor|]. destruct (names_ok m Hm) as [(k & Hk)|(i & Hi)]; eexists; constructor; eauto.
  - left. eauto.
  - right. eauto.
Qed.
Lemma reads_fun m vm vm' : reads source m vm -> reads source m vm' -> vm = vm'.
Proof.
  intros [(k & H & ->)|(i & H & ->)] [(k' & H' & ->)|(i' & H' & ->)].
  - now rewrite (names_fun _ _ _ H H').
  - exfalso. eapply names_indexes; eauto.
  - exfalso. eapply names_indexes; eauto.
  - now rewrite (indexes_fun _ _ _ H H').
Qed.
Lemma reads_all_fun ms path : Forall2 (reads source) ms path -> forall path', Forall2 (reads source) ms path' -> path = path'.
Proof.
  induction 1; inversion 1; subst; auto. f_equal; auto. eapply reads_fun; eauto.
Qed.
Lemma last_hd {A} (l : list A) d : hd_error (rev (d :: l)) = Some (last l d).
Proof.
  destruct (exists_last (l := d :: l)) as (pre & x & E); [discriminate|]. rewrite E, rev_app_distr. cbn. f_equal.
  assert (H : last (d :: l) d = x) by (rewrite E; apply last_last). destruct l; cbn in *; auto. 
Qed.
Lemma var_span_last : @var_span error (first :: rest) = Ok (combine_span (mb_span first) (mb_span (last rest first))).
Proof. unfold var_span, var_first, var_last. cbn [hd_error unwrap bind]. now rewrite last_hd. Qed.

(** ** Soundness *)
Lemma loop_frame l : loop_lookup_var l source (first :: rest) =
  if str_eqb name (s2b "loop") then lookup_loop l source (first :: rest)
    else
      match l with
      | LList o i _ _ (Some (_, value)) =>
        if str_eqb name i then
          let* r := resolve source value rest in
          Ok (option_map (mk_cow o) r)
        else Ok None
      | LMap o k vn _ _ (Some (_, (key, value))) =>
        if str_eqb name k then
          match rest with
          | m :: _ => err_render (s2b "cannot index into string") source (mb_span m)
          | [] => Ok (Some (Owned (VStr key)))
          end
        else if str_eqb name vn then
          let* r := resolve source value rest in
          Ok (option_map (mk_cow o) r)
        else Ok None
      | _ => Ok None
      end.
Proof.
  destruct index_name as (id & E & En). unfold loop_lookup_var. cbn [var_first hd_error unwrap bind var_rest tl]. rewrite E, En. reflexivity.
Qed.
Lemma looks_sound st a : looks source first name rest st a -> lookup_var st source (first :: rest) = answer_result source a.
Proof.
  destruct index_name as (fid & Ef & Enf).
  induction 1; cbn [lookup_var].
  - reflexivity.
  - reflexivity.
  - cbn [var_first hd_error unwrap bind]. rewrite Ef. cbn [access_span]. rewrite Enf, H. cbn [bind]. rewrite str_eqb_refl.
    cbn [var_rest tl]. eapply path_walks; eauto.
  - cbn [var_first hd_error unwrap bind]. rewrite Ef. cbn [access_span]. rewrite Enf, H. cbn [bind]. rewrite str_eqb_ne by congruence. exact IHlooks.
  - rewrite (scope_some _ _ _ _ H H0 H1). destruct a; cbn [answer_result bind]; auto. unfold err_render. now destruct (build_pretty _ _).
  - rewrite (scope_none _ H). exact IHlooks.
  - rewrite loop_frame. subst name. rewrite str_eqb_refl. rewrite (loop_answers_spec _ _ _ _ H1 _ H0).
    destruct a; cbn [answer_result bind]; auto. unfold err_render. now destruct (build_pretty _ _).
  - rewrite loop_frame. rewrite (str_eqb_ne name) by auto. pose proof (resolve_walks _ _ _ H1) as Hr.
    assert (E : (let* r := resolve source x rest in Ok (option_map (mk_cow o) r)) = let* r := answer_result source a in Ok (Some r)).
    { rewrite Hr. inversion H3; subst; cbn [walk_result answer_result bind option_map]; auto; [congruence|].
      unfold err_render. now destruct (build_pretty _ _). }
    assert (F : (let* r := (let* r := resolve source x rest in Ok (option_map (mk_cow o) r)) in match r with Some x => Ok x | None => lookup_var st source (first :: rest) end) = answer_result source a).
    { rewrite E. destruct a; cbn [answer_result bind]; auto. unfold err_render. now destruct (build_pretty _ _). }
    destruct l as [o' i' n it [[k y]|]|o' kn vn n it [[k [ky y]]|]]; cbn [loop_item] in H0; try discriminate.
    + destruct (str_eqb name i'); [|discriminate]. injection H0 as -> ->. exact F.
    + destruct (str_eqb name kn); [discriminate|]. destruct (str_eqb name vn); [|discriminate]. injection H0 as -> ->. exact F.
  - rewrite loop_frame. rewrite (str_eqb_ne name) by auto. pose proof (resolve_walks _ _ _ H1) as Hr. cbn [walk_result] in Hr.
    destruct l as [o' i' n it [[k y]|]|o' kn vn n it [[k [ky y]]|]]; cbn [loop_item] in H0; try discriminate.
    + destruct (str_eqb name i'); [|discriminate]. injection H0 as -> ->. rewrite Hr. exact IHlooks.
    + destruct (str_eqb name kn); [discriminate|]. destruct (str_eqb name vn); [|discriminate]. injection H0 as -> ->. rewrite Hr. exact IHlooks.
  - rewrite loop_frame. rewrite (str_eqb_ne name) by auto. rewrite H1.
    destruct l as [o' i' n it [[j y]|]|o' kn vn n it [[j [ky y]]|]]; cbn [loop_key] in H0; try discriminate.
    destruct (str_eqb name kn); [|discriminate]. injection H0 as ->. reflexivity.
  - rewrite loop_frame. rewrite (str_eqb_ne name) by auto. rewrite H1.
    destruct l as [o' i' n it [[j y]|]|o' kn vn n it [[j [ky y]]|]]; cbn [loop_key] in H0; try discriminate.
    destruct (str_eqb name kn); [|discriminate]. cbn [answer_result]. unfold err_render. now destruct (build_pretty _ _).
  - rewrite loop_frame. destruct (str_eqb name (s2b "loop")).
    + assert (E : lookup_loop l source (first :: rest) = Ok None).
      { unfold lookup_loop. destruct l as [o' i' n it [[j y]|]|o' kn vn n it [[j [ky y]]|]]; cbn in *; try discriminate; reflexivity. }
      rewrite E. exact IHlooks.
    + destruct H as (H1 & H2).
      destruct l as [o' i' n it [[j y]|]|o' kn vn n it [[j [ky y]]|]]; cbn [loop_item loop_key] in *; try exact IHlooks.
      * destruct (str_eqb name i'); [discriminate|exact IHlooks].
      * destruct (str_eqb name kn); [discriminate|]. destruct (str_eqb name vn); [discriminate|]. exact IHlooks.
  - rewrite (value_path_reads _ _ H). cbn [bind]. rewrite H0. reflexivity.
  - rewrite (value_path_reads _ _ H). cbn [bind]. rewrite H0, var_span_last. reflexivity.
Qed.

(** ** Totality *)
Lemma answers_total o w : exists a, answers o w a.
Proof. destruct w; eexists; constructor. Qed.
Lemma loop_answers_total i rem ms0 : Forall (member_ok source) ms0 -> exists a, loop_answers source i rem ms0 a.
Proof.
  intros Hr. destruct ms0 as [|m ms]; [eexists; constructor|]. inversion Hr as [|? ? Hm _]; subst.
  destruct (names_ok m Hm) as [(k & Hk)|(n & Hn)]; [|eexists; eapply la_index; eauto].
  destruct (loop_field i rem k) as [v|] eqn:E.
  - destruct ms; eexists; [eapply la_field|eapply la_field_more]; eauto.
  - destruct (mb_op m) eqn:Eo; [eexists; eapply la_unknown; eauto|]. destruct ms; eexists; [eapply la_unknown_opt|eapply la_unknown_more]; eauto.
Qed.
Lemma looks_total st : vars_here source st -> exists a, looks source first name rest st a.
Proof.
  assert (Hr : Forall (member_ok source) rest) by (now inversion Hok).
  unfold vars_here. induction st as [|fr st IH]; intros Hv; [eexists; constructor|].
  destruct fr as [f|c|id c|l|]; cbn [visible] in Hv.
  - destruct (reads_total _ Hok) as (path & Hp). destruct (f path) as [v|r] eqn:E; eexists; [eapply lk_fn|eapply lk_fn_error]; eauto.
  - inversion Hv; subst. destruct (entry (cow_val c) name) as [x|] eqn:E.
    + destruct (walks_total _ Hr x) as (w & Hw). destruct (answers_total (is_owned c) w) as (a & Ha). eexists. eapply lk_scope; eauto.
    + destruct IH as (a & Ha); auto. eexists. eapply lk_scope_other; eauto.
  - inversion Hv as [|? ? Hid Hv']; subst.
    destruct (str_eq_dec (sub source (sp_m (id_span id)) (sp_n (id_span id))) name) as [En|En].
    + destruct (walks_total _ Hr (cow_val c)) as (w & Hw). destruct (answers_total (is_owned c) w) as (a & Ha).
      eexists. eapply lk_with; eauto. rewrite index_span_ok by auto. now rewrite En.
    + destruct IH as (a & Ha); auto. eexists. eapply lk_with_other; eauto. now rewrite index_span_ok.
  - inversion Hv; subst. destruct (IH H2) as (a0 & Ha0). destruct (str_eq_dec name (s2b "loop")) as [En|En].
    + destruct (loop_position l) as [[i rem]|] eqn:E.
      * destruct (loop_answers_total i rem rest Hr) as (a & Ha). eexists. eapply lk_loop; eauto.
      * eexists. eapply lk_loop_other; eauto. subst name. now rewrite str_eqb_refl.
    + destruct (loop_item l name) as [[o x]|] eqn:E.
      * destruct (walks_total _ Hr x) as (w & Hw). destruct (answers_total o w) as (a & Ha).
        assert (D : w = WAbsent \/ w <> WAbsent) by (destruct w; auto; right; discriminate).
        destruct D as [->|D]; eexists; [eapply lk_item_absent|eapply lk_item]; eauto.
      * destruct (loop_key l name) as [k|] eqn:Ek.
        -- assert (D : rest = [] \/ exists m ms, rest = m :: ms) by (destruct rest; eauto).
           destruct D as [D|(m & ms & D)]; eexists; [eapply lk_key|eapply lk_key_more]; eauto.
        -- eexists. eapply lk_loop_other; eauto. rewrite str_eqb_ne by auto. auto.
  - eexists. constructor.
Qed.

(** ** Determinism *)
Lemma answers_fun o w a a' : answers o w a -> answers o w a' -> a = a'.
Proof. inversion 1; subst; inversion 1; auto. Qed.
Lemma loop_answers_fun i rem ms0 a a' : loop_answers source i rem ms0 a -> loop_answers source i rem ms0 a' -> a = a'.
Proof.
  intros H H'. inversion H; subst; inversion H'; subst; auto;
  repeat match goal with
  | H : names source ?m ?k, H' : names source ?m ?k' |- _ => assert (k = k') by (eapply names_fun; eauto); subst k'; clear H'
  | H : names source ?m ?k, H' : indexes ?m ?k' |- _ => exfalso; eapply names_indexes; eauto; fail
  end; try congruence.
Qed.
Lemma looks_fun st a : looks source first name rest st a -> forall a', looks source first name rest st a' -> a = a'.
Proof.
  induction 1; inversion 1; subst; auto; try congruence;
  repeat match goal with
  | H : walks source ?v ?m ?w, H' : walks source ?v ?m ?w' |- _ => assert (w = w') by (eapply walks_fun; eauto); subst w'; clear H'
  end; try congruence; try (eapply answers_fun; eauto; fail).
  all: try match goal with H : ?x = Some (?p, ?q), H' : ?x = Some (?p', ?q') |- _ => rewrite H in H'; injection H' as <- <- end.
  all: repeat match goal with
  | H : walks source ?v ?m ?w, H' : walks source ?v ?m ?w' |- _ => assert (w = w') by (eapply walks_fun; eauto); subst; clear H'
  end; try congruence; try (eapply answers_fun; eauto; fail); try (eapply loop_answers_fun; eauto; fail).
  all: try match goal with H : entry _ _ = Some _, H' : entry _ _ = Some _ |- _ => rewrite H in H'; injection H' as <- end.
  all: repeat match goal with
  | H : walks source ?v ?m ?w, H' : walks source ?v ?m ?w' |- _ => assert (w = w') by (eapply walks_fun; eauto); subst; clear H'
  end; try congruence; try (eapply answers_fun; eauto; fail).
  all: try (exfalso; match goal with H : context [str_eqb ?n (s2b "loop")] |- _ => 
     (rewrite (str_eqb_ne n) in H by auto; destruct H; unfold loop_item, loop_key in *; congruence) || (rewrite ?str_eqb_refl in H; congruence) end).
  all: try (match goal with H : Forall2 _ ?x ?p, H' : Forall2 _ ?x ?p' |- _ => assert (p = p') by (eapply reads_all_fun; eauto); subst end; congruence).
  all: try (exfalso; match goal with H : loop_item ?l ?n = Some _, H' : loop_key ?l ?n = Some _ |- _ => destruct l as [? ? ? ? [[? ?]|]|? ? ? ? ? [[? [? ?]]|]]; cbn in H, H'; try discriminate; destruct (str_eqb n _); discriminate end).
Qed.
End LookupProof.
