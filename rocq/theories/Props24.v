(** C51: the crate with and without the feature "unicode". *)
From Verif Require Import Base Utf8 Ext Errors Syntax AhoCorasick SearchSpec SyntaxSpec Value Ast Lexer LexSpec Wp LexProof
  GrammarSpec Parser AstOk Compiler CompileProof ParseMain Fmt Stack Filters Render Engine EngineSpec CompileFacts
  RenderObs Props2 FeatureSpec Feature FeatureC FeatureE.

Section C51.
(** [U]: the build with "unicode", [A]: the build without. *)
Variables U A : Ext.
Hypothesis Hb : two_builds U A.
Hypothesis Hno : no_unicode A.
Variable sx : syntax.
Hypothesis Hu : user_syntax sx.

(** C51.  Both builds create the same engine. *)
Theorem C51_same_engine : @engine_with_syntax U sx = @engine_with_syntax A sx.
Proof. apply with_syntax_same. exact (tb_display _ _ Hb). Qed.

(** C51.  A template compiles without "unicode" exactly if it compiles with it and its identifiers
    are ASCII, and then to the same program. *)
Theorem C51_compile e source t : ascii_delimiters sx -> @engine_for U sx e -> valid_utf8 source -> trims_ok sx source ->
  (@engine_compile A source e = Ok t <-> @engine_compile U source e = Ok t /\ ascii_identifiers U sx source).
Proof.
  intros Ha He Hv Ht. unfold engine_compile. apply compile_both; auto. exact (@engine_searcher U _ _ He).
Qed.
Theorem C51_add_template e name source e' : ascii_delimiters sx -> @engine_for U sx e -> valid_utf8 source -> trims_ok sx source ->
  (@add_template A name source e = (e', Ok tt) <-> @add_template U name source e = (e', Ok tt) /\ ascii_identifiers U sx source).
Proof.
  intros Ha He Hv Ht. pose proof (fun t => C51_compile e source t Ha He Hv Ht) as H. unfold add_template. split.
  - destruct (@engine_compile A source e) as [t| | |] eqn:E; intros K; try discriminate K.
    destruct (proj1 (H t) eq_refl) as (-> & Hi). auto.
  - intros (K & Hi). destruct (@engine_compile U source e) as [t| | |] eqn:E; try discriminate K.
    rewrite (proj2 (H t) (conj eq_refl Hi)). exact K.
Qed.
(** Every engine made in the build without "unicode" can be made in the other one. *)
Theorem C51_engines e : ascii_delimiters sx -> closers_ok sx -> @engine_for A sx e -> @engine_for U sx e.
Proof.
  intros Ha Hc. induction 1 as [e H|n e _ IH|f e _ IH|n f e _ IH|n f e _ IH|n e _ IH|n s e Hv H0 IH|n e _ IH].
  - apply ef_new. now rewrite C51_same_engine.
  - now apply ef_depth.
  - now apply ef_default.
  - now apply ef_formatter.
  - now apply ef_filter.
  - now apply ef_remove_function.
  - destruct (@add_template A n s e) as [e' r] eqn:E. destruct r as [[]|er| |]; cbn [fst].
    + apply C51_add_template in E; auto using (closers_trims sx s Hc). destruct E as (E & _).
      change e' with (fst (e', @Ok error unit tt)). rewrite <- E. now apply ef_template.
    + unfold add_template in E. destruct (@engine_compile A s e); try discriminate E. injection E as <- _. exact IH.
    + unfold add_template in E. destruct (@engine_compile A s e); try discriminate E. injection E as <-. exact IH.
    + unfold add_template in E. destruct (@engine_compile A s e); try discriminate E. injection E as <-. exact IH.
  - now apply ef_remove_template.
Qed.
(** C51.  Where no identifier can be affected, compiling ends alike even if it fails: the errors
    differ at most in the place shown. *)
Theorem C51_compile_errors e source : valid_utf8 source -> only_ascii_words U source ->
  same_but_place (@engine_compile U source e) (@engine_compile A source e).
Proof.
  intros Hv Ho. unfold engine_compile. apply compile_sim; [exact (tb_parse _ _ Hb)|exact Hv|].
  intros c Hin. destruct (tb_ascii1 _ _ Hb) as (U1 & U2 & U3), Hno as (N1 & N2). destruct (N.lt_ge_cases c 128) as [Hc|Hc].
  - split.
    + intros Hd. unfold is_ident_start. destruct (c =? 95)%N eqn:E95; [reflexivity|]. cbn [orb]. rewrite N1, Hd, E95, !orb_false_r.
      destruct (@xid_start U c) eqn:E.
      * specialize (U2 c Hc E). rewrite Hd, E95, !orb_false_r in U2. now rewrite U2.
      * destruct (ascii_letter c) eqn:El; [|reflexivity]. rewrite (U1 c Hc El) in E. discriminate E.
    + unfold is_ident. now rewrite (U3 c Hc), N2.
  - destruct (Ho c Hin Hc) as (W1 & W2). unfold word_start, word_char in *. split.
    + intros Hd. unfold is_ident_start. transitivity false; [exact W1|]. symmetry. apply orb_false_intro; [apply N.eqb_neq; lia|].
      destruct (@xid_start A c) eqn:E; [|reflexivity]. rewrite N1 in E. apply word_ascii in E. lia.
    + unfold is_ident. transitivity false; [exact W2|]. symmetry. destruct (@xid_continue A c) eqn:E; [|reflexivity]. rewrite N2 in E. apply word_ascii in E. lia.
Qed.
(** C51.  The same renderer ends alike in both builds: with the same text, with a panic in both, or with errors that differ at
    most in the place shown; a writer gets the same bytes. *)
Theorem C51_render inner g r : @renders U inner g r -> exists r', @renders A inner g r' /\ same_but_place r r'.
Proof.
  intros (Hr & n & H). specialize (H n (le_n _)). pose proof (to_string_sim U A (tb_narrow _ _ Hb) inner n g) as K. rewrite H in K.
  exists (@to_string A n inner g). split; [|exact K]. split.
  - intros E. rewrite E in K. destruct r; try exact K. now apply Hr.
  - exists n. intros f Hf. apply to_string_mono; [exact Hf|]. intros E. rewrite E in K. destruct r; try exact K. now apply Hr.
Qed.
Theorem C51_write inner g k w w' r : @writes U inner g k w (w', r) -> exists r', @writes A inner g k w (w', r') /\ same_but_place r r'.
Proof.
  intros (Hr & n & H). specialize (H n (le_n _)). cbn in Hr.
  pose proof (to_writer_sim U A (tb_narrow _ _ Hb) inner n g k w) as (K1 & K2). rewrite H in K1, K2. cbn in K1, K2.
  exists (snd (@to_writer A n inner g k w)). split; [|exact K2].
  assert (E : @to_writer A n inner g k w = (w', snd (@to_writer A n inner g k w))) by (rewrite K1; apply surjective_pairing).
  assert (Hne : snd (@to_writer A n inner g k w) <> OutOfFuel) by (intros E0; rewrite E0 in K2; destruct r; try exact K2; now apply Hr).
  split; [exact Hne|]. exists n. intros f Hf. rewrite <- E. now apply to_writer_mono.
Qed.
End C51.
Print Assumptions C51_same_engine.
Print Assumptions C51_compile.
Print Assumptions C51_add_template.
Print Assumptions C51_engines.
Print Assumptions C51_compile_errors.
Print Assumptions C51_render.
Print Assumptions C51_write.

(** ** A concrete case *)
(** A build whose identifiers may contain Cyrillic letters, and in which one symbol is two columns wide. *)
Definition cyrillic_ext : Ext := {|
  xid_start := fun c => ascii_letter c || ((1024 <=? c) && (c <? 1280))%N;
  xid_continue := fun c => ascii_letter c || ascii_digit c || (c =? 95)%N || ((1024 <=? c) && (c <? 1280))%N;
  display_width := fun s => list_sum (map (fun c => if (c =? 10024)%N then 2 else 1) (chars s));
  f64_parse := @f64_parse ascii_ext; f64_display := @f64_display ascii_ext; f64_to_f32 := @f64_to_f32 ascii_ext |}.
Lemma cyrillic_builds : two_builds cyrillic_ext ascii_ext.
Proof.
  constructor; try reflexivity; [|exact ascii_ext_ok].
  split; [|split]; cbn [xid_start xid_continue cyrillic_ext].
  - intros c Hc ->. reflexivity.
  - intros c Hc H. apply orb_prop in H as [->|H]; [reflexivity|]. apply andb_prop in H as [H _]. apply N.leb_le in H. lia.
  - intros c Hc. replace ((1024 <=? c)%N) with false by (symmetry; apply N.leb_gt; lia). now rewrite andb_false_l, orb_false_r.
Qed.
Lemma ascii_no_unicode : no_unicode ascii_ext.
Proof. split; reflexivity. Qed.
Lemma default_ascii : ascii_delimiters default_syntax.
Proof. intros k p H. cbn in H. repeat (destruct H as [[= <- <-]|H]; [repeat constructor|]). destruct H. Qed.
(** "сад" and a star with a line break: the bytes of letters U+0441 U+0430 U+0434 and of U+2728 *)
Definition garden : str := flat_map encode [1089; 1072; 1076]%N.
Definition star : str := encode 10024%N ++ [x0a].
Definition outcome_kind {T} (x : res T) : nat := match x with Ok _ => 0 | Err _ => 1 | Panic => 2 | OutOfFuel => 3 end.
Definition first_try : engine := match @engine_new ascii_ext with Ok e => e | _ => mkengine [] (@fmt_default ascii_ext) [] [] 0 end.
Lemma first_for : @engine_for cyrillic_ext default_syntax first_try.
Proof. apply ef_new. vm_compute. reflexivity. Qed.

Example C51_case :
  (* Cyrillic text is fine in both builds *)
  @engine_compile ascii_ext (garden ++ s2b "{{ name }}") first_try = @engine_compile cyrillic_ext (garden ++ s2b "{{ name }}") first_try /\
  outcome_kind (@engine_compile ascii_ext (garden ++ s2b "{{ name }}") first_try) = 0 /\
  (* a Cyrillic name only in one *)
  outcome_kind (@engine_compile cyrillic_ext (s2b "{{ " ++ garden ++ s2b " }}") first_try) = 0 /\
  outcome_kind (@engine_compile ascii_ext (s2b "{{ " ++ garden ++ s2b " }}") first_try) = 1 /\
  (* a syntax error after a wide symbol: the same message in another column *)
  same_but_place (@engine_compile cyrillic_ext (star ++ s2b "{{ name | }}") first_try) (@engine_compile ascii_ext (star ++ s2b "{{ name | }}") first_try) /\
  @engine_compile cyrillic_ext (star ++ s2b "{{ name | }}") first_try <> @engine_compile ascii_ext (star ++ s2b "{{ name | }}") first_try.
Proof.
  split; [vm_compute; reflexivity|]. split; [vm_compute; reflexivity|]. split; [vm_compute; reflexivity|]. split; [vm_compute; reflexivity|]. split.
  - vm_compute. split; [|split; [|split]]; try reflexivity. split; discriminate.
  - vm_compute. discriminate.
Qed.
Example C51_only_words : only_ascii_words cyrillic_ext (star ++ s2b "{{ name | }}").
Proof.
  intros c H Hc. assert (E : chars (star ++ s2b "{{ name | }}") = [10024; 10; 123; 123; 32; 110; 97; 109; 101; 32; 124; 32; 125; 125]%N) by (vm_compute; reflexivity).
  rewrite E in H. cbn in H. repeat (destruct H as [<-|H]; [try lia; vm_compute; auto|]). destruct H.
Qed.
Definition star_page : template :=
  match @engine_compile ascii_ext (star ++ s2b "{{ name }}") first_try with Ok t => t | _ => mktemplate [] [] end.
Example C51_render_case :
  let inner := template_renderer star_page first_try in
  let named := GBorrowed (VMap [(s2b "name", VStr garden)]) in
  let empty := GBorrowed (VMap []) in
  @to_string cyrillic_ext 50 inner named = Ok (star ++ garden) /\ @to_string ascii_ext 50 inner named = Ok (star ++ garden) /\
  @to_string cyrillic_ext 50 inner empty <> @to_string ascii_ext 50 inner empty /\
  same_but_place (@to_string cyrillic_ext 50 inner empty) (@to_string ascii_ext 50 inner empty).
Proof.
  cbv zeta. split; [vm_compute; reflexivity|]. split; [vm_compute; reflexivity|]. split; [vm_compute; discriminate|].
  vm_compute. split; [|split; [|split]]; try reflexivity. split; discriminate.
Qed.
(** The condition on the delimiters is needed: where a closing delimiter begins with a letter,
    that letter may belong to the name before it. *)
Definition letter_syntax : syntax := sb_build (Build_syntax_builder (Some (s2b "<", encode 1103%N ++ s2b ">")) None None).
Definition letter_source : str := s2b "<name" ++ encode 1103%N ++ s2b ">".
Definition letter_engine : engine := match @engine_with_syntax ascii_ext letter_syntax with Ok e => e | _ => mkengine [] (@fmt_default ascii_ext) [] [] 0 end.
Lemma letter_user_syntax : user_syntax letter_syntax.
Proof.
  eexists. split; [|reflexivity].
  apply (bd_expr sb_new _ (s2b "<") (encode 1103%N ++ s2b ">")); [apply bd_new|apply asciib_valid; reflexivity| |reflexivity].
  apply valid_app; [apply valid_encode; unfold scalar; lia|apply asciib_valid; reflexivity].
Qed.
Example C51_needed :
  user_syntax letter_syntax /\ ~ ascii_delimiters letter_syntax /\
  outcome_kind (@engine_compile ascii_ext letter_source letter_engine) = 0 /\
  outcome_kind (@engine_compile cyrillic_ext letter_source letter_engine) = 1.
Proof.
  split; [exact letter_user_syntax|]. split.
  - intros H. specialize (H EndExprK (encode 1103%N ++ s2b ">") ltac:(right; left; reflexivity)).
    inversion H as [|? ? K]; subst. vm_compute in K. discriminate K.
  - split; vm_compute; reflexivity.
Qed.
