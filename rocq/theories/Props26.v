(** Property C53: which templates there are. *)
From Verif Require Import Base Utf8 Ext Errors Syntax AhoCorasick SearchSpec SyntaxSpec Value Ast Lexer LexSpec Wp
  GrammarSpec Parser LitProof AstOk Compiler CompileProof ParseMain Fmt Stack Filters Render Engine EngineSpec CompileFacts
  RenderSpec RenderProof RenderErr MapFacts RenderMain RenderObs FormatSpec Meaning Wrap Literal Props2 Demo Props10 Props14 TreeSpec TreeLex TreePrint TreeParse TreeSound.

Section C53.
Context `{X : Ext}.

(** C53, one direction, for any delimiters: the tree of a template satisfies
    TreeSpec.v. *)
Theorem C53_only_these sx source p : user_syntax sx -> is_template sx source p -> a_template sx p.
Proof. intros Hu (V & l & D & <-). now apply tree_of_source. Qed.

(** C53, with the default delimiters: the trees of templates are exactly those. *)
Theorem C53_trees p : ext_ascii X -> a_template default_syntax p <-> exists source, is_template default_syntax source p.
Proof. intros HX. split; [now apply has_source|]. intros (source & H). exact (C53_only_these _ _ _ default_user_syntax H). Qed.

(** C53.  In terms of the engine: what compiles has such a tree, and for each such
    tree some source compiles to a template with that tree. *)
Theorem C53_compiled e : ext_ascii X -> engine_for default_syntax e ->
  (forall source t, valid_utf8 source -> engine_compile source e = Ok t -> exists p, is_template default_syntax source p /\ a_template default_syntax p) /\
  (forall p, a_template default_syntax p -> exists source t, engine_compile source e = Ok t /\ is_template default_syntax source p).
Proof.
  intros HX He. pose proof (engine_searcher _ _ He) as Hs. split.
  - intros source t V Ec. unfold engine_compile in Ec. apply (compile_iff _ default_user_syntax _ Hs _ V (default_trims_ok _)) in Ec as (l & D & _).
    assert (I : is_template default_syntax source (bare source l)) by (split; [exact V|eauto]).
    exists (bare source l). split; [exact I|]. exact (C53_only_these _ _ _ default_user_syntax I).
  - intros p Hp. destruct (proj1 (C53_trees p HX) Hp) as (source & I). pose proof I as (V & l & D & E). exists source. eexists. split; [|exact I].
    apply (compile_iff _ default_user_syntax _ Hs _ V (default_trims_ok _)). eauto.
Qed.

(** C53.  So for each such tree there is a template that does what the tree means
    (C40): the same writes and the same errors but for their place, in every
    context.  (As in C40, no include inside of a [with] block, here and in the
    templates of the engine.) *)
Theorem C53_behaviour e p name depth : ext_ascii X -> engine_for default_syntax e ->
  (forall n t l, In (n, t) (en_templates e) -> derives default_syntax (t_source t) l -> confined_all false (bare (t_source t) l)) ->
  a_template default_syntax p -> confined_all false p ->
  exists source t ast_of, engine_compile source e = Ok t /\ let inner := mkinner e t name depth None in
    statements inner (fun _ => default_syntax) ast_of /\
    forall g st, initial_stack g = Ok st ->
      let m := m_render (world_of inner ast_of) p name (start g) in
      (exists r, renders inner g r /\ without_place r = string_result m) /\
      forall k w, exists q, writes inner g k w q /\ (fst q, without_place (snd q)) = writer_result k w m.
Proof.
  intros HX He Hc Hp Hcp. destruct (proj2 (C53_compiled e HX He) p Hp) as (source & t & Ec & V & l & D & El).
  pose proof (compile_source _ _ _ Ec) as Es.
  assert (Ht : template_of default_syntax t). { split; [exact default_user_syntax|]. split; [apply default_trims_ok|]. rewrite Es. split; [exact V|]. eauto. }
  assert (W : well_made (mkinner e t name depth None) (fun _ => default_syntax)) by (apply engine_well_made; auto using default_user_syntax, default_trims_ok).
  destruct (statements_exist _ _ W) as (ast_of & S). exists source, t, ast_of. split; [exact Ec|]. split; [exact S|]. intros g st Hg.
  assert (U : bare (t_source t) (ast_of t) = p).
  { destruct (S t (or_introl eq_refl)) as (_ & D'). rewrite Es in D' |- *.
    rewrite (proj2 (proj2 (C08_accepted_iff_grammatical _ e source default_user_syntax (default_trims_ok _) He V)) _ _ D' D). exact El. }
  assert (C : forall t', provided (mkinner e t name depth None) t' -> confined_all false (bare (t_source t') (ast_of t'))).
  { intros t' Hp'. destruct (S t' Hp') as (_ & D'). destruct Hp' as [->|[(f & h & n & Ef & _)|(_ & n & En)]]; cbn in *.
    - rewrite U. exact Hcp.
    - discriminate Ef.
    - eapply Hc; [|exact D']. eapply map_get_In; eauto. }
  pose proof (C40_meaning _ _ ast_of g S C st Hg) as M. unfold root_of in M. cbn [ri_template ri_template_name] in M. rewrite U in M. exact M.
Qed.

(** C53.  Every string is the value of some literal (one that ends in a backslash
    has no documented spelling, see C10, but an undocumented one), and hence every
    text is the output of some template. *)
Theorem C53_every_string e s : ext_ascii X -> engine_for default_syntax e -> valid_utf8 s ->
  exists lit, shows e (s2b "{{ " ++ lit ++ s2b " }}") (fun _ => Some (VStr s)).
Proof.
  intros HX He V. destruct (string_word s V) as (w & Hl & Hw). exists w.
  pose proof (Hw false [] (wo_nil _)) as H. inversion H as [|? ? ? ? Vw Hd _ Hx _]; subst. 
  set (ks := [(TWhitespace, s2b " "); (TString, w); (TWhitespace, s2b " ")]).
  assert (Es : s2b "{{ " ++ w ++ s2b " }}" = tag ks) by (unfold tag, ks, texts; cbn [map snd concat]; rewrite <- !app_assoc; reflexivity).
  assert (Hq : exists r, w = x22 :: r).
  { destruct Hl as (body & E & _). destruct w as [|b r]; [discriminate E|]. exists r. f_equal.
    destruct Vw as (ds & Hds & Ew). destruct ds as [|c ds]; [cbn in Ew; discriminate Ew|]. rewrite Ew, chars_flat_map in E by exact Hds. injection E as -> _.
    cbn in Ew. now injection Ew as -> _. }
  assert (R : run false ks (s2b "}}")).
  { unfold ks. destruct Hq as (r & Eq). apply (sp_run false x22); [cbn; auto|rewrite Eq; reflexivity|]. apply run_cons; auto.
    - rewrite Eq. discriminate.
    - exact (Hd _).
    - exact I.
    - apply last_run. }
  rewrite Es. eapply shows_lit. apply tag_compiles; auto.
  cbn [ks lay nonspace List.filter is_space fst negb]. apply ge_base. apply gb_str. rewrite <- Es.
  replace (txt _ _) with w; [exact Hl|]. unfold txt. cbn [sp_m sp_n]. symmetry. exact (sub_mid (s2b "{{ ") w (s2b " }}")).
Qed.
Theorem C53_every_text e s : ext_ascii X -> engine_for default_syntax e -> en_default_formatter e = fmt_default -> valid_utf8 s ->
  exists source t, engine_compile source e = Ok t /\ forall g st, initial_stack g = Ok st -> renders (template_renderer t e) g (Ok s).
Proof.
  intros HX He Hf V. destruct (C53_every_string e s HX He V) as (lit & t & sp & Ec & H). eexists. exists t. split; [exact Ec|]. intros g st Hg.
  apply (renders_by _ 5); [|discriminate]. rewrite (H g st (VStr s) Hg eq_refl 5 (le_n 5)), Hf. apply string_result_default. constructor.
Qed.
End C53.
Print Assumptions C53_only_these.
Print Assumptions C53_trees.
Print Assumptions C53_compiled.
Print Assumptions C53_behaviour.
Print Assumptions C53_every_string.
Print Assumptions C53_every_text.

(** ** Concrete cases *)
Local Existing Instance ascii_ext.
(** Neighbouring and empty texts, a text that ends in a brace, the least integer, a
    string that ends in a backslash, a call, an index, a loop, includes. *)
Definition odd_tree : list pstmt :=
  [PText (s2b "a{"); PText []; PText (s2b " }b ");
   PShow (PCall (PAtom (PLit (VStr (s2b "c:\")))) (s2b "f") (Some [PLit (VInt i64_min); PVar (s2b "_x1") [mkpstep true (KIndex 18446744073709551615); mkpstep false (KName (s2b "loop"))]]));
   PForEntries (s2b "k") (s2b "v") (PAtom (PVar (s2b "m") [])) [PIf true (PAtom (PLit (VBool true))) [] (Some [PInclude (s2b "a\") (Some (PAtom (PLit (VInt 5))))])];
   PWith (PCall (PAtom (PLit (VInt 5))) (s2b "f") None) (s2b "x") [PText (s2b "y")]].
Lemma name_by s : asciib s = true -> (match chars s with c :: _ => ascii_letter c || (c =? 95)%N | [] => false end) = true ->
  forallb (fun c => ascii_letter c || ascii_digit c || (c =? 95)%N) (chars s) = true -> negb (existsb (str_eqb s) reserved) = true -> a_name s.
Proof.
  intros A H1 H2 H3. split; [now apply asciib_valid|]. split.
  - unfold ident_shape. destruct (chars s) as [|c cs]; [discriminate|]. exists c, cs. split; [reflexivity|]. cbn [forallb] in H2. apply andb_prop in H2 as (H2 & H4).
    assert (Hc : ascii_letter c = true \/ c = 95%N). { apply orb_prop in H1 as [H1|H1]; [now left|]. right. now apply N.eqb_eq. }
    split; [|apply Forall_forall; intros d Hd; exact (proj1 (forallb_forall _ _) H4 d Hd)].
    split; [unfold word_start; cbn [xid_start ascii_ext]; rewrite H2; apply orb_true_r|].
    destruct Hc as [Hc| ->]; [|repeat split; cbn; intuition discriminate].
    unfold ascii_letter in Hc. rewrite orb_true_iff, !andb_true_iff, !N.leb_le in Hc.
    split; [unfold ascii_digit; rewrite andb_false_iff, !N.leb_gt; lia|]. split; [unfold blank; rewrite orb_false_iff, !N.eqb_neq; lia|].
    intros Hi. cbn in Hi. repeat (destruct Hi as [Hi|Hi]; [lia|]). exact Hi.
  - intros Hi. apply Bool.negb_true_iff in H3. assert (K : existsb (str_eqb s) reserved = true) by (apply existsb_exists; exists s; split; [exact Hi|now apply str_eqb_eq]). congruence.
Qed.
Lemma text_by s : asciib s = true -> forallb (fun i => forallb (fun kp => negb (prefixb (snd kp) (skipn i s))) default_syntax) (seq 0 (Datatypes.S (length s))) = true -> a_text default_syntax s.
Proof.
  intros A H. split; [now apply asciib_valid|]. intros k p i Hi (L & t & E).
  pose proof (proj1 (forallb_forall _ _) H i ltac:(apply in_seq; lia)) as H'. pose proof (proj1 (forallb_forall _ _) H' _ Hi) as H2. cbn [snd] in H2.
  rewrite E in H2. assert (K : prefixb p (p ++ t) = true) by (apply prefixb_spec; eauto). rewrite K in H2. discriminate H2.
Qed.

Ltac name := apply name_by; vm_compute; reflexivity.
Ltac text := apply text_by; vm_compute; reflexivity.
Ltac utf := apply asciib_valid; vm_compute; reflexivity.
Example C53_case : a_template default_syntax odd_tree.
Proof.
  unfold odd_tree. repeat apply at_cons; try apply at_nil.
  - apply as_text. text.
  - apply as_text. text.
  - apply as_text. text.
  - apply as_show. split; [apply al_str; utf|]. split; [name|]. split; [discriminate|]. constructor; [|constructor; [|constructor]].
    + apply al_int. split; discriminate.
    + split; [name|]. constructor; [discriminate|constructor; [|constructor]].
      unfold a_step. cbn [ps_key]. name.
  - apply as_for_entries; [name|name|split; [name|constructor]|reflexivity|]. apply at_cons; [|apply at_nil].
    apply as_if_else; [apply al_bool|apply at_nil|]. apply at_cons; [|apply at_nil]. apply as_include_with; [utf|]. apply al_int. split; discriminate.
  - apply as_with; [split; [apply al_int; split; discriminate|split; [name|exact I]]|name|]. apply at_cons; [|apply at_nil]. apply as_text. text.
Qed.
Example C53_case_source : exists source t, engine_compile source fresh = Ok t /\ is_template default_syntax source odd_tree.
Proof. exact (proj2 (C53_compiled fresh ascii_ext_ok fresh_for) odd_tree C53_case). Qed.
(** What no source can say: a loop over a number, text with a delimiter, a reserved
    name, an empty argument list. *)
Lemma no_source p : ~ a_template default_syntax p -> ~ exists source, is_template default_syntax source p.
Proof. intros N H. exact (N (proj2 (C53_trees p ascii_ext_ok) H)). Qed.
Lemma one_stmt s : a_template default_syntax [s] -> a_stmt default_syntax s.
Proof. intros H. inversion H. assumption. Qed.
Example C53_case_not : 
  (~ exists source, is_template default_syntax source [PFor (s2b "x") (PCall (PAtom (PLit (VInt 5))) (s2b "f") None) []]) /\
  (~ exists source, is_template default_syntax source [PText (s2b "a {{ b")]) /\
  (~ exists source, is_template default_syntax source [PWith (PAtom (PLit (VInt 5))) (s2b "as") []]) /\
  (~ exists source, is_template default_syntax source [PShow (PCall (PAtom (PLit (VInt 5))) (s2b "f") (Some []))]).
Proof.
  repeat split; apply no_source; intros H; apply one_stmt in H.
  - inversion H. subst. discriminate.
  - inversion H as [? N| | | | | | | |]. subst. apply (proj2 N BeginExprK (s2b "{{") 2); [vm_compute; auto|]. split; [vm_compute; lia|]. exists (s2b " b"). reflexivity.
  - inversion H; subst. match goal with N : a_name _ |- _ => apply (proj2 (proj2 N)) end. vm_compute. auto 20.
  - inversion H as [|? N| | | | | | |]. subst. exact (proj1 (proj2 (proj2 N)) eq_refl).
Qed.
(** The engine agrees. *)
Definition compiles (s : str) : bool := match engine_compile s fresh with Ok _ => true | _ => false end.
Example C53_case_engine : compiles (s2b "{% for x in 5 | f %}{% endfor %}") = false /\ compiles (s2b "{% with 5 | f as x %}{% endwith %}") = true /\
  compiles (s2b "{% for x in true | f %}{% endfor %}") = true.
Proof. repeat split; vm_compute; reflexivity. Qed.
(** A string that ends in a backslash can be printed, by a bare quote in the literal. *)
Example C53_case_backslash : match engine_compile (s2b "{{ ""c:\\"""" }}") fresh with
  | Ok t => to_string 10 (mkinner fresh t None None None) (GBorrowed VNone) = Ok (s2b "c:\")
  | _ => False end.
Proof. vm_compute. reflexivity. Qed.
