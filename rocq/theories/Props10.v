(** Properties C04, C09, C10, C26, C29, C33: plain text, literals, serialization,
    default formatting. *)
From Verif Require Import Base Utf8 Ext Errors Syntax AhoCorasick SearchSpec SyntaxSpec Value Ast Lexer LexSpec Wp
  GrammarSpec Parser LitProof AstOk Compiler CompileProof ParseMain Fmt Stack Filters Render Engine EngineSpec CompileFacts
  RenderSpec RenderProof RenderErr MapFacts RenderMain RenderObs StackRel Parts LookupSpec LookupProof BlockSpec BlockProof FilterSpec FilterProof
  FilterProof2 Serde DecimalSpec DecimalProof SerdeSpec SerdeProof PlainText Wrap LiteralSpec Literal Trailing FormatSpec Props2 Demo Props8.

(** ** C04 *)
Section C04.
Context `{X : Ext}.
(** C04.  A source in which no delimiter occurs compiles, with any delimiters and
    in any state of the engine; and it renders to itself, whatever the context: to
    a string, and to a writer with one write (none if it is empty), whose failure
    is the only possible error. *)
Theorem C04_plain_text sx e source : user_syntax sx -> engine_for sx e -> no_occurrence sx source 0 ->
  exists t, engine_compile source e = Ok t /\
    forall g st, initial_stack g = Ok st ->
      renders (template_renderer t e) g (Ok source) /\
      forall k w, writes (template_renderer t e) g k w
        (match source with
         | [] => (w, Ok tt)
         | _ => match sk_write k w source with (w', None) => (w', Ok tt) | (w', Some code) => (w', Err (mk_io_error code)) end
         end).
Proof.
  intros Hu He Hno. exists (mktemplate source (plain_code source)). split; [now apply (plain_compiles sx)|]. intros g st Hg.
  set (inner := template_renderer _ _).
  pose proof (plain_render inner source eq_refl 4 st (le_n 4)) as E. split.
  - apply (renders_by inner 4); [|discriminate]. rewrite (to_string_result _ _ _ _ Hg), E. unfold plain_tree, string_result. destruct source; reflexivity.
  - intros k w. apply (writes_by inner 4).
    + rewrite (to_writer_result _ _ _ _ _ _ Hg), E. unfold plain_tree, writer_result. clear. destruct source as [|b0 r]; [reflexivity|].
      cbn [Fmt.run]. destruct (sk_write k w (b0 :: r)) as [w' [c|]]; reflexivity.
    + destruct source; [discriminate|]. destruct (sk_write _ _ _) as [w' [c|]]; discriminate.
Qed.
(** The same for a template of the engine, or under any renderer options. *)
Theorem C04_anywhere sx inner source : user_syntax sx -> engine_for sx (ri_engine inner) -> no_occurrence sx source 0 ->
  engine_compile source (ri_engine inner) = Ok (ri_template inner) ->
  forall g st, initial_stack g = Ok st -> renders inner g (Ok source).
Proof.
  intros Hu He Hno Hc g st Hg. rewrite (plain_compiles sx _ Hu He source Hno) in Hc. injection Hc as Hc. symmetry in Hc.
  pose proof (plain_render inner source Hc 4 st (le_n 4)) as E.
  apply (renders_by inner 4); [|discriminate]. rewrite (to_string_result _ _ _ _ Hg), E. unfold plain_tree, string_result. destruct source; reflexivity.
Qed.
End C04.
Print Assumptions C04_plain_text.
Print Assumptions C04_anywhere.

(** ** C29 *)
Section C29.
Context `{X : Ext}.
Lemma string_chunks cs on_err buf : run_string buf (run_fmt (write_chunks cs) on_err) = (buf ++ concat cs, Ok tt).
Proof. revert buf. induction cs as [|c cs IH]; intros buf; cbn; [now rewrite app_nil_r|]. now rewrite IH, app_assoc. Qed.
Lemma show_neg p : show_Z (Zneg p) = s2b "-" ++ show_N (Npos p).
Proof. reflexivity. Qed.
Lemma display_prints v text : prints v text -> fmt_default v = write_chunks (display_chunks v) /\ concat (display_chunks v) = text.
Proof.
  intros []; cbn [fmt_default display_chunks concat app]; split; auto using app_nil_r. apply decimal_show in H as ->.
  destruct z; cbn [concat]; rewrite ?app_nil_r; auto.
Qed.
Lemma prints_total v : (exists text, prints v text) \/ exists what, unprintable v what.
Proof.
  destruct v as [|[]|z|f|s|l|m]; try (left; eexists; constructor; fail).
  - left. exists (show_Z z). constructor. now apply decimal_show.
  - right. eexists. left. eauto.
  - right. eexists. right. eauto.
Qed.
Lemma string_result_default v text source sp : prints v text -> string_result (formatted fmt_default v source sp) = Ok text.
Proof. intros H. destruct (display_prints v text H) as (E1 & E2). unfold formatted, string_result. now rewrite E1, string_chunks, E2. Qed.
Lemma prints_fun v text text' : prints v text -> prints v text' -> text = text'.
Proof. intros H H'. destruct (display_prints _ _ H) as (_ & <-), (display_prints _ _ H') as (_ & <-). reflexivity. Qed.

(** A new engine formats with the default formatter. *)
Theorem C29_default sx e : engine_with_syntax sx = Ok e -> en_default_formatter e = fmt_default.
Proof. unfold engine_with_syntax. destruct (searcher_new _); cbn; intros E; try discriminate E. now injection E as <-. Qed.

(** C29.  Wherever an expression that has the value [v] is emitted by the default
    formatter: the output is the text of [v]; a list or a map is an error, located
    at the expression, and nothing is written. *)
Theorem C29_output inner origin source st e sp v fsp : library inner origin ->
  source <> [] -> expr_ok source e -> span_ok source sp -> vars_here source st ->
  emits source (en_functions (ri_engine inner)) (en_default_formatter (ri_engine inner)) st e (EmFormat fmt_default v fsp) ->
  exists tree, acts inner source [SInline e sp] st tree /\
    (forall text, prints v text -> string_result tree = Ok text) /\
    (forall what, unprintable v what -> exists p, build_pretty source fsp = Ok p /\
       tree = RRet (Err (titled inner (mkerror KFormat None (Some (s2b "expression evaluated to unformattable type " ++ what)) (Some p))))).
Proof.
  intros Hlib Hne Hok Hsp Hv Hem. destruct (C24_emitted_expression inner origin Hlib source st e sp Hne Hok Hsp Hv) as (r & Hr & Hu & H).
  rewrite <- (Hu _ Hem) in H. eexists. split; [exact H|]. split.
  - intros text Ht. destruct (display_prints v text Ht) as (E1 & E2). rewrite E1. unfold string_result.
    assert (R : forall cs on_err buf n, run_string buf (name_err n (run_fmt (write_chunks cs) on_err)) = (buf ++ concat cs, Ok tt)).
    { clear. induction cs as [|c cs IH]; intros on_err buf n; cbn; [now rewrite app_nil_r|]. unfold name_err in IH. now rewrite IH, app_assoc. }
    now rewrite R, E2.
  - intros what Hw. assert (F : fmt_default v = FFail (Some (s2b "expression evaluated to unformattable type " ++ what))).
    { destruct Hw as [(l & -> & ->)|(m & -> & ->)]; reflexivity. }
    pose proof (emits_sound source Hne inner st e _ Hok Hem) as E. pose proof (fine_inline true source Hne inner st e (fun _ => Hv) Hok) as Fi.
    rewrite E in Fi. cbn [emitted_result] in Fi. rewrite F in Fi |- *. cbn [run_fmt] in Fi |- *. unfold err_format in *.
    destruct (build_pretty source fsp) as [p|er| |] eqn:Ep; cbn in Fi.
    + exists p. split; [reflexivity|]. reflexivity.
    + pose proof (build_pretty_no_err source fsp er) as N. now destruct N.
    + first [contradiction|discriminate Fi].
    + first [contradiction|discriminate Fi].
Qed.
(** C29.  Different integers have different texts, and every value is one of the
    two kinds. *)
Theorem C29_injective a b text : prints (VInt a) text -> prints (VInt b) text -> a = b.
Proof. intros H H'. inversion H; subst. inversion H'; subst. eapply decimal_inj; eauto. Qed.
Theorem C29_every_value v : (exists text, prints v text /\ forall text', prints v text' -> text' = text) \/ (exists what, unprintable v what).
Proof. destruct (prints_total v) as [(t & H)|H]; [left|right; exact H]. exists t. split; [exact H|]. intros t' H'. eapply prints_fun; eauto. Qed.

(** Decimal notation as a literal. *)
Lemma horner_snoc s c : digits_value (s ++ [c]) = (10 * digits_value s + (byte_N c - 48))%N.
Proof. unfold digits_value. now rewrite fold_left_app. Qed.
Lemma natural_numeral s : Forall decimal_digit s -> numeral 10 s (Z.of_N (digits_value s)).
Proof.
  induction s as [|c s IH] using rev_ind; intros H; [constructor|]. apply Forall_app in H as (H1 & H2). inversion H2 as [|? ? Hc _]; subst.
  rewrite horner_snoc. unfold decimal_digit in Hc.
  replace (Z.of_N (10 * digits_value s + (byte_N c - 48))) with (Z.of_N (digits_value s) * 10 + (Z.of_N (byte_N c) - 48))%Z by lia.
  apply nu_digit; [auto|left|]; lia.
Qed.
Lemma natural_text n s : natural n s -> number_text s /\ numeral 10 s (Z.of_N n) /\ ~ (exists b, s = x30 :: x62 :: b \/ s = x30 :: x6f :: b \/ s = x30 :: x78 :: b).
Proof.
  intros (Hne & Hd & _ & <-). split; [|split; [now apply natural_numeral|]].
  - destruct s as [|b r]; [now destruct Hne|]. inversion Hd as [|? ? Hb Hr]; subst. exists b, r. unfold decimal_digit in *. split; [reflexivity|].
    split; [unfold ascii_digit; rewrite andb_true_iff, !N.leb_le; lia|]. revert Hr. apply Forall_impl. intros a Ha.
    apply digit_number. unfold ascii_digit. rewrite andb_true_iff, !N.leb_le. lia.
  - intros (b & [->|[->| ->]]); inversion Hd as [|? ? _ Hd']; inversion Hd' as [|? ? Hb _]; unfold decimal_digit in Hb; cbn in Hb; lia.
Qed.
(** C29.  What is printed for an integer is, read as a literal, that integer. *)
Theorem C29_reads_back e z text : engine_for default_syntax e -> (i64_min <= z <= i64_max)%Z -> prints (VInt z) text ->
  shows e (s2b "{{ " ++ text ++ s2b " }}") (fun _ => Some (VInt z)).
Proof.
  intros He Hz H. inversion H as [| | |? ? Hd| |]; subst. unfold decimal in Hd. destruct (Z.leb_spec 0 z) as [Hp|Hn].
  - destruct (natural_text _ _ Hd) as (H1 & H2 & H3). rewrite Z2N.id in H2 by exact Hp.
    apply (number_shows e He false [] text (VInt z)); [left; auto|exact H1|]. constructor. split; [exact Hz|]. do 3 right. exists z. auto.
  - destruct Hd as (t & -> & Hd). destruct (natural_text _ _ Hd) as (H1 & H2 & H3). rewrite Z2N.id in H2 by lia.
    apply (number_shows e He true (s2b "-") t (VInt z)); [right; right; auto|exact H1|]. constructor. split; [exact Hz|]. do 3 right.
    exists (- z)%Z. repeat split; auto. cbn. lia.
Qed.
End C29.
Print Assumptions C29_default.
Print Assumptions C29_output.
Print Assumptions C29_injective.
Print Assumptions C29_every_value.
Print Assumptions C29_reads_back.

(** ** C09 *)
Section C09.
Context `{X : Ext}.
Variable e : engine.
Hypothesis He : engine_for default_syntax e.

Lemma numeral_text radix s v : (radix <= 16)%Z -> numeral radix s v -> Forall (fun b => number_char (byte_N b) = true) s.
Proof.
  intros Hr. induction 1 as [|s v H IH|s v c d H IH Hd Hl]; [constructor|..]; apply Forall_app; (split; [exact IH|]); (constructor; [|constructor]); [reflexivity|].
  unfold number_char, ascii_digit, ascii_letter. rewrite !orb_true_iff, !andb_true_iff, !N.leb_le, !N.eqb_eq. destruct Hd as [Hd|[Hd|Hd]]; lia.
Qed.
Definition starts_with_digit (s : str) : Prop := exists b r, s = b :: r /\ decimal_digit b.
Lemma int_lit_text lit neg z : starts_with_digit lit -> int_lit lit neg z -> number_text lit.
Proof.
  intros (b & r & -> & Hb) (_ & H).
  assert (F : Forall (fun b => number_char (byte_N b) = true) (b :: r)).
  { assert (P : forall p d v k, (k <= 16)%Z -> b :: r = x30 :: p :: d -> number_char (byte_N p) = true -> numeral k d v -> Forall (fun b => number_char (byte_N b) = true) (b :: r)).
    { intros p d v k Hk E Hp Hn. rewrite E. constructor; [reflexivity|]. constructor; [exact Hp|]. eapply numeral_text; eauto. }
    destruct H as [(d & v & E & Hn & _)|[(d & v & E & Hn & _)|[(d & v & E & Hn & _)|(v & _ & Hn & _)]]].
    - exact (P x62 d v 2%Z ltac:(lia) E eq_refl Hn).
    - exact (P x6f d v 8%Z ltac:(lia) E eq_refl Hn).
    - exact (P x78 d v 16%Z ltac:(lia) E eq_refl Hn).
    - eapply numeral_text; eauto. lia. }
  inversion F; subst. exists b, r. split; [reflexivity|]. split; [|auto]. unfold decimal_digit in Hb. unfold ascii_digit. rewrite andb_true_iff, !N.leb_le. lia.
Qed.
(** C09.  A literal that denotes (see [int_lit]: the radix, digits and underscores,
    the sign) an integer of 64 bits is that integer: it is what the default
    formatter is given, and what is printed in decimal. *)
Theorem C09_exact neg sign lit z : sign_of neg sign -> starts_with_digit lit -> int_lit lit neg z ->
  shows e (number_source sign lit) (fun _ => Some (VInt z)).
Proof. intros Hs Hd Hi. eapply number_shows; eauto using int_lit_text. now constructor. Qed.
Theorem C09_printed neg sign lit z : sign_of neg sign -> starts_with_digit lit -> int_lit lit neg z -> en_default_formatter e = fmt_default ->
  exists t, engine_compile (number_source sign lit) e = Ok t /\
    forall g st text, initial_stack g = Ok st -> decimal z text -> renders (template_renderer t e) g (Ok text).
Proof.
  intros Hs Hd Hi Hf. destruct (C09_exact _ _ _ _ Hs Hd Hi) as (t & sp & Ec & H). exists t. split; [exact Ec|]. intros g st text Hg Ht.
  apply (renders_by _ 5); [|discriminate]. rewrite (H g st (VInt z) Hg eq_refl 5 (le_n 5)), Hf. apply string_result_default. now constructor.
Qed.
(** C09.  Any other number literal: it is a float (as the Rust standard library
    reads it), or the template does not compile.  It is not an integer. *)
Theorem C09_otherwise neg sign lit : sign_of neg sign -> number_text lit -> (forall z, ~ int_lit lit neg z) ->
  (exists f, f64_parse lit = Some f /\ shows e (number_source sign lit) (fun _ => Some (VFloat (if neg then SpecFloat.SFopp f else f)))) \/
  (f64_parse lit = None /\ exists er, engine_compile (number_source sign lit) e = Err er).
Proof.
  intros Hs Ht Hn. destruct (f64_parse lit) as [f|] eqn:Ef.
  - left. exists f. split; [reflexivity|]. eapply number_shows; eauto. now constructor.
  - right. split; [reflexivity|].
    assert (V : valid_utf8 (number_source sign lit)).
    { rewrite (number_source_tag _ _ _ Hs). apply tag_valid. eapply number_tokens_run; eauto. }
    destruct (engine_compile (number_source sign lit) e) as [t|er| |] eqn:Ec; [exfalso| |exfalso..].
    + destruct (number_only e He _ _ _ _ Hs Ht Ec) as (v & Hv). inversion Hv as [z Hz|f _ Hf]; subst; [now apply (Hn z)|congruence].
    + eauto.
    + pose proof (proj1 (proj2 (C02_compile_total _ default_user_syntax default_closers_ok) e _ [] He V)) as F. rewrite Ec in F. exact F.
    + pose proof (proj1 (proj2 (C02_compile_total _ default_user_syntax default_closers_ok) e _ [] He V)) as F. rewrite Ec in F. exact F.
Qed.
(** C09.  In particular a literal with a radix prefix that is out of range does not
    compile (Rust reads no floats that start with 0b, 0o or 0x), and one in decimal
    becomes a float. *)
Definition no_radix_floats : Prop := forall c r, In c [x62; x6f; x78] -> f64_parse (x30 :: c :: r) = None.
Definition radix_of (c : byte) (k : Z) : Prop := (c = x62 /\ k = 2%Z) \/ (c = x6f /\ k = 8%Z) \/ (c = x78 /\ k = 16%Z).
Theorem C09_out_of_range_radix neg sign c k digits v : no_radix_floats -> sign_of neg sign -> radix_of c k -> numeral k digits v ->
  ~ (i64_min <= negated neg v <= i64_max)%Z -> exists er, engine_compile (number_source sign (x30 :: c :: digits)) e = Err er.
Proof.
  intros Hx Hs Hc Hn Hr.
  assert (Hk : (k <= 16)%Z /\ In c [x62; x6f; x78] /\ number_char (byte_N c) = true) by (destruct Hc as [[-> ->]|[[-> ->]|[-> ->]]]; cbn; repeat split; auto; lia).
  destruct Hk as (Hk & Hi & Hp).
  assert (Ht : number_text (x30 :: c :: digits)) by (exists x30, (c :: digits); repeat split; auto; constructor; auto; eapply numeral_text; eauto).
  destruct (C09_otherwise neg sign (x30 :: c :: digits) Hs Ht) as [(f & Hf & _)|(_ & H)]; auto.
  - intros z (Hz & H). apply Hr.
    destruct H as [(d & v' & E & Hn' & ->)|[(d & v' & E & Hn' & ->)|[(d & v' & E & Hn' & ->)|(v' & Hno & _)]]];
      try (injection E as -> ->; destruct Hc as [[E1 ->]|[[E1 ->]|[E1 ->]]]; try discriminate E1; now rewrite (numeral_fun _ _ _ _ Hn Hn')).
    exfalso. apply Hno. exists digits. cbn in Hi. destruct Hi as [<-|[<-|[<-|[]]]]; auto.
  - exfalso. rewrite (Hx c digits Hi) in Hf. discriminate Hf.
Qed.
Theorem C09_out_of_range_decimal neg sign lit v : sign_of neg sign -> starts_with_digit lit -> numeral 10 lit v ->
  ~ (i64_min <= negated neg v <= i64_max)%Z ->
  (exists f, f64_parse lit = Some f /\ shows e (number_source sign lit) (fun _ => Some (VFloat (if neg then SpecFloat.SFopp f else f)))) \/
  (f64_parse lit = None /\ exists er, engine_compile (number_source sign lit) e = Err er).
Proof.
  intros Hs (b & r & -> & Hb) Hn Hr. pose proof (numeral_text 10 _ _ ltac:(lia) Hn) as F. inversion F; subst. apply C09_otherwise; auto.
  - exists b, r. unfold decimal_digit in Hb. unfold ascii_digit. repeat split; auto. rewrite andb_true_iff, !N.leb_le. lia.
  - intros z (Hz & H). apply Hr. destruct H as [(d & v' & E & _)|[(d & v' & E & _)|[(d & v' & E & _)|(v' & _ & Hn' & ->)]]].
    4: now rewrite (numeral_fun _ _ _ _ Hn Hn').
    all: exfalso; injection E as -> ->; apply numeral_nval in Hn; vm_compute in Hn; discriminate Hn.
Qed.
End C09.
Print Assumptions C09_exact.
Print Assumptions C09_printed.
Print Assumptions C09_otherwise.
Print Assumptions C09_out_of_range_radix.
Print Assumptions C09_out_of_range_decimal.

(** ** C10 *)
Section C10.
Context `{X : Ext}.
Variable e : engine.
Hypothesis He : engine_for default_syntax e.
(** C10, for strings that do not end in a backslash: every text has spellings, and
    each of them, between quotes, stands for exactly that text. *)
Theorem C10_round_trip_partial s : valid_utf8 s -> (forall r, s <> r ++ [x5c]) ->
  (exists cs, spells cs s) /\ forall cs, spells cs s ->
    shows e (string_source cs) (fun _ => Some (VStr s)) /\
    (en_default_formatter e = fmt_default -> exists t, engine_compile (string_source cs) e = Ok t /\
       forall g st, initial_stack g = Ok st -> renders (template_renderer t e) g (Ok s)).
Proof.
  intros V Hl. split; [now apply spelling_exists|]. intros cs Hs.
  assert (S1 : shows e (string_source cs) (fun _ => Some (VStr s))).
  { apply string_shows; auto. intros pre E. destruct (proj2 (spells_last _ _ Hs)) as (r & Er); [exists (pre ++ [92]%N); rewrite <- app_assoc; exact E|]. now apply (Hl r). }
  split; [exact S1|]. intros Hf. destruct S1 as (t & sp & Ec & H). exists t. split; [exact Ec|]. intros g st Hg.
  apply (renders_by _ 5); [|discriminate]. rewrite (H g st (VStr s) Hg eq_refl 5 (le_n 5)), Hf. apply string_result_default. constructor.
Qed.
(** C10 fails for all the other strings: no spelling of a string that ends in a
    backslash compiles. *)
Theorem C10_refuted s : valid_utf8 s -> (exists r, s = r ++ [x5c]) ->
  (exists cs, spells cs s) /\ forall cs, spells cs s -> forall t, engine_compile (string_source cs) e <> Ok t.
Proof. intros V Hl. split; [now apply spelling_exists|]. intros cs Hs t. now apply (trailing_fails e He cs s). Qed.
End C10.
Print Assumptions C10_round_trip_partial.
Print Assumptions C10_refuted.

(** ** C33 *)
Section C33.
Context `{X : Ext}.
Hypothesis HX : ext_ascii X.
Variable e : engine.
Hypothesis He : engine_for default_syntax e.
Variable name : str.
Hypothesis Hv : valid_utf8 name.
Hypothesis Hi : ident_shape name.
Hypothesis Hk : ~ In name reserved.

Lemma digits_lit lit : lit <> [] -> Forall decimal_digit lit -> lit <> [] /\ Forall (fun b => ascii_digit (byte_N b) = true) lit.
Proof. intros H F. split; auto. revert F. apply Forall_impl. intros b Hb. unfold decimal_digit in Hb. unfold ascii_digit. rewrite andb_true_iff, !N.leb_le. lia. Qed.
(** C33.  [name.N] with digits [N] of value below 2^64 is item [N] of the list
    [name] in the context (or what the value function answers). *)
Theorem C33_index lit : lit <> [] -> Forall decimal_digit lit -> (digits_value lit < 2 ^ 64)%N ->
  shows e (index_source name lit) (item name (digits_value lit)).
Proof.
  intros Hne Hd Hr. apply index_shows; auto using digits_lit. split; [exact Hne|]. split; [|split].
  - intros Hin. rewrite Forall_forall in Hd. apply Hd in Hin. unfold decimal_digit in Hin. cbn in Hin. lia.
  - now apply natural_numeral.
  - unfold u64_max. lia.
Qed.
(** C33.  From 2^64 on the template does not compile. *)
Theorem C33_too_big lit : lit <> [] -> Forall decimal_digit lit -> (2 ^ 64 <= digits_value lit)%N ->
  exists er, engine_compile (index_source name lit) e = Err er.
Proof.
  intros Hne Hd Hr. pose proof (digits_lit lit Hne Hd) as Hl.
  assert (V : valid_utf8 (index_source name lit)).
  { rewrite index_source_tag. apply tag_valid. now apply index_run. }
  destruct (engine_compile (index_source name lit) e) as [t|er| |] eqn:Ec; [exfalso| |exfalso..].
  - destruct (index_only HX e He name Hv Hi Hk lit Hl t Ec) as (n & _ & _ & Hn & Hmax).
    pose proof (numeral_fun _ _ _ _ Hn (natural_numeral _ Hd)) as E. unfold u64_max in Hmax. lia.
  - eauto.
  - pose proof (proj1 (proj2 (C02_compile_total _ default_user_syntax default_closers_ok) e _ [] He V)) as F. rewrite Ec in F. exact F.
  - pose proof (proj1 (proj2 (C02_compile_total _ default_user_syntax default_closers_ok) e _ [] He V)) as F. rewrite Ec in F. exact F.
Qed.
End C33.
Print Assumptions C33_index.
Print Assumptions C33_too_big.

(** ** C26 *)
Section C26.
Context `{X : Ext}.
(** C26.  The rules [converts] give exactly one result for every datum, and that is
    the result of [to_value]. *)
Theorem C26_rules d : machine d ->
  exists r, converts d r /\ (forall r', converts d r' -> r' = r) /\ to_value d = match r with inl v => Ok v | inr m => Err (mk_ser_error m) end.
Proof.
  intros Hm. destruct (all_good d Hm) as ((r & Hr) & Hall). exists r. split; [exact Hr|]. split; [|exact (Hall r Hr)].
  intros r' Hr'. pose proof (Hall r Hr) as E. rewrite (Hall r' Hr') in E. destruct r, r'; cbn in E; try discriminate E; injection E as E; congruence.
Qed.
(** C26.  Integers are preserved exactly, or rejected if they are not of the 64-bit
    type. *)
Theorem C26_integers d z : machine d -> integer d z ->
  ((z <= i64_max)%Z /\ to_value d = Ok (VInt z)) \/
  ((i64_max < z)%Z /\ d = SU64 z /\ to_value d = Err (mk_ser_error (s2b "out of range integral type conversion attempted"))).
Proof.
  intros Hm Hi. destruct (integer_cases d z Hi Hm) as [H|(-> & H)]; [left|right]; (split; [exact H|]).
  - now apply integer_value.
  - split; [reflexivity|]. cbn [to_value]. destruct (Z.leb_spec z i64_max); [lia|reflexivity].
Qed.
(** C26.  Keys, and what a map contains: for every key the last value given. *)
Theorem C26_keys d : exists r, key d r /\ serialize_key d = match r with inl s => Ok s | inr m => Err (mk_ser_error m) end.
Proof. destruct (key_total d) as (r & Hr). exists r. split; [exact Hr|]. exact (key_result d r Hr). Qed.
Theorem C26_maps l m k : machine (SMap l) -> to_value (SMap l) = Ok (VMap m) ->
  exists es, converts_entries l (inl es) /\ sorted_keys m /\ map_get k m = last_entry k es.
Proof.
  intros Hm E. destruct (C26_rules _ Hm) as (r & Hr & _ & E'). rewrite E in E'. destruct r as [v|]; [|discriminate E']. injection E' as <-.
  inversion Hr as [? z H|? H| | | | | | | | | | | | | | | | |? ? ? H| | | |? es ? He (H1 & H2)| | | | | |]; subst; try (inversion H; fail); try discriminate. eauto.
Qed.
(** C26.  A value converts to itself; what [Value::from] makes of Rust data is what
    its serialization gives; and results are values a Rust program can have. *)
Theorem C26_value_to_itself v : proper v -> to_value (value_serialize v) = Ok v.
Proof. exact (value_round v). Qed.
Theorem C26_from_agrees d : proper_data d -> to_value (into_serialize d) = Ok (value_from d).
Proof. exact (from_agrees d). Qed.
Theorem C26_results_proper d v : machine d -> to_value d = Ok v -> proper v.
Proof. intros Hm E. exact (all_sound d Hm v E). Qed.
End C26.
Print Assumptions C26_rules.
Print Assumptions C26_integers.
Print Assumptions C26_keys.
Print Assumptions C26_maps.
Print Assumptions C26_value_to_itself.
Print Assumptions C26_from_agrees.
Print Assumptions C26_results_proper.

(** ** Concrete cases *)
Section Cases.
Local Existing Instance ascii_ext.
Definition fresh : engine := match engine_new with Ok e => e | _ => mkengine [] fmt_default [] [] 0 end.
Lemma fresh_new : engine_with_syntax default_syntax = Ok fresh.
Proof. vm_compute. reflexivity. Qed.
Lemma fresh_for : engine_for default_syntax fresh.
Proof. apply ef_new. exact fresh_new. Qed.
Lemma fresh_formatter : en_default_formatter fresh = fmt_default.
Proof. exact (C29_default _ _ fresh_new). Qed.

(** Beside C04: no delimiter in the text, though some of their characters. *)
Definition prose : str := s2b "50% of { } is # or -".
Fixpoint inside (p s : str) : bool := prefixb p s || match s with [] => false | _ :: s' => inside p s' end.
Lemma occurs_inside p : forall source i, occurs_at p source i -> inside p source = true.
Proof.
  assert (P : forall q t, prefixb q (q ++ t) = true).
  { induction q as [|b q IH]; intros t; cbn; auto. rewrite IH, andb_true_r. now apply Byte.byte_dec_lb. }
  induction source as [|b s IH]; intros i (Hl & t & E).
  - cbn in Hl. assert (i = 0) by lia. subst i. cbn in E. destruct p; [reflexivity|discriminate E].
  - destruct i as [|i].
    + cbn [skipn] in E. rewrite E. destruct (p ++ t) eqn:Et; cbn [inside]; rewrite <- Et, P; reflexivity.
    + cbn [skipn] in E. cbn [inside]. rewrite (IH i), orb_true_r; [reflexivity|]. split; [cbn in Hl; lia|eauto].
Qed.
Lemma no_occurrence_by (sx : syntax) source : forallb (fun kp => negb (inside (snd kp) source)) sx = true -> no_occurrence sx source 0.
Proof.
  intros H k p i Hi _ Ho. rewrite forallb_forall in H. specialize (H (k, p) Hi). cbn [snd] in H. now rewrite (occurs_inside p source i Ho) in H.
Qed.
Lemma prose_plain : no_occurrence default_syntax prose 0.
Proof. apply no_occurrence_by. vm_compute. reflexivity. Qed.
Example C04_case : exists t, engine_compile prose demo_engine = Ok t /\ renders (template_renderer t demo_engine) (GBorrowed demo_value) (Ok prose).
Proof.
  destruct (C04_plain_text default_syntax demo_engine prose default_user_syntax demo_for prose_plain) as (t & E & H).
  exists t. split; [exact E|]. exact (proj1 (H (GBorrowed demo_value) [FrScope (Borrowed demo_value)] eq_refl)).
Qed.

(** Beside C09: the least integer, in base 16 and with underscores; one less. *)
Lemma nval_numeral k s v : LitProof.nval k 0 s = Some v -> numeral k s v.
Proof. apply numeral_nval. Qed.
Definition least : str := s2b "0x8000_0000_0000_0000".
Example C09_case : int_lit least true i64_min /\ sign_of true (s2b "-") /\ starts_with_digit least /\
  exists t, engine_compile (s2b "{{ -0x8000_0000_0000_0000 }}") fresh = Ok t /\
    renders (template_renderer t fresh) (GBorrowed VNone) (Ok (s2b "-9223372036854775808")).
Proof.
  assert (H1 : int_lit least true i64_min).
  { split; [unfold i64_min, i64_max; lia|]. right. right. left. exists (s2b "8000_0000_0000_0000"), 9223372036854775808%Z.
    split; [reflexivity|]. split; [apply nval_numeral; vm_compute; reflexivity|reflexivity]. }
  assert (H2 : sign_of true (s2b "-")) by (right; right; auto).
  assert (H3 : starts_with_digit least) by (exists x30, (tl least); split; [reflexivity|unfold decimal_digit; cbn; lia]).
  split; [exact H1|]. split; [exact H2|]. split; [exact H3|].
  destruct (C09_printed fresh fresh_for true (s2b "-") least i64_min H2 H3 H1 fresh_formatter) as (t & E & H).
  exists t. split; [exact E|]. apply (H (GBorrowed VNone) [FrScope (Borrowed VNone)]); [reflexivity|]. apply decimal_show. vm_compute. reflexivity.
Qed.
Example C09_case_out : no_radix_floats /\ exists er, engine_compile (s2b "{{ -0x8000_0000_0000_0001 }}") fresh = Err er.
Proof.
  assert (H1 : no_radix_floats) by (intros c r [<-|[<-|[<-|[]]]]; reflexivity). split; [exact H1|].
  apply (C09_out_of_range_radix fresh fresh_for true (s2b "-") x78 16 (s2b "8000_0000_0000_0001") 9223372036854775809 H1); [right; right; auto|right; right; auto|..].
  - apply nval_numeral. vm_compute. reflexivity.
  - unfold i64_min, i64_max, negated. lia.
Qed.

(** Beside C10: escapes of all kinds; and a string that has no documented literal. *)
Definition tricky : str := s2b "a\" ++ [x22; x0a; x0d; x09] ++ encode 233.
Lemma tricky_spells : spells [97; 92; 92; 92; 34; 92; 110; 92; 114; 9; 233]%N tricky.
Proof.
  apply (sp_char 97); [unfold scalar; lia|cbn; intuition discriminate|]. apply sp_backslash, sp_quote, sp_newline, sp_return.
  apply (sp_char 9); [unfold scalar; lia|cbn; intuition discriminate|]. apply (sp_char 233 [] []); [unfold scalar; lia|cbn; intuition discriminate|]. constructor.
Qed.
Lemma tricky_utf8 : valid_utf8 tricky.
Proof. exists [97; 92; 34; 10; 13; 9; 233]%N. split; [|reflexivity]. repeat (constructor; [unfold scalar; lia|]). constructor. Qed.
Example C10_case : exists t, engine_compile (string_source [97; 92; 92; 92; 34; 92; 110; 92; 114; 9; 233]%N) fresh = Ok t /\
  renders (template_renderer t fresh) (GBorrowed VNone) (Ok tricky).
Proof.
  destruct (C10_round_trip_partial fresh fresh_for tricky tricky_utf8) as (_ & H).
  - intros r E. apply (f_equal (fun l => last l x00)) in E. rewrite last_last in E. vm_compute in E. discriminate E.
  - destruct (proj2 (H _ tricky_spells) fresh_formatter) as (t & E & H'). exists t. split; [exact E|]. exact (H' (GBorrowed VNone) [FrScope (Borrowed VNone)] eq_refl).
Qed.
Example C10_case_refuted t : engine_compile (s2b "{{ ""c:\\"" }}") fresh <> Ok t.
Proof.
  assert (H : spells [99; 58; 92; 92]%N (s2b "c:\")).
  { apply (sp_char 99); [unfold scalar; lia|cbn; intuition discriminate|]. apply (sp_char 58); [unfold scalar; lia|cbn; intuition discriminate|]. apply sp_backslash, sp_nil. }
  apply (proj2 (C10_refuted fresh fresh_for (s2b "c:\") (asciib_valid (s2b "c:\") eq_refl) (ex_intro _ (s2b "c:") eq_refl)) _ H).
Qed.

(** Beside C29: an integer, and a list. *)
Definition plain_n : string := "{{ n }}".
Definition plain_expr : expr := EBase (BVar (var_at 3 4)).
Example plain_n_parsed : parsed plain_n = [SInline plain_expr (mkspan 0 7)].
Proof. vm_compute. reflexivity. Qed.
Lemma plain_n_both : expr_ok (s2b plain_n) plain_expr /\ span_ok (s2b plain_n) (mkspan 0 7).
Proof.
  pose proof (parsed_ok plain_n ltac:(vm_compute; reflexivity)) as H. rewrite plain_n_parsed in H.
  inversion H as [|? ? H1 _]; subst. inversion H1; subst. split; assumption.
Qed.
Lemma n_emits v : emits (s2b plain_n) (en_functions math) fmt_default [FrScope (Borrowed (VMap [(s2b "n", v)]))] plain_expr (EmFormat fmt_default v (mkspan 3 4)).
Proof.
  refine (em_value _ _ _ _ plain_expr (Borrowed v) eq_refl _). apply ev_var. apply sf_var with (s2b "n"); [exists (mkident (mkspan 3 4)); split; reflexivity|].
  apply lk_scope with v (WFound v); [reflexivity|apply w_end|exact (an_found false _)].
Qed.
Example C29_case : prints (VInt (-17)) (s2b "-17") /\ unprintable (VList [VNone]) (s2b "list") /\
  (exists tree, acts (math_renderer plain_n) (s2b plain_n) [SInline plain_expr (mkspan 0 7)] [FrScope (Borrowed (VMap [(s2b "n", VInt (-17))]))] tree /\
     string_result tree = Ok (s2b "-17")) /\
  (exists p, acts (math_renderer plain_n) (s2b plain_n) [SInline plain_expr (mkspan 0 7)] [FrScope (Borrowed (VMap [(s2b "n", VList [VNone])]))]
     (RRet (Err (mkerror KFormat None (Some (s2b "expression evaluated to unformattable type list")) (Some p))))).
Proof.
  assert (H1 : prints (VInt (-17)) (s2b "-17")) by (constructor; apply decimal_show; vm_compute; reflexivity).
  assert (H2 : unprintable (VList [VNone]) (s2b "list")) by (left; eauto).
  assert (Hv : forall v, vars_here (s2b plain_n) [FrScope (Borrowed (VMap [(s2b "n", v)]))]) by (intros v; apply Forall_cons; [exact I|apply Forall_nil]).
  split; [exact H1|]. split; [exact H2|]. split.
  - destruct (C29_output (math_renderer plain_n) (fun _ => default_syntax) (s2b plain_n) _ plain_expr (mkspan 0 7) _ _ (math_library plain_n) ltac:(discriminate)
      (proj1 plain_n_both) (proj2 plain_n_both) (Hv (VInt (-17))) (n_emits _)) as (tree & Ha & Hp & _).
    exists tree. split; [exact Ha|exact (Hp _ H1)].
  - destruct (C29_output (math_renderer plain_n) (fun _ => default_syntax) (s2b plain_n) _ plain_expr (mkspan 0 7) _ _ (math_library plain_n) ltac:(discriminate)
      (proj1 plain_n_both) (proj2 plain_n_both) (Hv (VList [VNone])) (n_emits _)) as (tree & Ha & _ & Hu).
    destruct (Hu _ H2) as (p & _ & Et). exists p. rewrite Et in Ha. exact Ha.
Qed.

(** Beside C33: items of a list, by a literal with leading zeros; the first index
    that is too big. *)
Lemma items_ident : ident_shape (s2b "xs") /\ ~ In (s2b "xs") reserved.
Proof.
  split.
  - exists 120%N, [115%N]. split; [reflexivity|]. split; [|constructor; [reflexivity|constructor]]. repeat split. cbn. intuition discriminate.
  - vm_compute. intuition discriminate.
Qed.
Definition some_list : globals := GBorrowed (VMap [(s2b "xs", VList [VStr (s2b "a"); VStr (s2b "b")])]).
Example C33_case : item (s2b "xs") 1 some_list = Some (VStr (s2b "b")) /\
  exists t, engine_compile (s2b "{{ xs.001 }}") fresh = Ok t /\ renders (template_renderer t fresh) some_list (Ok (s2b "b")).
Proof.
  split; [reflexivity|].
  destruct (C33_index ascii_ext_ok fresh fresh_for (s2b "xs") (asciib_valid (s2b "xs") eq_refl) (proj1 items_ident) (proj2 items_ident) (s2b "001")) as (t & sp & E & H);
    [discriminate| |reflexivity|].
  - repeat (constructor; [unfold decimal_digit; cbn; lia|]). constructor.
  - exists t. split; [exact E|]. apply (renders_by _ 5); [|discriminate]. rewrite (H some_list _ _ eq_refl eq_refl 5 (le_n 5)), fresh_formatter.
    apply string_result_default. constructor.
Qed.
Example C33_case_too_big : exists er, engine_compile (s2b "{{ xs.18446744073709551616 }}") fresh = Err er.
Proof.
  apply (C33_too_big ascii_ext_ok fresh fresh_for (s2b "xs") (asciib_valid (s2b "xs") eq_refl) (proj1 items_ident) (proj2 items_ident) (s2b "18446744073709551616")).
  - discriminate.
  - repeat (constructor; [unfold decimal_digit; cbn; lia|]). constructor.
  - vm_compute. discriminate.
Qed.

(** Beside C26: a struct with a map whose keys are a character, a number and twice
    the same text; a number that is too big; a key that is refused. *)
Definition record : sdata := SStruct (s2b "R")
  [(s2b "m", SMap [(SChar 233, SU8 1); (SI16 (-4), SNone); (SStr (s2b "k"), SBool true); (SStr (s2b "k"), SSeq [SUnit; SSome (SStr (s2b "x"))])]);
   (s2b "e", SNewtypeVariant (s2b "E") (s2b "Some") (SU64 9223372036854775807))].
Lemma record_machine : machine record.
Proof. cbn. unfold signed, unsigned, scalar. repeat split; try (apply asciib_valid; reflexivity); lia. Qed.
Example C26_case : to_value record = Ok (VMap
  [(s2b "e", VMap [(s2b "Some", VInt 9223372036854775807)]);
   (s2b "m", VMap [(s2b "-4", VNone); (s2b "k", VList [VNone; VStr (s2b "x")]); (encode 233, VInt 1)])]).
Proof. vm_compute. reflexivity. Qed.
Example C26_case_refused : machine (SU64 9223372036854775808) /\ integer (SU64 9223372036854775808) 9223372036854775808 /\
  to_value (SU64 9223372036854775808) = Err (mk_ser_error (s2b "out of range integral type conversion attempted")) /\
  to_value (SMap [(SBool true, SUnit)]) = Err (mk_ser_error (s2b "map key must be a string")).
Proof. split; [cbn; unfold unsigned; lia|]. split; [constructor|]. split; vm_compute; reflexivity. Qed.
Example C26_case_value : proper (VMap [(s2b "a", VList [VInt 1; VFloat (SpecFloat.S754_zero true)]); (s2b "b", VNone)]).
Proof. cbn. unfold i64_min, i64_max. repeat split; try (apply asciib_valid; reflexivity); try lia. all: repeat constructor. Qed.
End Cases.
