(** C64: the formatter of examples/escape_html.rs, and what it is good for. *)
From Verif Require Import Base Utf8 Ext Errors Syntax SyntaxSpec Value Ast LexSpec Parser Compiler Fmt Stack Filters Render Engine EngineSpec
  OriginSpec WriteSpec RenderSpec RenderObs RenderMain UseSpec Props2 Props3 Props10 Props11 Demo EscapeSpec Escape.

Section C64.
Context `{X : Ext}.
Lemma entity_fun b e e' : entity b e -> entity b e' -> e = e'.
Proof. intros H H'. apply escape_entity in H, H'. congruence. Qed.
Lemma reads_html x s : reads x s <-> x = html s.
Proof.
  split.
  - induction 1 as [|b e x s He _ IH|b x s Hb _ IH]; [reflexivity| |]; subst x; cbn [html flat_map]; unfold html1 at 1.
    + apply escape_entity in He. now rewrite He.
    + destruct (escape_byte b) as [e|] eqn:E; [|reflexivity]. apply escape_entity in E. now destruct (Hb e).
  - intros ->. induction s as [|b s IH]; cbn [html flat_map]; [constructor|]. unfold html1 at 1. destruct (escape_byte b) as [e|] eqn:E.
    + apply rd_entity; [now apply escape_entity|exact IH].
    + apply rd_byte; [now apply escape_none|exact IH].
Qed.

(** C64.  The formatter does not panic, and writes of a string the one HTML text that reads as it. *)
Theorem C64_escapes s x : valid_utf8 s ->
  (exists p, escape_loop s s 0 0 = Ok p) /\ (says (escape_html (VStr s)) x <-> reads x s).
Proof.
  intros V. destruct (escape_never_panics s V) as (p & l & E & W & C & _). split; [eauto|].
  cbn [escape_html]. rewrite E, (wrote_says _ _ W x), C, reads_html. reflexivity.
Qed.
Lemma html1_app_inj b c x y : html1 b ++ x = html1 c ++ y -> b = c /\ x = y.
Proof.
  unfold html1. destruct (escape_byte b) as [e|] eqn:E, (escape_byte c) as [e'|] eqn:E'.
  - apply escape_entity in E, E'. destruct E; destruct E'; cbn; intros H; try discriminate H; injection H as H; auto.
  - intros H. exfalso. apply escape_entity in E. assert (c = x26) by (destruct E; cbn in H; now injection H). subst c. discriminate E'.
  - intros H. exfalso. apply escape_entity in E'. assert (b = x26) by (destruct E'; cbn in H; now injection H). subst b. discriminate E.
  - cbn. intros H. injection H as -> ->. auto.
Qed.
(** C64.  An HTML text reads as one text only, and a text is written in one way only: no two values
    are confused. *)
Theorem C64_unambiguous x x' s s' : reads x s -> reads x' s' -> (x = x' <-> s = s').
Proof.
  rewrite !reads_html. intros -> ->. split; [|now intros ->]. revert s'. induction s as [|b s IH]; intros [|c s'] H; auto.
  - cbn in H. unfold html1 in H. destruct (escape_byte c) as [e|] eqn:E; [|discriminate]. apply escape_entity in E. destruct E; discriminate.
  - cbn in H. unfold html1 in H. destruct (escape_byte b) as [e|] eqn:E; [|discriminate]. apply escape_entity in E. destruct E; discriminate.
  - cbn [html flat_map] in H. apply html1_app_inj in H as [-> H]. f_equal. now apply IH.
Qed.
(** C64.  Pieces may be escaped one by one. *)
Theorem C64_pieces x s y t : reads x s -> reads y t -> reads (x ++ y) (s ++ t).
Proof. rewrite !reads_html. intros -> ->. now rewrite html_app. Qed.
(** C64.  Other values are written as the default formatter writes them, which reads as itself. *)
Theorem C64_other_values v x : plain_floats -> (forall s, v <> VStr s) ->
  (says (escape_html v) x <-> says (fmt_default v) x) /\ (says (fmt_default v) x -> reads x x).
Proof.
  intros Hp Hv. assert (E : escape_html v = fmt_default v) by (destruct v as [| | | |s| |]; try reflexivity; now destruct (Hv s)). rewrite E. split; [reflexivity|].
  intros H. destruct (escape_sound v Hp) as [(l & s & W & C & F & P)|[K|(m & K)]]; rewrite E in *.
  - apply (wrote_says _ _ W x) in H. subst x. rewrite reads_html. symmetry. apply html_plain, P, Hv.
  - rewrite K in H. inversion H.
  - rewrite K in H. inversion H.
Qed.

(** C64.  So, if every formatter in use is [escape_html]: the output is raw text of the templates
    and HTML texts that read as values, in turn; the angle brackets and quotes of the
    output are those of the raw text. *)
Lemma safe_chars x s b e : reads x s -> entity b e -> b <> x26 -> ~ In b x.
Proof.
  intros R He Hb. induction R as [|c e' x s Hc _ IH|c x s Hc _ IH]; [intros []| |].
  - rewrite in_app_iff. intros [K|K]; [|now apply IH]. destruct Hc; destruct He; cbn in K; repeat (destruct K as [K|K]; [discriminate K || now apply Hb|]); destruct K.
  - intros [<-|K]; [now apply (Hc e)|now apply IH].
Qed.
Theorem C64_output inner origin ast_of g out :
  statements inner origin ast_of -> plain_floats -> (forall f, a_formatter inner ast_of f -> f = escape_html) ->
  renders inner g (Ok out) ->
  exists parts : list (bool * str),
    out = concat (map snd parts) /\
    Forall (fun p : bool * str => if fst p then raw_text inner ast_of (snd p) else exists s, reads (snd p) s) parts /\
    forall b e, entity b e -> b <> x26 ->
      count_occ Byte.byte_eq_dec out b = count_occ Byte.byte_eq_dec (concat (map snd (List.filter fst parts))) b.
Proof.
  intros Ha Hp Hf R. destruct (C34_output_origin _ _ _ _ _ Ha R) as (ps & -> & F).
  assert (K : exists parts, ps = map snd parts /\ Forall (fun p : bool * str => if fst p then raw_text inner ast_of (snd p) else exists s, reads (snd p) s) parts).
  { clear R. induction F as [|s l Hs _ (parts & -> & IH)]; [exists []; split; [reflexivity|constructor]|]. destruct Hs as [Hs|(f & v & Af & S)].
    - exists ((true, s) :: parts). split; [reflexivity|]. constructor; auto.
    - apply Hf in Af. subst f. exists ((false, s) :: parts). split; [reflexivity|]. constructor; [|exact IH]. cbn.
      destruct (escape_sound v Hp) as [(l & t & W & C & _)|[K|(m & K)]].
      + exists t. apply (wrote_says _ _ W s) in S. subst s. now rewrite C, reads_html.
      + rewrite K in S. inversion S.
      + rewrite K in S. inversion S. }
  destruct K as (parts & -> & P). exists parts. split; [reflexivity|]. split; [exact P|]. intros b e He Hb. clear R F.
  induction P as [|[[|] s] l Hs _ IH]; cbn [map concat List.filter fst snd] in *; [reflexivity| |]; rewrite !count_occ_app, IH.
  - reflexivity.
  - destruct Hs as (t & Hs).
    assert (K : count_occ Byte.byte_eq_dec s b = 0) by (apply count_occ_not_In; exact (safe_chars _ _ _ _ Hs He Hb)). now rewrite K.
Qed.
(** C64.  In particular, if no template has such a character as raw text, no output has one,
    whatever the context; nor what a writer is given, even by a rendering that fails. *)
Theorem C64_no_injection inner origin ast_of b e :
  statements inner origin ast_of -> plain_floats -> (forall f, a_formatter inner ast_of f -> f = escape_html) ->
  entity b e -> b <> x26 -> (forall s, raw_text inner ast_of s -> ~ In b s) ->
  (forall g out, renders inner g (Ok out) -> ~ In b out) /\
  (forall g p, writes inner g buffer [] p -> ~ In b (fst p)).
Proof.
  intros Ha Hp Hf He Hb Hr. apply (C34_no_injection inner origin ast_of b Ha Hr). intros s (f & v & Af & M). apply Hf in Af. subst f.
  destruct (escape_sound v Hp) as [(l & t & W & C & F & _)|[K|(m & K)]]; [|rewrite K in M; inversion M|rewrite K in M; inversion M].
  apply (wrote_may _ _ W) in M. rewrite Forall_forall in F. apply F in M as [M|(c & M)].
  - intros K. exact (M b e K He).
  - intros K. destruct M; destruct He; cbn in K; repeat (destruct K as [K|K]; [discriminate K || now apply Hb|]); destruct K.
Qed.
(** C64.  It gives up when a write fails, as C22 asks of formatters. *)
Theorem C64_stops v : stops_on_error (escape_html v).
Proof.
  assert (D : forall l, stops_on_error (write_chunks l)) by (intros l; exact (wrote_stops _ _ (wrote_chunks l))).
  destruct v as [|b|z|f|s|l|m]; cbn [escape_html fmt_default]; auto; try exact I.
  destruct (escape_loop s s 0 0) as [p| | |] eqn:E; try exact I. destruct (escape_loop_sound s [] [] p ltac:(intros ? ? []) E) as (l & W & _). exact (wrote_stops _ _ W).
Qed.
End C64.
Print Assumptions C64_escapes.
Print Assumptions C64_unambiguous.
Print Assumptions C64_pieces.
Print Assumptions C64_other_values.
Print Assumptions C64_output.
Print Assumptions C64_no_injection.
Print Assumptions C64_stops.

(** ** Concrete cases *)
Local Existing Instance ascii_ext.
Lemma ascii_plain_floats : plain_floats.
Proof.
  intros f c b e Hc Hb K. apply escape_entity in K. revert Hc. cbn [f64_display ascii_ext].
  destruct f as [[|]|[|]| |[|] p z]; cbn; try (intros [<-|[]]; cbn in Hb; repeat (destruct Hb as [<-|Hb]; [discriminate K|]); destruct Hb).
  all: destruct p as [[p|p|]|p|]; try (destruct z as [|z|[z|z|]]); intros [<-|[]]; cbn in Hb; repeat (destruct Hb as [<-|Hb]; [discriminate K|]); destruct Hb.
Qed.
(** The program of examples/escape_html.rs. *)
Definition example_engine : engine := fst (add_formatter (s2b "unescape") fmt_default (set_default_formatter escape_html fresh)).
Definition example_source : str := [x0a] ++ s2b "Escaped: {{ value }}" ++ [x0a] ++ [x0a] ++ s2b "Unescaped: {{ value | unescape }}" ++ [x0a].
Definition example_value : value := VMap [(s2b "value", VStr (s2b "'<this>' & ""<that>"""))].
Example example_output :
  match engine_compile example_source example_engine with
  | Ok t => to_string 20 (template_renderer t example_engine) (GBorrowed example_value) =
      Ok ([x0a] ++ s2b "Escaped: &#39;&lt;this&gt;&#39; &amp; &quot;&lt;that&gt;&quot;" ++ [x0a] ++ [x0a] ++ s2b "Unescaped: '<this>' & ""<that>""" ++ [x0a])
  | _ => False
  end.
Proof. vm_compute. reflexivity. Qed.
Example example_reads : reads (s2b "a&lt;b&amp;&amp;c") (s2b "a<b&&c").
Proof. rewrite reads_html. vm_compute. reflexivity. Qed.
(** A template that uses no other formatter. *)
Definition careful : engine := fst (add_template (s2b "greet") (s2b greet) (set_default_formatter escape_html (fst (add_filter (s2b "upper") upper fresh)))).
Definition hello : renderer_inner := renderer_of careful "greet".
Lemma careful_for : engine_for default_syntax careful.
Proof. apply ef_template; [apply asciib_valid; reflexivity|]. apply ef_default, ef_filter, fresh_for. Qed.
Lemma hello_made : well_made hello (fun _ => default_syntax).
Proof. apply renderer_well_made; [exact careful_for|]. intros E. vm_compute in E. discriminate E. Qed.
Notation ast := (canon (fun _ => default_syntax)).
Lemma hello_provided t : provided hello t -> t = ri_template hello.
Proof.
  intros [->|[(f & h & n & E & _)|(_ & n & E)]]; [reflexivity|vm_compute in E; discriminate E|].
  change (ri_engine hello) with careful in E. apply MapFacts.map_get_In in E.
  assert (L : en_templates careful = [(s2b "greet", ri_template hello)]) by (vm_compute; reflexivity).
  rewrite L in E. destruct E as [E|[]]. pose proof (f_equal snd E) as E'. cbn [snd] in E'. symmetry. exact E'.
Qed.
Definition hello_body : scope := ltac:(let x := eval vm_compute in (ast (ri_template hello)) in exact x).
Lemma hello_ast : ast (ri_template hello) = hello_body.
Proof. vm_compute. reflexivity. Qed.
Lemma hello_source : t_source (ri_template hello) = s2b greet.
Proof. vm_compute. reflexivity. Qed.
Lemma hello_formatters f : a_formatter hello ast f -> f = escape_html.
Proof.
  intros Hf. destruct (formatter_cases _ _ _ Hf) as [Ed|(name & E)]; [exact Ed|].
  assert (L : en_functions (ri_engine hello) = [(s2b "upper", EFilter upper)]) by (vm_compute; reflexivity).
  rewrite L in E. cbn [map_get] in E. destruct (str_eqb name (s2b "upper")); discriminate E.
Qed.
Example hello_safe : (forall g out, renders hello g (Ok out) -> ~ In x3c out) /\ (forall g p, writes hello g buffer [] p -> ~ In x3c (fst p)).
Proof.
  apply (C64_no_injection hello (fun _ => default_syntax) ast x3c _ (canon_statements _ _ hello_made) ascii_plain_floats hello_formatters en_lt); [discriminate|].
  intros s (t & sp & Hp & Hs & E) Hi. apply hello_provided in Hp. subst t. rewrite hello_ast in Hs. rewrite hello_source in E.
  apply (fun H => raws_all _ _ H sp eq_refl) in Hs.
  assert (K : forallb (fun sp => match @index_span error (s2b greet) sp with Ok s => negb (existsb (Byte.eqb x3c) s) | _ => true end) (flat_map raws hello_body) = true)
    by (vm_compute; reflexivity).
  rewrite forallb_forall in K. specialize (K sp Hs). cbn beta in K. rewrite E in K. apply negb_true_iff in K.
  rewrite <- Bool.not_true_iff_false in K. apply K. apply existsb_exists. exists x3c. split; [exact Hi|reflexivity].
Qed.
Example hello_renders : renders hello
  (GBorrowed (VMap [(s2b "name", VStr (s2b "<b>")); (s2b "xs", VList [VStr (s2b "<i>"); VStr (s2b "j")])])) (Ok (s2b "Hi &lt;b&gt; & &lt;I&gt; & J")).
Proof. apply (renders_by _ 60); [vm_compute; reflexivity|discriminate]. Qed.
