(** Property theorems: from source text to program (C02, C03, C05-C08). *)
From Verif Require Import Base Utf8 Ext Errors Syntax AhoCorasick SearchSpec SyntaxSpec Value Ast Lexer LexSpec Wp TrimProof
  AcProof LexProof GrammarSpec Parser LitProof TokStream ParseProof ParseSound ParseComplete AstOk Compiler CompileProof ParseMain
  TileSpec TileProof Fmt Stack Filters Render Engine EngineSpec CompileFacts RawFacts.

(** ** Examples of the hypotheses *)

Lemma trim_end_closer p : valid_utf8 p -> trim_end p = p -> ~ ends_white p.
Proof. intros Hv E. destruct (trim_end_spec p Hv) as (w & _ & _ & _ & H). now rewrite E in H. Qed.
(** The default syntax meets [closers_ok]. *)
Lemma default_closers_ok : closers_ok default_syntax.
Proof.
  intros k p Hin Ho. apply trim_end_closer.
  - exact (proj2 (user_syntax_pat _ default_user_syntax _ _ Hin)).
  - revert Ho. repeat (destruct Hin as [E|Hin]; [injection E as <- <-; vm_compute; congruence|]). destruct Hin.
Qed.

Lemma default_trims_ok source : trims_ok default_syntax source.
Proof. exact (closers_trims _ source default_closers_ok). Qed.

Section Props2.
Context `{X : Ext}.

(** C03, as far as it is true.  An engine can be made from every configurable syntax, and
    whatever was done to it through the API, compiling any UTF-8 text (or adding it as a
    template) returns: it does not panic and does not diverge; unless the text has a place
    where a closing delimiter ending in white space is followed by white space and then by
    a hyphenated opening delimiter ([trims_ok], LexSpec.v). *)
Theorem C03_compile_total_partial (sx : syntax) : user_syntax sx ->
  (exists e, engine_with_syntax sx = Ok e) /\
  forall e source name, engine_for sx e -> valid_utf8 source -> trims_ok sx source ->
    finished (engine_compile source e) /\ finished (snd (add_template name source e)).
Proof.
  intros Hu. split; [now apply engine_exists|]. intros e source name He Hv Hc.
  assert (F : finished (engine_compile source e)).
  { exact (compile_total sx Hu _ (engine_searcher _ _ He) source Hv Hc). }
  split; auto. unfold add_template. destruct (engine_compile source e); auto; exact I.
Qed.
(** C02.  So with a syntax without such closing delimiters compilation always returns. *)
Theorem C02_compile_total (sx : syntax) : user_syntax sx -> closers_ok sx ->
  (exists e, engine_with_syntax sx = Ok e) /\
  forall e source name, engine_for sx e -> valid_utf8 source ->
    finished (engine_compile source e) /\ finished (snd (add_template name source e)).
Proof.
  intros Hu Hc. destruct (C03_compile_total_partial sx Hu) as [H1 H2]. split; [exact H1|].
  intros e source name He Hv. exact (H2 e source name He Hv (closers_trims sx source Hc)).
Qed.

(** C05.  Either lexing stops with an error, or the tokens (white space tokens
    included) cover the source left to right: the next token starts where the last
    one ended, except for white space next to a hyphenated tag ([tokens_cover],
    TileSpec.v); the tokens are those given by the token rules ([tiling],
    LexSpec.v), and no other token list satisfies the rules. *)
Theorem C05_tokens_tile_source (sx : syntax) e source :
  user_syntax sx -> trims_ok sx source -> engine_for sx e -> valid_utf8 source ->
  match lex_all (en_searcher e) source with
  | Ok toks => exists ts, toks = nonspace ts /\ tokens_cover sx source 0 None ts /\
                 tiling sx source true 0 (MText false) ts /\
                 forall ts', tiling sx source true 0 (MText false) ts' -> ts' = ts
  | Err _ => forall ts, ~ tiling sx source true 0 (MText false) ts
  | _ => False
  end.
Proof.
  intros Hu Hc He Hv. destruct (lex_all_ok sx e source Hu Hc He Hv) as (ts & H).
  destruct (lex_all (en_searcher e) source) as [toks|er| |] eqn:E; auto.
  - destruct H as (Ht & ->). exists ts. repeat split; auto.
    + now apply (tiling_start sx Hu source Hv ts).
    + intros ts' Ht'. now apply (tiling_unique sx source).
  - intros ts' Ht'. rewrite (lex_all_complete sx e source ts' Hu Hc He Hv Ht') in E. discriminate.
Qed.

(** C06.  The raw texts a compiled template emits are, in order, the raw tokens of
    the template outside comments, and each of them is the text between the tag
    before and the tag after it without exactly the white space the hyphens of
    those tags remove ([raw_trimmed], TileSpec.v). *)
Theorem C06_whitespace_control (sx : syntax) e source t :
  user_syntax sx -> trims_ok sx source -> engine_for sx e -> valid_utf8 source ->
  engine_compile source e = Ok t ->
  exists ts ts', lex_all (en_searcher e) source = Ok (nonspace ts) /\
    tokens_cover sx source 0 None ts /\ raw_trimmed sx source 0 None ts /\
    without_comments (nonspace ts) ts' /\ t_source t = source /\ emits (t_instrs t) = raws ts'.
Proof.
  intros Hu Hc He Hv E.
  apply (compile_iff sx Hu _ (engine_searcher _ _ He) source Hv Hc) in E as (s & (ts & Ht & Hg) & ->).
  destruct (tiling_start sx Hu source Hv ts Ht) as (H1 & H2).
  destruct (proj1 (proj2 (g_without source)) _ _ Hg) as (ts' & Hw & Hg').
  exists ts, ts'. split; [|split; [|split; [|split; [|split]]]]; auto.
  - now apply (lex_all_complete sx e source ts).
  - cbn [t_instrs]. apply (proj1 (proj2 (emits_raws source))); auto.
    clear - Hw. induction Hw; auto; constructor; auto.
Qed.

(** C07.  The program of a template is the one compiled from its tokens after
    deleting the comments; no comment delimiter is left. *)
Theorem C07_comments_produce_nothing (sx : syntax) e source t :
  user_syntax sx -> trims_ok sx source -> engine_for sx e -> valid_utf8 source ->
  engine_compile source e = Ok t ->
  exists toks toks' s, lex_all (en_searcher e) source = Ok toks /\
    without_comments toks toks' /\
    Forall (fun tk => fst tk <> TBeginComment /\ fst tk <> TEndComment) toks' /\
    g_scope source toks' s /\ compile_scope [] s = Ok (t_instrs t) /\
    emits (t_instrs t) = raws toks'.
Proof.
  intros Hu Hc He Hv E.
  apply (compile_iff sx Hu _ (engine_searcher _ _ He) source Hv Hc) in E as (s & D & ->).
  pose proof (derives_ok sx Hu source Hv s D) as Hok.
  destruct D as (ts & Ht & Hg).
  destruct (proj1 (proj2 (g_without source)) _ _ Hg) as (ts' & Hw & Hg').
  assert (Hp : plain ts') by (clear - Hw; induction Hw; auto; constructor; auto).
  exists (nonspace ts), ts', s. split; [|split; [|split; [|split; [|split]]]]; auto.
  - now apply (lex_all_complete sx e source ts).
  - apply Forall_and2; auto. exact (proj1 (proj2 (no_end_comment source)) _ _ Hg' Hp).
  - exact (compile_scope_ok source s Hok).
  - apply (proj1 (proj2 (emits_raws source))); auto.
Qed.

(** C08.  Parsing gives exactly the statements derived by the grammar
    (GrammarSpec.v) from the tokens of the source, so compilation succeeds exactly
    on the grammatical templates; the derivation is unique. *)
Theorem C08_accepted_iff_grammatical (sx : syntax) e source :
  user_syntax sx -> trims_ok sx source -> engine_for sx e -> valid_utf8 source ->
  (forall s, parse_template (en_searcher e) source = Ok s <-> derives sx source s) /\
  ((exists t, engine_compile source e = Ok t) <-> (exists s, derives sx source s)) /\
  (forall s s', derives sx source s -> derives sx source s' -> s = s').
Proof.
  intros Hu Hc He Hv. pose proof (engine_searcher _ _ He) as Hs.
  assert (P : forall s, parse_template (en_searcher e) source = Ok s <-> derives sx source s)
    by (intros s; apply (parse_iff sx Hu _ Hs source Hv Hc)).
  split; [exact P|]. split.
  - split.
    + intros (t & E). apply (compile_iff sx Hu _ Hs source Hv Hc) in E as (s & D & _). eauto.
    + intros (s & D). eexists. apply (compile_iff sx Hu _ Hs source Hv Hc). eauto.
  - intros s s' D D'. apply P in D, D'. congruence.
Qed.

End Props2.

Print Assumptions C02_compile_total.
Print Assumptions C03_compile_total_partial.
Print Assumptions C05_tokens_tile_source.
Print Assumptions C06_whitespace_control.
Print Assumptions C07_comments_produce_nothing.
Print Assumptions C08_accepted_iff_grammatical.

(** Beside them: a concrete engine and template meeting the hypotheses, with
    hyphens, a comment and blocks. *)
Definition sample_source : str := s2b "a {{- b -}} {# c #} {% if x %} d {%- else %}e{% endif %}".
Example sample_hypotheses : exists e t,
  user_syntax default_syntax /\ closers_ok default_syntax /\
  @engine_for ascii_ext default_syntax e /\ valid_utf8 sample_source /\
  @engine_compile ascii_ext sample_source e = Ok t /\
  emits (t_instrs t) = [mkspan 0 1; mkspan 12 12; mkspan 19 20; mkspan 30 32; mkspan 44 45].
Proof.
  eexists _, _. split; [exact default_user_syntax|]. split; [exact default_closers_ok|].
  split; [apply ef_new; vm_compute; reflexivity|]. split; [apply asciib_valid; vm_compute; reflexivity|].
  split; vm_compute; reflexivity.
Qed.

(** ** C03: closing delimiters ending in white space *)

(** [expr("<", "> ")], a syntax accepted by the builder. *)
Definition blank_syntax : syntax := 
  sb_build {| sb_expr := Some (s2b "<", s2b "> "); sb_block := None; sb_comment := None |}.
Lemma blank_user_syntax : user_syntax blank_syntax.
Proof.
  eexists. split; [|reflexivity].
  apply (bd_expr sb_new _ (s2b "<") (s2b "> ")); [apply bd_new|apply asciib_valid; reflexivity..|reflexivity].
Qed.

(** A template in that syntax with the side condition of [C03_compile_total_partial]. *)
Lemma blank_trims_ok : trims_ok blank_syntax (s2b "<1> a <-2> ").
Proof.
  assert (F : forall (P : str) j, occurs_at P (s2b "<1> a <-2> ") j -> j <= 11 /\ firstn (length P) (skipn j (s2b "<1> a <-2> ")) = P).
  { intros P j (L & t & E). split; [exact L|]. rewrite E, firstn_app, firstn_all, Nat.sub_diag. apply app_nil_r. }
  intros k m i k' j n T O _ B O' H' L W.
  destruct B as (_ & _ & _ & _ & _ & bf & p & af & E & Oc & _).
  assert (Hin : In (k', p) blank_syntax) by (rewrite E; apply in_elt). clear E bf af.
  apply F in Oc as (Lj & Oc).
  assert (J : j = 6).
  { repeat (destruct Hin as [E|Hin]; [injection E as <- <-; try discriminate O'; try discriminate H'|]); [|destruct Hin].
    do 12 (destruct j as [|j]; [vm_compute in Oc; first [reflexivity|discriminate Oc]|]). lia. }
  subst j.
  destruct T as (_ & _ & _ & _ & _ & bf & q & af & E & Oq & Lq & _).
  assert (Hq : In (k, q) blank_syntax) by (rewrite E; apply in_elt). clear E bf af.
  apply F in Oq as (Lm & Oq).
  assert (M : i = 4).
  { repeat (destruct Hq as [E|Hq]; [injection E as <- <-; try discriminate O|]); [| |destruct Hq].
    all: do 12 (destruct m as [|m]; [vm_compute in Oq; first [discriminate Oq|change (2 = i - 2) in Lq; lia|change (2 = i - 9) in Lq; lia]|]); lia. }
  subst i. change (sub (s2b "<1> a <-2> ") 4 6) with (s2b "a" ++ s2b " ") in W.
  apply white_suffix in W as (W & _); [|apply asciib_valid; reflexivity..].
  apply white_ends in W; [|discriminate]. revert W. apply trim_end_closer; [apply asciib_valid; reflexivity|vm_compute; reflexivity].
Qed.
Example blank_compiles : exists e t,
  user_syntax blank_syntax /\ ~ closers_ok blank_syntax /\ trims_ok blank_syntax (s2b "<1> a <-2> ") /\
  @engine_for ascii_ext blank_syntax e /\ @engine_compile ascii_ext (s2b "<1> a <-2> ") e = Ok t /\
  emits (t_instrs t) = [mkspan 4 5].
Proof.
  eexists _, _. split; [exact blank_user_syntax|]. split.
  { intros H. apply (H EndExprK (s2b "> ") ltac:(right; left; reflexivity) eq_refl).
    exists 32%N, (s2b ">"). repeat split; vm_compute; auto. }
  split; [exact blank_trims_ok|]. split; [apply ef_new; vm_compute; reflexivity|]. split; vm_compute; reflexivity.
Qed.

(** C03 is false of the code: with such a syntax a template can make compilation
    panic, and another compiles but makes every rendering panic (shown for the
    build without the "unicode" feature, [ascii_ext]). *)
Local Existing Instance ascii_ext.
Theorem C03_blank_closers_refuted : exists e,
  user_syntax blank_syntax /\ engine_for blank_syntax e /\
  valid_utf8 (s2b "<1 ->  <-2> ") /\ engine_compile (s2b "<1 ->  <-2> ") e = Panic /\
  valid_utf8 (s2b "<1>  <-2> ") /\
  exists t, engine_compile (s2b "<1>  <-2> ") e = Ok t /\
    forall fuel v, to_string (10 + fuel) (template_renderer t e) (GBorrowed v) = Panic.
Proof.
  eexists. split; [exact blank_user_syntax|]. split; [apply ef_new; vm_compute; reflexivity|].
  split; [apply asciib_valid; reflexivity|]. split; [vm_compute; reflexivity|].
  split; [apply asciib_valid; reflexivity|]. eexists. split; [vm_compute; reflexivity|].
  intros fuel v. vm_compute. reflexivity.
Qed.
Print Assumptions C03_blank_closers_refuted.
