(** Property theorems: where syntax errors point (C42) and what they say (C44). *)
From Verif Require Import Base Utf8 Ext Errors Syntax AhoCorasick SearchSpec SyntaxSpec Value Ast Lexer LexSpec
  GrammarSpec LayoutSpec BlameSpec Parser Compiler CompileProof ParseMain Fmt Stack Filters Render Engine EngineSpec CompileFacts BlameProof NoBlame LitBlame Props2 Demo.

Section C42.
Context `{X : Ext}.
(** C42, C44.  If a source does not compile, the error is a syntax error whose place is
    to blame for it, and whose message says why. *)
Theorem C44_reason (sx : syntax) e source err :
  user_syntax sx -> trims_ok sx source -> engine_for sx e -> valid_utf8 source ->
  engine_compile source e = Err err ->
  exists sp reason p, err = mkerror KSyntax None (Some reason) (Some p) /\ build_pretty source sp = Ok p /\ blame sx source sp reason.
Proof.
  intros Hu Hc He Hv E. pose proof (engine_searcher _ _ He) as Hs.
  assert (Ep : parse_template (en_searcher e) source = Err err).
  { unfold engine_compile in E. destruct (parse_template (en_searcher e) source) as [s|e'| |] eqn:Ep.
    - assert (D : compile_template (en_searcher e) source = Ok (mktemplate source (cscope 0 s))).
      { apply (compile_iff sx Hu _ Hs source Hv Hc). exists s. split; auto. now apply (parse_iff sx Hu _ Hs source Hv Hc). }
      rewrite D in E. discriminate.
    - unfold compile_template in E. rewrite Ep in E. cbn [bind] in E. congruence.
    - unfold compile_template in E. rewrite Ep in E. discriminate.
    - unfold compile_template in E. rewrite Ep in E. discriminate. }
  destruct (parse_blame sx Hu _ Hs source Hv Hc err Ep) as (sp & reason & (p & Hb & ->) & Bl). exists sp, reason, p. auto.
Qed.
Theorem C42_blame (sx : syntax) e source err :
  user_syntax sx -> trims_ok sx source -> engine_for sx e -> valid_utf8 source ->
  engine_compile source e = Err err ->
  exists sp reason p why, err = mkerror KSyntax None (Some reason) (Some p) /\ build_pretty source sp = Ok p /\ blame sx source sp why.
Proof. intros Hu Hc He Hv E. destruct (C44_reason sx e source err Hu Hc He Hv E) as (sp & reason & p & H). exists sp, reason, p, reason. exact H. Qed.
(** A source that compiles has no such place. *)
Theorem C42_nothing_else (sx : syntax) e source t sp why :
  user_syntax sx -> trims_ok sx source -> engine_for sx e -> valid_utf8 source ->
  engine_compile source e = Ok t -> ~ blame sx source sp why.
Proof.
  intros Hu Hc He Hv E. pose proof (engine_searcher _ _ He) as Hs. unfold engine_compile in E.
  apply (compile_iff sx Hu _ Hs source Hv Hc) in E as (s & D & _). exact (no_blame sx Hu _ (searcher_spec sx Hu _ Hs) source Hv Hc s sp why D).
Qed.
End C42.
Print Assumptions C44_reason.
Print Assumptions C42_blame.
Print Assumptions C42_nothing_else.

Local Existing Instance ascii_ext.
(** The error of a source: the first three numbers are the line and column (counted
    from 0) and the width of the marked place. *)
Definition place (source : string) : option (nat * nat * nat) :=
  match engine_compile (s2b source) demo_engine with
  | Err (mkerror KSyntax None (Some _) (Some p)) => Some (p_ln p, p_col p, p_width p)
  | _ => None
  end.
Example C42_case :
  user_syntax default_syntax /\ (forall source, trims_ok default_syntax source) /\ engine_for default_syntax demo_engine /\
  (* a token that cannot come next in its tag: [b] *)
  place "{{ a b }}" = Some (0, 5, 1) /\ place "{{ a | f: }}" = Some (0, 10, 2) /\ place "{% include a %}" = Some (0, 11, 1) /\
  (* a literal that denotes nothing: the escape [q], the digit [2] *)
  place "{{ ""\q"" }}" = Some (0, 5, 1) /\ place "{{ 0b12 }}" = Some (0, 6, 1) /\
  (* a tag that cannot come next *)
  place "x{% endif %}" = Some (0, 1, 11) /\ place "{% if a %}{% endfor %}" = Some (0, 10, 12) /\
  (* a block that is not closed *)
  place "{% if b %}{% endif %}{% for x in y %} {{ x }}" = Some (0, 21, 16) /\
  (* the end of the source, inside of a tag *)
  place "{{ a" = Some (0, 4, 1) /\
  (* something that is no token *)
  place "a }} b" = Some (0, 2, 2) /\ place "{{ ? }}" = Some (0, 3, 2) /\ place "{{ a {{ b" = Some (0, 0, 2) /\
  place "{{ a %}" = Some (0, 5, 2) /\ place "{{ @ }}" = Some (0, 3, 1) /\ place "{{ ""abc" = Some (0, 3, 4).
Proof.
  split; [exact default_user_syntax|]. split; [exact default_trims_ok|]. split; [exact demo_for|].
  repeat split; vm_compute; reflexivity.
Qed.

(** The message of the error of a source. *)
Definition says (source why : string) : Prop :=
  match engine_compile (s2b source) demo_engine with
  | Err (mkerror KSyntax None (Some r) (Some _)) => r = s2b why
  | _ => False
  end.
Example C44_case :
  user_syntax default_syntax /\ (forall source, trims_ok default_syntax source) /\ engine_for default_syntax demo_engine /\
  says "{{ a b }}" "expected end expression, found identifier" /\
  says "{{ a | f: }}" "expected expression, found end expression" /\
  says "{{ a.""b"" }}" "expected identifier or index, found string" /\
  says "{% include a %}" "expected string, found identifier" /\
  says "{% for a as b %}" "expected keyword `in`, found keyword `as`" /\
  says "{% for a b %}" "expected keyword, found identifier" /\
  says "{{ if }}" "unexpected keyword `if`" /\
  says "{{ a.18446744073709551616 }}" "base 10 literal out of range for unsigned 64-bit integer" /\
  says "{{ ""\q"" }}" "unknown escape character" /\
  says "{{ 0b12 }}" "invalid digit for base 2 literal" /\
  says "{{ -0x8000000000000001 }}" "base 16 literal out of range for 64-bit integer" /\
  says "{{ 1.2.3 }}" "invalid float literal" /\
  says "x{% endif %}" "unexpected `endif` block" /\
  says "{% if a %}{% else %}{% else if b %}" "unexpected `else if` block" /\
  says "{% if a %}{% else if b %}{% for x in y %}" "unclosed `if` block" /\
  says "{{ a" "expected end expression, found EOF" /\ says "{{ -" "expected number, found EOF" /\
  says "a }} b" "unexpected end expression" /\ says "{{ a {{ b" "unclosed begin expression" /\
  says "{{ a %}" "unexpected end block" /\ says "{{ @ }}" "unexpected character" /\ says "{{ ""abc" "undelimited string".
Proof.
  split; [exact default_user_syntax|]. split; [exact default_trims_ok|]. split; [exact demo_for|].
  repeat lazymatch goal with |- _ /\ _ => apply conj; [vm_compute; reflexivity|] end. vm_compute. reflexivity.
Qed.
