(** The size of a compiled template: proofs. *)
From Verif Require Import Base Utf8 Ext Errors Syntax SearchSpec SyntaxSpec Value Ast Lexer LexSpec LexProof GrammarSpec AstOk TokStream CompileProof SizeSpec.

Section Size.
Context `{X : Ext}.
Variable sx : syntax.
Hypothesis Hsx : user_syntax sx.
Variable source : str.
Hypothesis Hsrc : valid_utf8 source.

(** A token weighs its bytes if it is a string, and at least one byte anyway. *)
Definition wt (t : tok) : nat :=
  match fst t with
  | TString => length (flat_map encode (chars (sub source (sp_m (snd t)) (sp_n (snd t)))))
  | _ => 1
  end.
Definition weight (ts : list tok) : nat := list_sum (map wt ts).
Lemma weight_app a b : weight (a ++ b) = weight a + weight b.
Proof. unfold weight. now rewrite map_app, list_sum_app. Qed.
Lemma weight_cons t b : weight (t :: b) = wt t + weight b.
Proof. reflexivity. Qed.

Lemma tiling_weight full at_ md ts : tiling sx source full at_ md ts -> weight ts <= length source - at_.
Proof.
  induction 1; [cbn; lia| | | |]; rewrite weight_cons.
  - unfold wt. cbn [fst]. lia.
  - pose proof (tag_facts0 sx Hsx source Hsrc _ _ _ H0). replace (wt (tag_token k, mkspan m n)) with 1 by (destruct k; reflexivity). lia.
  - pose proof (tag_facts0 sx Hsx source Hsrc _ _ _ H0). replace (wt (tag_token k, mkspan m n)) with 1 by (destruct k; reflexivity). lia.
  - assert (wt (t, mkspan m n) <= n - m); [|lia]. unfold wt. cbn [fst snd sp_m sp_n]. destruct t; try lia.
    rewrite flat_map_chars by (apply sub_valid; auto; lia). rewrite sub_length by lia. lia.
Qed.
Lemma weight_nonspace ts : weight (nonspace ts) <= weight ts.
Proof.
  unfold nonspace. induction ts as [|t ts IH]; cbn [List.filter]; [auto|]. rewrite weight_cons. destruct (negb (is_space t)); [rewrite weight_cons|]; lia.
Qed.

(** ** Expressions *)
Lemma encode_pos c : 1 <= length (encode c).
Proof. pose proof (encode_nonempty c). destruct (encode c); [contradiction|cbn; lia]. Qed.
Lemma unescaped_length cs out : unescaped cs out -> length out <= length (flat_map encode cs).
Proof.
  induction 1; cbn [flat_map length]; rewrite ?app_length; cbn [length]; try lia;
    repeat match goal with |- context [length (encode ?c)] => lazymatch goal with K : 1 <= length (encode c) |- _ => fail | _ => pose proof (encode_pos c) end end; lia.
Qed.
Lemma string_weight sp s : string_lit (txt source sp) s -> 2 + length s <= wt (TString, sp).
Proof.
  intros (body & E & U). apply unescaped_length in U. unfold wt. cbn [fst snd]. unfold txt in E. rewrite E. cbn [flat_map]. rewrite flat_map_app, !app_length. cbn [flat_map].
  rewrite app_length. pose proof (encode_pos 34). cbn [length]. lia.
Qed.
Lemma access_weight ts a : g_access source ts a -> weight ts = 1.
Proof. destruct 1; reflexivity. Qed.
Lemma members_weight ts ms : g_members source ts ms -> 2 * length ms <= weight ts.
Proof.
  induction 1 as [|sp ts a ts' ms Ha _ IH|sp ts a ts' ms Ha _ IH]; [cbn; lia| |]; rewrite weight_cons, weight_app, (access_weight _ _ Ha); cbn [length wt fst]; lia.
Qed.
Lemma base_weight ts b : g_base source ts b -> 1 <= weight ts /\ arg_size b <= weight ts /\ instr_size (cbase b) <= 1 + weight ts.
Proof.
  destruct 1 as [sp ts ms H|sp|sp|sp v H|s1 sp v H|s1 sp v H|sp s H]; rewrite ?weight_cons.
  - apply members_weight in H. cbn [arg_size cbase instr_size length wt fst]. lia.
  - cbn. lia.
  - cbn. lia.
  - assert (lit_size v = 0) by (destruct H; reflexivity). cbn [arg_size cbase instr_size wt fst]. lia.
  - assert (lit_size v = 0) by (destruct H; reflexivity). cbn [arg_size cbase instr_size wt fst]. lia.
  - assert (lit_size v = 0) by (destruct H; reflexivity). cbn [arg_size cbase instr_size wt fst]. lia.
  - apply string_weight in H. cbn [arg_size cbase instr_size lit_size]. lia.
Qed.
Lemma args_weight ts bs : g_args source ts bs -> 1 <= weight ts /\ list_sum (map arg_size bs) <= weight ts.
Proof.
  induction 1 as [ts b H|ts b c ts' bs H _ IH].
  - apply base_weight in H. change (list_sum (map arg_size [b])) with (arg_size b + 0). lia.
  - apply base_weight in H. rewrite weight_app, weight_cons. change (list_sum (map arg_size (b :: bs))) with (arg_size b + list_sum (map arg_size bs)). lia.
Qed.
Definition csize (c : list instr) : nat := list_sum (map instr_size c).
Lemma csize_app a b : csize (a ++ b) = csize a + csize b.
Proof. unfold csize. now rewrite map_app, list_sum_app. Qed.
Lemma csize_cons i b : csize (i :: b) = instr_size i + csize b.
Proof. reflexivity. Qed.
Lemma expr_weight ts e : g_expr source ts e -> 1 <= weight ts /\ csize (cexpr e) <= 1 + weight ts.
Proof.
  induction 1 as [ts b H|ts e p n _ IH|ts e p n c ts' bs _ IH H].
  - apply base_weight in H. cbn [cexpr]. rewrite csize_cons. change (csize []) with 0. lia.
  - rewrite weight_app. cbn [cexpr]. rewrite csize_app, csize_cons. change (csize []) with 0. cbn [instr_size]. change (weight [(TPipe, p); (TIdent, n)]) with 2. lia.
  - apply args_weight in H. rewrite weight_app, !weight_cons. cbn [cexpr]. rewrite csize_app, csize_cons. change (csize []) with 0. cbn [instr_size a_values wt fst]. lia.
Qed.
Lemma inline_size e : csize (cinline e) <= 1 + csize (cexpr e).
Proof.
  destruct e as [b|n [a|] r sp]; cbn [cinline]; rewrite ?csize_app, ?csize_cons; change (csize []) with 0; cbn [instr_size cexpr]; try lia.
  rewrite csize_app, csize_cons. change (csize []) with 0. cbn [instr_size]. lia.
Qed.
Lemma cond_weight ts n e : g_cond source ts n e -> csize (cexpr e) <= 1 + weight ts.
Proof. destruct 1 as [ts e H|k ts e K H]; apply expr_weight in H; rewrite ?weight_app; lia. Qed.
Lemma kw_weight s k : kw source s k -> weight k = 1.
Proof. intros (sp & -> & _). reflexivity. Qed.
Lemma tag_weight inner t : tag_block inner t -> weight t = 2 + weight inner.
Proof. intros (b & e & ->). rewrite weight_cons, weight_app. cbn. lia. Qed.

(** ** Statements *)
Notation cscope := CompileProof.cscope.
Ltac weigh :=
  repeat match goal with
  | H : kw source _ _ |- _ => apply kw_weight in H
  | H : tag_block _ _ |- _ => apply tag_weight in H
  | H : g_cond source _ _ _ |- _ => apply cond_weight in H
  | H : g_expr source _ _ |- _ => apply expr_weight in H
  end; rewrite ?weight_app in *.
Lemma size_if off n c thn els k kt ke : csize (cexpr c) <= k -> (forall off, csize (cscope off thn) <= kt) ->
  match els with Some l => forall off, 1 + csize (cscope off l) <= ke | None => True end -> csize (cstmt off (SIf n c thn els)) <= 1 + k + kt + ke.
Proof.
  intros Hk Ht He. destruct els as [els|].
  - rewrite cstmt_if_else. cbv zeta. rewrite csize_app, csize_cons, csize_app, csize_cons.
    replace (instr_size (if n then IJumpIfTrue _ else IJumpIfFalse _)) with 1 by (destruct n; reflexivity). cbn [instr_size].
    specialize (Ht (off + length (cexpr c) + 1)). set (o2 := off + length (cexpr c) + 1 + length (cscope (off + length (cexpr c) + 1) thn) + 1). specialize (He o2). lia.
  - rewrite cstmt_if. cbv zeta. rewrite csize_app, csize_cons.
    replace (instr_size (if n then IJumpIfTrue _ else IJumpIfFalse _)) with 1 by (destruct n; reflexivity).
    specialize (Ht (off + length (cexpr c) + 1)). lia.
Qed.
Lemma size_scope :
  (forall ts s, g_stmt source ts s -> forall off, csize (cstmt off s) <= weight ts) /\
  (forall ts l, g_scope source ts l -> forall off, csize (cscope off l) <= weight ts) /\
  (forall ts e, g_else source ts e -> match e with Some l => forall off, 1 + csize (cscope off l) <= weight ts | None => True end).
Proof.
  apply g_mind; intros.
  - cbn [cstmt]. rewrite csize_cons. cbn. lia.
  - cbn [cstmt]. weigh. rewrite weight_cons, weight_app. cbn [wt fst]. pose proof (inline_size e). change (weight [(TEndExpr, en)]) with 1. lia.
  - cbn [cstmt]. rewrite csize_cons. change (csize []) with 0. cbn [instr_size as_name]. apply string_weight in H0. weigh. rewrite weight_cons in H1. change (weight []) with 0 in H1. lia.
  - cbn [cstmt]. rewrite csize_app, csize_cons. change (csize []) with 0. cbn [instr_size as_name]. apply string_weight in H0. weigh. rewrite weight_cons, weight_app in H3. lia.
  - weigh. pose proof (size_if off n c thn els _ _ _ H0 H3 H5). lia.
  - weigh. rewrite cstmt_for. cbv zeta. rewrite csize_app, !csize_cons, csize_app, csize_cons. change (csize []) with 0. cbn [instr_size].
    specialize (H5 (off + length (cexpr e) + 1 + 1)). lia.
  - weigh. rewrite cstmt_with. cbv zeta. rewrite csize_app, !csize_cons, csize_app, csize_cons. change (csize []) with 0. cbn [instr_size].
    specialize (H4 (off + length (cexpr e) + 1)). change (weight [(TIdent, n)]) with 1 in *. lia.
  - cbn. lia.
  - rewrite !weight_cons. specialize (H0 off). lia.
  - rewrite weight_app. cbn [CompileProof.cscope]. cbv zeta. rewrite csize_app. specialize (H0 off). specialize (H2 (off + length (cstmt off s))). lia.
  - exact I.
  - weigh. specialize (H2 off). lia.
  - weigh. cbn [CompileProof.cscope]. cbv zeta. rewrite csize_app. change (csize []) with 0. pose proof (size_if off n c thn els _ _ _ H1 H4 H6). lia.
Qed.
Lemma derives_size s : derives sx source s -> csize (cscope 0 s) <= length source.
Proof.
  intros (ts & T & G). apply tiling_weight in T. pose proof (weight_nonspace ts). pose proof (proj1 (proj2 size_scope) _ _ G 0). lia.
Qed.
End Size.
