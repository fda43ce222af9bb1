(** The raw texts a program emits are the raw tokens of the template outside
    comments, in order. *)
From Verif Require Import Base Utf8 Ext Errors Syntax AhoCorasick SearchSpec SyntaxSpec Value Ast Lexer LexSpec Wp
  GrammarSpec ParseComplete Compiler CompileProof CompileFacts.

(** The spans of the raw tokens of a token list. *)
Fixpoint raws (ts : list tok) : list span :=
  match ts with
  | [] => []
  | (TRaw, sp) :: ts' => sp :: raws ts'
  | _ :: ts' => raws ts'
  end.
(** The spans of the raw texts emitted by a program. *)
Fixpoint emits (l : list instr) : list span :=
  match l with
  | [] => []
  | IEmitRaw sp :: l' => sp :: emits l'
  | _ :: l' => emits l'
  end.

Lemma raws_app a b : raws (a ++ b) = raws a ++ raws b.
Proof. induction a as [|[t s] a IH]; auto. cbn [app raws]. rewrite IH. now destruct t. Qed.
Lemma emits_app a b : emits (a ++ b) = emits a ++ emits b.
Proof. induction a as [|i a IH]; auto. cbn [app emits]. rewrite IH. now destruct i. Qed.
Lemma emits_cexpr e : emits (cexpr e) = [].
Proof. induction e as [[|]|]; auto. cbn [cexpr]. rewrite emits_app, IHe. reflexivity. Qed.
Lemma emits_cinline e : emits (cinline e) = [].
Proof.
  destruct e as [b|n a r s]; cbn [cinline]; [|destruct a]; rewrite emits_app, emits_cexpr; reflexivity.
Qed.

Section Raws.
Context `{X : Ext}.
Variable source : str.
Lemma raws_access ts a : g_access source ts a -> raws ts = [].
Proof. destruct 1; auto. Qed.
Lemma raws_members ts a : g_members source ts a -> raws ts = [].
Proof. induction 1; auto; cbn [raws]; rewrite raws_app, IHg_members; apply raws_access in H; now rewrite H. Qed.
Lemma raws_base ts a : g_base source ts a -> raws ts = [].
Proof. destruct 1; auto. apply raws_members in H. auto. Qed.
Lemma raws_args ts a : g_args source ts a -> raws ts = [].
Proof. induction 1; apply raws_base in H; auto. rewrite raws_app, H. auto. Qed.
Lemma raws_expr ts a : g_expr source ts a -> raws ts = [].
Proof.
  induction 1; [now apply raws_base in H|rewrite raws_app, IHg_expr; auto|].
  rewrite raws_app, IHg_expr. apply raws_args in H0. auto.
Qed.
Lemma raws_kw s ts : kw source s ts -> raws ts = [].
Proof. intros (sp & -> & _). auto. Qed.
Lemma raws_cond ts n a : g_cond source ts n a -> raws ts = [].
Proof. destruct 1 as [ts e He|k ts e Hk He]; apply raws_expr in He; auto. apply raws_kw in Hk. now rewrite raws_app, Hk, He. Qed.
Lemma raws_vars ts a : g_vars ts a -> raws ts = [].
Proof. destruct 1; auto. Qed.
Lemma raws_tag i t : tag_block i t -> raws i = [] -> raws t = [].
Proof. intros (b & e & ->) H. cbn [raws]. now rewrite raws_app, H. Qed.

Ltac rw := repeat (rewrite raws_app || rewrite emits_app || rewrite emits_cexpr || rewrite emits_cinline || (progress cbn [raws emits app])).

Ltac fin := rw; repeat match goal with
  | E : raws ?t = [] |- context [raws ?t] => rewrite E
  | IH : forall off, emits (_ off _) = raws _ |- _ => rewrite IH
  end; rw; rewrite ?app_nil_r; reflexivity.

(** In a grammatical token list without comments. *)
Lemma emits_raws :
  (forall ts s, g_stmt source ts s -> plain ts -> forall off, emits (cstmt off s) = raws ts) /\
  (forall ts l, g_scope source ts l -> plain ts -> forall off, emits (cscope off l) = raws ts) /\
  (forall ts e, g_else source ts e -> plain ts ->
     forall off, match e with Some l => emits (cscope off l) = raws ts | None => raws ts = [] end).
Proof.
  apply g_mut; intros;
  repeat match goal with
  | H : kw source _ ?t |- _ => pose proof (raws_kw _ _ H); revert H
  | H : g_expr source _ _ |- _ => pose proof (raws_expr _ _ H); revert H
  | H : g_cond source _ _ _ |- _ => pose proof (raws_cond _ _ _ H); revert H
  | H : g_vars _ _ |- _ => pose proof (raws_vars _ _ H); revert H
  end; intros;
  repeat match goal with
  | H : tag_block ?i ?t |- _ =>
      let K := fresh in assert (K : raws t = []) by (apply (raws_tag _ _ H); rw;
        repeat match goal with E : raws _ = [] |- _ => rewrite E end; reflexivity); revert H
  end; intros;
  repeat match goal with
  | H : plain (_ ++ _) |- _ => apply Forall_app in H as [? H]
  | H : Forall _ (_ ++ _) |- _ => apply Forall_app in H as [? H]
  end.
  all: repeat match goal with
  | IH : plain ?ts -> _, H : Forall _ ?ts |- _ => specialize (IH H)
  | IH : plain ?ts -> _, H : plain ?ts |- _ => specialize (IH H)
  end.
  - reflexivity.
  - cbn [cstmt]. fin.
  - cbn [cstmt]. fin.
  - cbn [cstmt]. fin.
  - destruct els as [els|].
    + rewrite cstmt_if_else. cbv zeta. destruct n; fin.
    + rewrite cstmt_if. cbv zeta. match goal with IH : nat -> raws _ = [] |- _ => specialize (IH 0) end. destruct n; fin.
  - rewrite cstmt_for. cbv zeta. fin.
  - rewrite cstmt_with. cbv zeta. fin.
  - reflexivity.
  - exfalso. match goal with K : plain (_ :: _) |- _ => inversion K as [|? ? E]; now apply E end.
  - cbn [cscope]. fin.
  - assumption.
  - fin.
  - destruct els as [els|]; cbn [cscope].
    + rewrite cstmt_if_else. cbv zeta. destruct n; fin.
    + rewrite cstmt_if. cbv zeta. match goal with IH : nat -> raws _ = [] |- _ => specialize (IH 0) end. destruct n; fin.
Qed.
End Raws.

(** A grammatical token list without comment openings has no comment endings. *)
Section NoEnd.
Context `{X : Ext}.
Variable source : str.
Definition noend (ts : list tok) : Prop := Forall (fun t => fst t <> TEndComment) ts.
Lemma noend_app a b : noend a -> noend b -> noend (a ++ b).
Proof. intros. apply Forall_app. auto. Qed.
Ltac ne := repeat (apply noend_app || (apply Forall_cons; [discriminate|]) || apply Forall_nil || assumption); auto.
Lemma noend_access ts a : g_access source ts a -> noend ts.
Proof. destruct 1; ne. Qed.
Lemma noend_members ts a : g_members source ts a -> noend ts.
Proof. induction 1; try apply noend_access in H; ne. Qed.
Lemma noend_base ts a : g_base source ts a -> noend ts.
Proof. destruct 1; try apply noend_members in H; ne. Qed.
Lemma noend_args ts a : g_args source ts a -> noend ts.
Proof. induction 1; apply noend_base in H; ne. Qed.
Lemma noend_expr ts a : g_expr source ts a -> noend ts.
Proof. induction 1; try apply noend_base in H; try apply noend_args in H0; ne. Qed.
Lemma noend_kw s ts : kw source s ts -> noend ts.
Proof. intros (sp & -> & _). ne. Qed.
Lemma noend_cond ts n a : g_cond source ts n a -> noend ts.
Proof. destruct 1 as [ts e He|k ts e Hk He]; apply noend_expr in He; try apply noend_kw in Hk; ne. Qed.
Lemma noend_vars ts a : g_vars ts a -> noend ts.
Proof. destruct 1; ne. Qed.
Lemma noend_tag i t : tag_block i t -> noend i -> noend t.
Proof. intros (b & e & ->) H. ne. Qed.
Lemma no_end_comment :
  (forall ts s, g_stmt source ts s -> plain ts -> noend ts) /\
  (forall ts l, g_scope source ts l -> plain ts -> noend ts) /\
  (forall ts e, g_else source ts e -> plain ts -> noend ts).
Proof.
  apply g_mut; intros;
  repeat match goal with
  | H : kw source _ ?t |- _ => pose proof (noend_kw _ _ H); revert H
  | H : g_expr source _ _ |- _ => pose proof (noend_expr _ _ H); revert H
  | H : g_cond source _ _ _ |- _ => pose proof (noend_cond _ _ _ H); revert H
  | H : g_vars _ _ |- _ => pose proof (noend_vars _ _ H); revert H
  end; intros;
  repeat match goal with
  | H : tag_block ?i ?t |- _ =>
      let K := fresh in assert (K : noend t) by (apply (noend_tag _ _ H); ne); revert H
  end; intros;
  repeat match goal with
  | H : plain (_ ++ _) |- _ => apply Forall_app in H as [? H]
  | H : Forall _ (_ ++ _) |- _ => apply Forall_app in H as [? H]
  end.
  all: repeat match goal with
  | IH : plain ?ts -> _, H : Forall _ ?ts |- _ => specialize (IH H)
  | IH : plain ?ts -> _, H : plain ?ts |- _ => specialize (IH H)
  end; try solve [ne].
  exfalso. match goal with K : plain (_ :: _) |- _ => inversion K as [|? ? E]; now apply E end.
Qed.
End NoEnd.
