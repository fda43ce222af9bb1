(** The syntaxes a user can configure: everything reachable with the public
    [SyntaxBuilder] API from UTF-8 delimiters. *)
From Verif Require Import Base Utf8 Syntax.

(** A builder obtained from [Syntax::builder()] by calls of [expr], [block] and
    [comment] that did not panic. *)
Inductive buildable : syntax_builder -> Prop :=
| bd_new : buildable sb_new
| bd_expr sb sb' b e : buildable sb -> valid_utf8 b -> valid_utf8 e ->
    @sb_set_expr unit b e sb = Ok sb' -> buildable sb'
| bd_block sb sb' b e : buildable sb -> valid_utf8 b -> valid_utf8 e ->
    @sb_set_block unit b e sb = Ok sb' -> buildable sb'
| bd_comment sb sb' b e : buildable sb -> valid_utf8 b -> valid_utf8 e ->
    @sb_set_comment unit b e sb = Ok sb' -> buildable sb'.

(** [user_syntax sx]: [sx] is a [Syntax] a program can construct. *)
Definition user_syntax (sx : syntax) : Prop := exists sb, buildable sb /\ sx = sb_build sb.

Definition pair_ok (p : option (str * str)) : Prop :=
  match p with
  | None => True
  | Some (b, e) => b <> [] /\ e <> [] /\ valid_utf8 b /\ valid_utf8 e
  end.

Lemma buildable_ok sb : buildable sb ->
  pair_ok (sb_expr sb) /\ pair_ok (sb_block sb) /\ pair_ok (sb_comment sb).
Proof.
  assert (Hne : forall b e : str, negb (is_empty b) && negb (is_empty e) = true -> b <> [] /\ e <> []).
  { intros [|] [|]; simpl; try discriminate; split; discriminate. }
  induction 1 as [|sb sb' b e _ IH Hb He H|sb sb' b e _ IH Hb He H|sb sb' b e _ IH Hb He H].
  - simpl. auto.
  - unfold sb_set_expr in H. destruct (_ && _) eqn:E; [|discriminate]. injection H as <-.
    apply Hne in E. simpl. tauto.
  - unfold sb_set_block in H. destruct (_ && _) eqn:E; [|discriminate]. injection H as <-.
    apply Hne in E. simpl. tauto.
  - unfold sb_set_comment in H. destruct (_ && _) eqn:E; [|discriminate]. injection H as <-.
    apply Hne in E. simpl. tauto.
Qed.

Lemma hyphen_valid : valid_utf8 [x2d].
Proof. apply asciib_valid. reflexivity. Qed.

Lemma user_syntax_pat sx : user_syntax sx ->
  forall k p, In (k, p) sx -> p <> [] /\ valid_utf8 p.
Proof.
  intros (sb & Hb & ->) k p Hin. apply buildable_ok in Hb as (H1 & H2 & H3).
  assert (G : forall b e : str, b <> [] -> e <> [] -> valid_utf8 b -> valid_utf8 e ->
    (b <> [] /\ valid_utf8 b) /\ (e <> [] /\ valid_utf8 e) /\
    (b ++ [x2d] <> [] /\ valid_utf8 (b ++ [x2d])) /\ (x2d :: e <> [] /\ valid_utf8 (x2d :: e))).
  { intros b e Hb He Vb Ve. repeat split; auto; try discriminate.
    - now destruct b.
    - apply valid_app; auto using hyphen_valid.
    - change (x2d :: e) with ([x2d] ++ e). apply valid_app; auto using hyphen_valid. }
  unfold sb_build in Hin. rewrite !in_app_iff in Hin. destruct Hin as [Hin|[Hin|Hin]].
  - destruct (sb_expr sb) as [[b e]|]; [|destruct Hin]. destruct H1 as (A & B & C & D).
    specialize (G b e A B C D).
    destruct Hin as [Hi|[Hi|[Hi|[Hi|[]]]]]; injection Hi as <- <-; tauto.
  - destruct (sb_block sb) as [[b e]|]; [|destruct Hin]. destruct H2 as (A & B & C & D).
    specialize (G b e A B C D).
    destruct Hin as [Hi|[Hi|[Hi|[Hi|[]]]]]; injection Hi as <- <-; tauto.
  - destruct (sb_comment sb) as [[b e]|]; [|destruct Hin]. destruct H3 as (A & B & C & D).
    specialize (G b e A B C D).
    destruct Hin as [Hi|[Hi|[Hi|[Hi|[]]]]]; injection Hi as <- <-; tauto.
Qed.

Lemma default_user_syntax : user_syntax default_syntax.
Proof.
  set (s1 := {| sb_expr := Some (s2b "{{", s2b "}}"); sb_block := None; sb_comment := None |}).
  set (s2 := {| sb_expr := Some (s2b "{{", s2b "}}"); sb_block := Some (s2b "{%", s2b "%}");
                sb_comment := None |}).
  eexists. split; [|reflexivity].
  apply (bd_comment s2 _ (s2b "{#") (s2b "#}")); [|apply asciib_valid; reflexivity..|reflexivity].
  apply (bd_block s1 _ (s2b "{%") (s2b "%}")); [|apply asciib_valid; reflexivity..|reflexivity].
  apply (bd_expr sb_new _ (s2b "{{") (s2b "}}")); [|apply asciib_valid; reflexivity..|reflexivity].
  apply bd_new.
Qed.
