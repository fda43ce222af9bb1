(** Partial outcomes: "the call ends with Ok or Err, and if Ok then Q". *)
From Verif Require Import Base Utf8 Ext Errors.

Definition wp {A} (x : res A) (Q : A -> Prop) : Prop :=
  match x with Ok a => Q a | Err _ => True | _ => False end.

Lemma wp_bind {A B} (x : res A) (f : A -> res B) Q :
  wp x (fun a => wp (f a) Q) -> wp (bind x f) Q.
Proof. now destruct x. Qed.

Lemma wp_mono {A} (x : res A) (Q R : A -> Prop) : wp x Q -> (forall a, Q a -> R a) -> wp x R.
Proof. destruct x; simpl; auto. Qed.

Lemma wp_Ok {A} (a : A) (Q : A -> Prop) : Q a -> wp (Ok a) Q.
Proof. auto. Qed.

Lemma wp_finished {A} (x : res A) Q : wp x Q -> finished x.
Proof. now destruct x. Qed.

Lemma wp_inv {A} (x : res A) (Q : A -> Prop) : wp x Q -> (exists a, x = Ok a /\ Q a) \/ exists e, x = Err e.
Proof. destruct x; simpl; intros H; eauto; contradiction. Qed.

Section WithExt.
Context `{X : Ext}.

Definition span_ok (source : str) (sp : span) : Prop :=
  sp_m sp <= sp_n sp /\ boundary source (sp_m sp) = true /\ boundary source (sp_n sp) = true.

Lemma index_span_ok {E} source sp : span_ok source sp ->
  @index_span E source sp = Ok (sub source (sp_m sp) (sp_n sp)).
Proof. intros (H1 & H2 & H3). unfold index_span. now apply slice_Ok. Qed.

Lemma span_ok_combine source a b : span_ok source a -> span_ok source b ->
  span_ok source (combine_span a b).
Proof.
  intros (H1 & H2 & H3) (K1 & K2 & K3). unfold span_ok, combine_span; simpl. repeat split.
  - lia.
  - destruct (Nat.min_spec (sp_m a) (sp_m b)) as [[_ ->]|[_ ->]]; auto.
  - destruct (Nat.max_spec (sp_n a) (sp_n b)) as [[_ ->]|[_ ->]]; auto.
Qed.

Lemma split_lines_nonempty cur s : split_lines_aux cur s <> [].
Proof. revert cur; induction s as [|b s IH]; intros cur; simpl; [discriminate|]. destruct (Byte.eqb b x0a); auto. discriminate. Qed.

Lemma split_lines_first cur s : (cur <> [] \/ s <> []) ->
  exists l ls, split_lines_aux cur s = l :: ls /\ (l <> [] \/ ls <> []).
Proof.
  revert cur; induction s as [|b s IH]; intros cur H; simpl.
  - exists (rev cur), []. split; auto. left. destruct H as [H|H]; [|contradiction]. intros E.
    apply H. rewrite <- (rev_involutive cur), E. reflexivity.
  - destruct (Byte.eqb b x0a).
    + eexists _, _. split; [reflexivity|]. right. apply split_lines_nonempty.
    + apply IH. left. discriminate.
Qed.

Lemma split_terminator_nonempty s : s <> [] -> split_terminator s <> [].
Proof.
  intros H. unfold split_terminator. destruct (split_lines_first [] s (or_intror H)) as (l & ls & -> & Hl).
  destruct (rev (l :: ls)) as [|[|b x] r] eqn:E.
  - discriminate.
  - intros Hr. assert (r = []) by (rewrite <- (rev_involutive r), Hr; reflexivity). subst r.
    assert (E2 : l :: ls = [[]]) by (rewrite <- (rev_involutive (l :: ls)), E; reflexivity).
    injection E2 as -> ->. destruct Hl; contradiction.
  - discriminate.
Qed.

Lemma build_pretty_ok source sp : source <> [] -> span_ok source sp ->
  exists p, build_pretty source sp = Ok p.
Proof.
  intros Hs Hsp. unfold build_pretty. destruct (to_ln_col _ _) as [ln col].
  rewrite index_span_ok by assumption. simpl.
  destruct (nth_error (split_terminator source) ln) as [l|]; simpl; [eauto|].
  destruct (rev (split_terminator source)) as [|l r] eqn:E; simpl; [|eauto].
  exfalso. apply (split_terminator_nonempty _ Hs).
  rewrite <- (rev_involutive (split_terminator source)), E. reflexivity.
Qed.

Lemma err_syntax_Err {A} msg source sp : source <> [] -> span_ok source sp ->
  exists e, @err_syntax X A msg source sp = Err e.
Proof.
  intros H1 H2. unfold err_syntax. destruct (build_pretty_ok source sp H1 H2) as [p ->]. simpl. eauto.
Qed.

Lemma err_syntax_wp {A} msg source sp (Q : A -> Prop) : source <> [] -> span_ok source sp ->
  wp (err_syntax msg source sp) Q.
Proof. intros H1 H2. destruct (@err_syntax_Err A msg source sp H1 H2) as [e ->]. exact I. Qed.

Lemma err_render_wp {A} msg source sp (Q : A -> Prop) : source <> [] -> span_ok source sp ->
  wp (err_render msg source sp) Q.
Proof.
  intros H1 H2. unfold err_render. destruct (build_pretty_ok source sp H1 H2) as [p ->]. exact I.
Qed.
End WithExt.
