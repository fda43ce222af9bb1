(** Facts about trimming white space. *)
From Verif Require Import Base Utf8 Ext Errors Syntax SearchSpec Lexer LexSpec.

Lemma white_valid s : white s -> valid_utf8 s.
Proof.
  intros (cs & H & ->). exists cs. split; auto. eapply Forall_impl; [|exact H]. simpl. tauto.
Qed.

Lemma white_nil : white [].
Proof. exists []. split; [constructor|reflexivity]. Qed.

Lemma flat_map_len cs : length (flat_map encode cs) = list_sum (map len_utf8 cs).
Proof. induction cs as [|c cs IH]; simpl; auto. rewrite app_length, IH. reflexivity. Qed.

(** Splitting the longest white prefix of a list of characters. *)
Lemma ws_split cs : exists a b, cs = a ++ b /\ Forall (fun c => is_white_space c = true) a /\
  match b with [] => True | c :: _ => is_white_space c = false end /\
  trim_start_chars cs = length (flat_map encode a).
Proof.
  induction cs as [|c cs (a & b & -> & Ha & Hb & IH)].
  - exists [], []. repeat split; auto.
  - simpl. destruct (is_white_space c) eqn:E.
    + exists (c :: a), b. repeat split; auto. simpl. rewrite app_length, IH. reflexivity.
    + exists [], (c :: a ++ b). repeat split; auto.
Qed.

Lemma Forall_and2 {A} (P Q : A -> Prop) l : Forall P l -> Forall Q l -> Forall (fun x => P x /\ Q x) l.
Proof. intros H. induction H; intros K; inversion K; subst; constructor; auto. Qed.

Lemma trim_start_spec s : valid_utf8 s ->
  exists w, s = w ++ trim_start s /\ white w /\ valid_utf8 (trim_start s) /\ ~ starts_white (trim_start s).
Proof.
  intros (cs & Hcs & ->). unfold trim_start. rewrite chars_flat_map by assumption.
  destruct (ws_split cs) as (a & b & -> & Ha & Hb & ->).
  apply Forall_app in Hcs as [Hca Hcb].
  rewrite flat_map_app, skipn_app, skipn_all, Nat.sub_diag. simpl.
  exists (flat_map encode a). split; auto. split; [|split].
  - exists a. split; auto. now apply Forall_and2.
  - now exists b.
  - intros (c & t & Hc & Hw & E). destruct b as [|c' b]; simpl in E.
    + symmetry in E. apply app_eq_nil in E as [E _]. now apply encode_nonempty in E.
    + inversion Hcb; subst. apply encode_app_inj in E as [-> _]; auto. congruence.
Qed.

Lemma encode_snoc_inj cs c cs' c' : Forall scalar cs -> Forall scalar cs' -> scalar c -> scalar c' ->
  flat_map encode cs ++ encode c = flat_map encode cs' ++ encode c' -> cs = cs' /\ c = c'.
Proof.
  intros H1 H2 H3 H4 E.
  assert (E1 : flat_map encode (cs ++ [c]) = flat_map encode (cs' ++ [c'])).
  { rewrite !flat_map_app. simpl. now rewrite !app_nil_r. }
  apply (f_equal chars) in E1. rewrite !chars_flat_map in E1 by (apply Forall_app; auto).
  now apply app_inj_tail in E1.
Qed.

(** A valid string split before a valid suffix. *)
Lemma valid_app_inv_r a b : valid_utf8 (a ++ b) -> valid_utf8 b -> valid_utf8 a.
Proof.
  intros Hab Hb.
  assert (B : boundary (a ++ b) (length a) = true) by now apply boundary_app.
  apply boundary_split in B as [B _]; auto. now rewrite firstn_app, Nat.sub_diag, firstn_all, app_nil_r in B.
Qed.

Lemma ends_white_app a b : valid_utf8 a -> b <> [] -> valid_utf8 b -> ends_white (a ++ b) -> ends_white b.
Proof.
  intros (ca & Ha & ->) Hb (cb & Hcb & ->) (c & t & Hc & Hw & E).
  destruct cb as [|c1 cb1] using rev_ind; [contradiction|]. clear IHcb1.
  assert (Ht : valid_utf8 t).
  { apply valid_app_inv_r with (encode c); auto using valid_encode. rewrite <- E.
    apply valid_app; eexists; eauto. }
  destruct Ht as (ct & Hct & ->). apply Forall_app in Hcb as [Hcb1 Hc1]. inversion Hc1; subst.
  rewrite flat_map_app, app_assoc, <- flat_map_app in E. simpl in E. rewrite app_nil_r in E.
  apply encode_snoc_inj in E as [_ ->]; auto; [|now apply Forall_app].
  exists c, (flat_map encode cb1). rewrite flat_map_app. simpl. rewrite app_nil_r. auto.
Qed.

Lemma rev_flat_map_len a : length (flat_map encode (rev a)) = length (flat_map encode a).
Proof.
  rewrite !flat_map_len, map_rev. induction (map len_utf8 a) as [|x l IH]; simpl; auto.
  rewrite list_sum_app. simpl. lia.
Qed.

Lemma trim_end_spec s : valid_utf8 s ->
  exists w, s = trim_end s ++ w /\ white w /\ valid_utf8 (trim_end s) /\ ~ ends_white (trim_end s).
Proof.
  intros (cs & Hcs & ->). unfold trim_end. rewrite chars_flat_map by assumption.
  destruct (ws_split (rev cs)) as (a & b & Er & Ha & Hb & ->).
  assert (Ec : cs = rev b ++ rev a).
  { rewrite <- (rev_involutive cs), Er, rev_app_distr. reflexivity. }
  subst cs. apply Forall_app in Hcs as [Hcb Hca].
  rewrite flat_map_app, app_length, (rev_flat_map_len a), Nat.add_sub.
  rewrite firstn_app, firstn_all, Nat.sub_diag, app_nil_r. simpl.
  exists (flat_map encode (rev a)). split; auto. split; [|split].
  - exists (rev a). split; auto. apply Forall_and2; auto. now apply Forall_rev.
  - now exists (rev b).
  - intros (c & t & Hc & Hw & E). destruct b as [|c' b]; simpl in E.
    + symmetry in E. apply app_eq_nil in E as [_ E]. now apply encode_nonempty in E.
    + simpl in Hcb. apply Forall_app in Hcb as [Hcb Hc']. inversion Hc'; subst.
      rewrite flat_map_app in E. simpl in E. rewrite app_nil_r in E.
      assert (Ht : valid_utf8 t).
      { apply valid_app_inv_r with (encode c); auto using valid_encode. rewrite <- E.
        apply valid_app; [eexists; eauto|now apply valid_encode]. }
      destruct Ht as (ct & Hct & ->). apply encode_snoc_inj in E as [_ ->]; auto. congruence.
Qed.

(** Trimming is determined by this specification. *)
Lemma white_app a b : white a -> white b -> white (a ++ b).
Proof.
  intros (ca & Ha & ->) (cb & Hb & ->). exists (ca ++ cb). rewrite flat_map_app. split; auto.
  now apply Forall_app.
Qed.

Lemma white_ends s : white s -> s <> [] -> ends_white s.
Proof.
  intros (cs & H & ->) Hs. destruct cs as [|c cs _] using rev_ind; [contradiction|].
  apply Forall_app in H as [_ H]. inversion H; subst. exists c, (flat_map encode cs).
  rewrite flat_map_app. simpl. rewrite app_nil_r. tauto.
Qed.
Lemma white_starts s : white s -> s <> [] -> starts_white s.
Proof.
  intros (cs & H & ->) Hs. destruct cs as [|c cs]; [contradiction|].
  inversion H; subst. exists c, (flat_map encode cs). tauto.
Qed.

Lemma white_suffix a b : valid_utf8 a -> valid_utf8 b -> white (a ++ b) -> white a /\ white b.
Proof.
  intros (ca & Ha & ->) (cb & Hb & ->) (cs & H & E). rewrite <- flat_map_app in E.
  apply (f_equal chars) in E. rewrite !chars_flat_map in E.
  - subst cs. apply Forall_app in H as [H1 H2]. split; eexists; eauto.
  - eapply Forall_impl; [|exact H]. simpl. tauto.
  - now apply Forall_app.
Qed.

Lemma app_cases {A} (a b c d : list A) : a ++ b = c ++ d ->
  (exists x, a = c ++ x /\ d = x ++ b) \/ (exists x, c = a ++ x /\ b = x ++ d).
Proof.
  revert c; induction a as [|h a IH]; intros c E.
  - right. exists c. auto.
  - destruct c as [|h' c].
    + left. exists (h :: a). auto.
    + simpl in E. injection E as -> E. destruct (IH c E) as [(x & -> & ->)|(x & -> & ->)]; [left|right]; exists x; auto.
Qed.

Lemma ends_white_dec s : valid_utf8 s -> ends_white s \/ ~ ends_white s.
Proof.
  intros H. destruct (trim_end_spec s H) as (w & E & Hw & _ & Hn). destruct w as [|x w].
  - right. rewrite app_nil_r in E. rewrite E. exact Hn.
  - left. apply white_ends in Hw as (c & t & H1 & H2 & H3); [|discriminate]. exists c, (trim_end s ++ t). rewrite <- app_assoc, <- H3. auto.
Qed.

(** Trimming the end of [a ++ b] where [a] does not end in white space, or [b] is not white. *)
Lemma trim_end_app a b : valid_utf8 a -> valid_utf8 b -> ~ ends_white a \/ ~ white b ->
  trim_end (a ++ b) = a ++ trim_end b.
Proof.
  intros Ha Hb Hna.
  destruct (trim_end_spec (a ++ b) (valid_app _ _ Ha Hb)) as (w & E & Hw & Hv & Hn).
  destruct (trim_end_spec b Hb) as (w2 & E2 & Hw2 & Hv2 & Hn2).
  set (t := trim_end (a ++ b)) in *. set (t2 := trim_end b) in *.
  assert (Hx : t ++ w = (a ++ t2) ++ w2) by (rewrite <- app_assoc, <- E2; auto).
  assert (Hat : ~ ends_white (a ++ t2)).
  { destruct t2 as [|x t2'].
    - rewrite app_nil_r. destruct Hna as [Hna|Hna]; auto. exfalso. apply Hna. rewrite E2. exact Hw2.
    - intros H. apply ends_white_app in H; auto. discriminate. }
  destruct (app_cases _ _ _ _ Hx) as [(x & Et & Ew)|(x & Et & Ew)].
  - destruct x as [|h x]; [now rewrite app_nil_r in Et|]. exfalso. apply Hn.
    assert (Hvx : valid_utf8 (h :: x)).
    { apply valid_app_inv_r with w; [|now apply white_valid]. rewrite <- Ew. now apply white_valid. }
    assert (Hwx : white (h :: x)).
    { apply (white_suffix (h :: x) w); auto; [now apply white_valid|]. now rewrite <- Ew. }
    apply white_ends in Hwx as (c & tt & H1 & H2 & H3); [|discriminate].
    exists c, ((a ++ t2) ++ tt). rewrite Et, H3, app_assoc. auto.
  - destruct x as [|h x]; [now rewrite app_nil_r in Et|]. exfalso. apply Hat.
    assert (Hvx : valid_utf8 (h :: x)).
    { apply valid_app_inv_r with w2; [|now apply white_valid]. rewrite <- Ew. now apply white_valid. }
    assert (Hwx : white (h :: x)).
    { apply (white_suffix (h :: x) w2); auto; [now apply white_valid|]. now rewrite <- Ew. }
    apply white_ends in Hwx as (c & tt & H1 & H2 & H3); [|discriminate].
    exists c, (t ++ tt). rewrite Et, H3, app_assoc. auto.
Qed.
