(** Finite maps: removal and membership. *)
From Verif Require Import Base Value.

Lemma map_get_In {V} k (m : list (str * V)) v : map_get k m = Some v -> In (k, v) m.
Proof.
  induction m as [|[k' v'] m IH]; cbn [map_get]; [discriminate|].
  destruct (str_eqb k k') eqn:E; [|right; auto]. apply str_eqb_eq in E as ->. injection 1 as ->. now left.
Qed.
Lemma In_map_insert {V} k (v : V) m x : In x (map_insert k v m) -> x = (k, v) \/ In x m.
Proof.
  induction m as [|[k' v'] m IH]; cbn [map_insert].
  - intros [H|[]]; auto.
  - destruct (str_cmp k k') eqn:E; cbn [In]; [|intuition..]. apply str_cmp_eq in E as ->. intros [H|H]; auto.
Qed.
Lemma In_map_remove {V} k (m : list (str * V)) x : In x (map_remove k m) -> In x m.
Proof.
  induction m as [|[k' v'] m IH]; cbn [map_remove]; auto. destruct (str_eqb k k'); cbn [In]; intuition.
Qed.
Lemma sorted_tail {V} x (m : list (str * V)) : sorted_keys (x :: m) -> sorted_keys m.
Proof. destruct x. cbn [sorted_keys]. tauto. Qed.
(** In a sorted map every key after the first is larger. *)
Lemma sorted_lt {V} k v (m : list (str * V)) : sorted_keys ((k, v) :: m) -> forall k' v', In (k', v') m -> str_cmp k k' = Lt.
Proof.
  revert k v. induction m as [|[k1 v1] m IH]; intros k v H k' v' Hin; [destruct Hin|].
  cbn [sorted_keys] in H. destruct H as (H1 & H2). destruct Hin as [E|Hin]; [injection E as <- <-; auto|].
  eapply str_cmp_lt_trans; [exact H1|]. exact (IH k1 v1 H2 k' v' Hin).
Qed.
Lemma sorted_get_none {V} k v (m : list (str * V)) : sorted_keys ((k, v) :: m) -> map_get k m = None.
Proof.
  intros H. destruct (map_get k m) as [x|] eqn:E; auto. apply map_get_In in E.
  pose proof (sorted_lt _ _ _ H _ _ E) as L. rewrite str_cmp_refl in L. discriminate.
Qed.
Lemma sorted_remove {V} k (m : list (str * V)) : sorted_keys m -> sorted_keys (map_remove k m).
Proof.
  induction m as [|[k1 v1] m IH]; intros H; cbn [map_remove]; auto.
  destruct (str_eqb k k1); [now apply sorted_tail in H|].
  pose proof (sorted_tail _ _ H) as H'. cbn [sorted_keys]. split; auto.
  destruct (map_remove k m) as [|[k2 v2] m2] eqn:E; auto.
  apply (sorted_lt _ _ _ H k2 v2). apply (In_map_remove k). rewrite E. now left.
Qed.
Lemma map_get_remove_same {V} k (m : list (str * V)) : sorted_keys m -> map_get k (map_remove k m) = None.
Proof.
  induction m as [|[k1 v1] m IH]; intros H; cbn [map_remove]; auto.
  destruct (str_eqb k k1) eqn:E.
  - apply str_eqb_eq in E as ->. now apply sorted_get_none in H.
  - cbn [map_get]. rewrite E. apply IH. now apply sorted_tail in H.
Qed.
Lemma map_get_remove_other {V} k k2 (m : list (str * V)) : k2 <> k -> map_get k2 (map_remove k m) = map_get k2 m.
Proof.
  intros Hn. induction m as [|[k1 v1] m IH]; cbn [map_remove]; auto.
  destruct (str_eqb k k1) eqn:E.
  - apply str_eqb_eq in E as ->. cbn [map_get]. destruct (str_eqb k2 k1) eqn:E2; auto. apply str_eqb_eq in E2. contradiction.
  - cbn [map_get]. destruct (str_eqb k2 k1); auto.
Qed.
