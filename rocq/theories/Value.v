(** src/value/mod.rs, src/value/cow.rs, and the [BTreeMap<String, _>] operations
    the crate uses. *)
From Verif Require Import Base Ext.

(** [Ord for str]: bytewise lexicographic order. *)
Fixpoint str_cmp (a b : str) : comparison :=
  match a, b with
  | [], [] => Eq
  | [], _ :: _ => Lt
  | _ :: _, [] => Gt
  | x :: a', y :: b' =>
    match N.compare (byte_N x) (byte_N y) with
    | Eq => str_cmp a' b'
    | c => c
    end
  end.

(** src/value/mod.rs 16-25 [Value].  A [BTreeMap] is an association list sorted
    strictly by key ([sorted_keys]), which is its iteration order. *)
Inductive value :=
| VNone
| VBool (b : bool)
| VInt (z : Z)
| VFloat (f : f64)
| VStr (s : str)
| VList (l : list value)
| VMap (m : list (str * value)).

(** [BTreeMap::insert] *)
Fixpoint map_insert {V} (k : str) (v : V) (m : list (str * V)) : list (str * V) :=
  match m with
  | [] => [(k, v)]
  | (k', v') :: m' =>
    match str_cmp k k' with
    | Eq => (k', v) :: m'
    | Lt => (k, v) :: m
    | Gt => (k', v') :: map_insert k v m'
    end
  end.

(** [BTreeMap::get] *)
Fixpoint map_get {V} (k : str) (m : list (str * V)) : option V :=
  match m with
  | [] => None
  | (k', v') :: m' => if str_eqb k k' then Some v' else map_get k m'
  end.

(** [BTreeMap::remove] *)
Fixpoint map_remove {V} (k : str) (m : list (str * V)) : list (str * V) :=
  match m with
  | [] => []
  | (k', v') :: m' => if str_eqb k k' then m' else (k', v') :: map_remove k m'
  end.

(** [BTreeMap::from_iter]: later duplicates replace earlier ones *)
Definition map_of_list {V} (l : list (str * V)) : list (str * V) :=
  fold_left (fun m kv => map_insert (fst kv) (snd kv) m) l [].

(** The representation invariant of [BTreeMap]. *)
Fixpoint sorted_keys {V} (m : list (str * V)) : Prop :=
  match m with
  | [] => True
  | (k, _) :: m' =>
    match m' with [] => True | (k', _) :: _ => str_cmp k k' = Lt end /\ sorted_keys m'
  end.

(** src/value/cow.rs 8-11 [ValueCow]: the tag matters, filters may borrow from a
    [Borrowed] value but not from an [Owned] one. *)
Inductive cow := Borrowed (v : value) | Owned (v : value).

(** src/value/cow.rs 13-22 [Deref] *)
Definition cow_val (c : cow) : value := match c with Borrowed v => v | Owned v => v end.

(** ** Facts *)

Lemma str_cmp_refl a : str_cmp a a = Eq.
Proof. induction a as [|x a IH]; simpl; auto. now rewrite N.compare_refl. Qed.

Lemma str_cmp_eq a b : str_cmp a b = Eq <-> a = b.
Proof.
  split; [|intros ->; apply str_cmp_refl].
  revert b; induction a as [|x a IH]; intros [|y b]; simpl; try discriminate; auto.
  destruct (N.compare_spec (byte_N x) (byte_N y)) as [E|E|E]; try discriminate.
  intros H. rewrite (IH b H). f_equal.
  unfold byte_N in E. apply (f_equal Byte.of_N) in E. rewrite !Byte.of_to_N in E. congruence.
Qed.

Lemma str_cmp_antisym a b : str_cmp b a = CompOpp (str_cmp a b).
Proof.
  revert b; induction a as [|x a IH]; intros [|y b]; simpl; auto.
  rewrite (N.compare_antisym (byte_N x)). destruct (N.compare (byte_N x) (byte_N y)); simpl; auto.
Qed.

Lemma str_cmp_lt_trans a b c : str_cmp a b = Lt -> str_cmp b c = Lt -> str_cmp a c = Lt.
Proof.
  revert b c; induction a as [|x a IH]; intros [|y b] [|z c]; simpl; try discriminate; auto.
  destruct (N.compare_spec (byte_N x) (byte_N y)) as [E1|E1|E1]; try discriminate;
    destruct (N.compare_spec (byte_N y) (byte_N z)) as [E2|E2|E2]; try discriminate; intros H1 H2;
    destruct (N.compare_spec (byte_N x) (byte_N z)) as [E3|E3|E3]; try reflexivity; try lia.
  eauto.
Qed.

Lemma map_get_insert_same {V} k (v : V) m : map_get k (map_insert k v m) = Some v.
Proof.
  induction m as [|[k' v'] m IH]; simpl.
  - now rewrite str_eqb_refl.
  - destruct (str_cmp k k') eqn:E; simpl.
    + apply str_cmp_eq in E as ->. now rewrite str_eqb_refl.
    + now rewrite str_eqb_refl.
    + destruct (str_eqb k k') eqn:E2; auto. apply str_eqb_eq in E2 as ->.
      rewrite str_cmp_refl in E. discriminate.
Qed.

Lemma map_get_insert_other {V} k k2 (v : V) m :
  k2 <> k -> map_get k2 (map_insert k v m) = map_get k2 m.
Proof.
  intros Hne. induction m as [|[k' v'] m IH]; simpl.
  - apply str_eqb_neq in Hne. now rewrite Hne.
  - destruct (str_cmp k k') eqn:E; simpl.
    + apply str_cmp_eq in E as ->. apply str_eqb_neq in Hne. now rewrite Hne.
    + apply str_eqb_neq in Hne. now rewrite Hne.
    + destruct (str_eqb k2 k'); auto.
Qed.

Definition all_keys_gt {V} (k : str) (m : list (str * V)) : Prop :=
  forall k' v', In (k', v') m -> str_cmp k k' = Lt.

Lemma sorted_keys_gt {V} k (v : V) m : sorted_keys ((k, v) :: m) -> all_keys_gt k m.
Proof.
  revert k v; induction m as [|[k1 v1] m IH]; intros k v; simpl; [intros _ ? ? []|].
  intros [H1 H2] k' v' [E|Hin].
  - now inversion E; subst.
  - apply str_cmp_lt_trans with k1; auto. exact (IH k1 v1 H2 k' v' Hin).
Qed.

Lemma sorted_keys_insert {V} k (v : V) m : sorted_keys m -> sorted_keys (map_insert k v m).
Proof.
  induction m as [|[k1 v1] m IH]; intros H; [simpl; auto|].
  cbn [map_insert]. destruct (str_cmp k k1) eqn:E.
  - exact H.
  - split; [exact E|exact H].
  - destruct H as [H1 H2]. specialize (IH H2). split; [|exact IH].
    destruct m as [|[k2 v2] m].
    + simpl. rewrite str_cmp_antisym, E. reflexivity.
    + cbn [map_insert]. destruct (str_cmp k k2) eqn:E2; auto.
      rewrite str_cmp_antisym, E. reflexivity.
Qed.

Lemma sorted_map_of_list {V} (l : list (str * V)) : sorted_keys (map_of_list l).
Proof.
  unfold map_of_list.
  assert (H : forall m, sorted_keys m ->
    sorted_keys (fold_left (fun m kv => map_insert (fst kv) (snd kv) m) l m)).
  { induction l as [|kv l IH]; simpl; auto. intros m Hm. apply IH. now apply sorted_keys_insert. }
  apply H. exact I.
Qed.

(** Induction principle through the nested lists. *)
Section ValueInd.
  Variable P : value -> Prop.
  Hypothesis HNone : P VNone.
  Hypothesis HBool : forall b, P (VBool b).
  Hypothesis HInt : forall z, P (VInt z).
  Hypothesis HFloat : forall f, P (VFloat f).
  Hypothesis HStr : forall s, P (VStr s).
  Hypothesis HList : forall l, Forall P l -> P (VList l).
  Hypothesis HMap : forall m, Forall (fun kv => P (snd kv)) m -> P (VMap m).
  Fixpoint value_ind' (v : value) : P v :=
    match v with
    | VNone => HNone
    | VBool b => HBool b
    | VInt z => HInt z
    | VFloat f => HFloat f
    | VStr s => HStr s
    | VList l => HList l ((fix go l : Forall P l :=
        match l with [] => Forall_nil _ | x :: l' => Forall_cons x (value_ind' x) (go l') end) l)
    | VMap m => HMap m ((fix go m : Forall (fun kv => P (snd kv)) m :=
        match m with
        | [] => Forall_nil _
        | (k, x) :: m' => @Forall_cons _ (fun kv => P (snd kv)) (k, x) m' (value_ind' x) (go m')
        end) m)
    end.
End ValueInd.
