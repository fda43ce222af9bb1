(** Base definitions shared by every file of the model.

    [str] models Rust's [str]: a list of bytes.  The type invariant of Rust's
    [str] (valid UTF-8) is the predicate [valid_utf8] of Utf8.v; theorems that
    need it say so.  [outcome] models the possible ways a Rust call can end:
    a value, an [Err], a panic, or (model only) running out of the fuel that
    replaces an unbounded loop. *)
From Coq Require Export Strings.String.
From Coq Require Export Strings.Byte.
From Coq Require Export List Arith NArith ZArith Lia Bool.
Export ListNotations.

(** ** Byte strings *)

Notation str := (list byte).

(** Notation for byte string literals in the model ("..." literals in Rust). *)
Definition s2b (s : string) : str := list_byte_of_string s.
Arguments s2b s%string_scope.
Arguments s2b : simpl never.

Definition byte_eqb (a b : byte) : bool := Byte.eqb a b.

Fixpoint str_eqb (a b : str) : bool :=
  match a, b with
  | [], [] => true
  | x :: a', y :: b' => Byte.eqb x y && str_eqb a' b'
  | _, _ => false
  end.

(** [str::starts_with] on bytes. *)
Fixpoint prefixb (p s : str) : bool :=
  match p, s with
  | [], _ => true
  | x :: p', y :: s' => Byte.eqb x y && prefixb p' s'
  | _ :: _, [] => false
  end.

Lemma byte_eqb_eq a b : Byte.eqb a b = true <-> a = b.
Proof.
  split.
  - apply Byte.byte_dec_bl.
  - apply Byte.byte_dec_lb.
Qed.

Lemma byte_eqb_refl a : Byte.eqb a a = true.
Proof. apply byte_eqb_eq; reflexivity. Qed.

Lemma byte_eqb_neq a b : Byte.eqb a b = false <-> a <> b.
Proof.
  split.
  - intros H E. apply byte_eqb_eq in E. congruence.
  - intros H. destruct (Byte.eqb a b) eqn:E; [|reflexivity].
    apply byte_eqb_eq in E. contradiction.
Qed.

Lemma byte_eq_dec (a b : byte) : {a = b} + {a <> b}.
Proof.
  destruct (Byte.eqb a b) eqn:E.
  - left. now apply byte_eqb_eq.
  - right. now apply byte_eqb_neq.
Defined.

Lemma str_eqb_eq a b : str_eqb a b = true <-> a = b.
Proof.
  revert b; induction a as [|x a IH]; intros [|y b]; simpl; split; intros H;
    try congruence; try discriminate.
  - apply andb_true_iff in H as [H1 H2].
    apply byte_eqb_eq in H1. apply IH in H2. congruence.
  - inversion H; subst. rewrite byte_eqb_refl. simpl. now apply IH.
Qed.

Lemma str_eqb_refl a : str_eqb a a = true.
Proof. now apply str_eqb_eq. Qed.

Lemma str_eqb_neq a b : str_eqb a b = false <-> a <> b.
Proof.
  split.
  - intros H E. apply str_eqb_eq in E. congruence.
  - intros H. destruct (str_eqb a b) eqn:E; [|reflexivity].
    apply str_eqb_eq in E. contradiction.
Qed.

Lemma str_eq_dec (a b : str) : {a = b} + {a <> b}.
Proof.
  destruct (str_eqb a b) eqn:E.
  - left. now apply str_eqb_eq.
  - right. now apply str_eqb_neq.
Defined.

Lemma prefixb_spec p s : prefixb p s = true <-> exists t, s = p ++ t.
Proof.
  revert s; induction p as [|x p IH]; intros s; simpl.
  - split; [intros _; now exists s | reflexivity].
  - destruct s as [|y s].
    + split; [discriminate | intros [t Ht]; discriminate].
    + rewrite andb_true_iff, byte_eqb_eq, IH. split.
      * intros [-> [t ->]]. now exists t.
      * intros [t Ht]. inversion Ht; subst. split; [reflexivity | now exists t].
Qed.

(** ** Outcomes *)

Inductive outcome (E A : Type) : Type :=
| Ok (a : A)
| Err (e : E)
| Panic
| OutOfFuel.
Arguments Ok {E A} a.
Arguments Err {E A} e.
Arguments Panic {E A}.
Arguments OutOfFuel {E A}.

Definition bind {E A B} (x : outcome E A) (f : A -> outcome E B) : outcome E B :=
  match x with
  | Ok a => f a
  | Err e => Err e
  | Panic => Panic
  | OutOfFuel => OutOfFuel
  end.

Notation "'let*' p ':=' x 'in' y" := (bind x (fun p => y))
  (at level 200, p pattern, x at level 100, y at level 200, only parsing).
Notation "'let*!' x 'in' y" := (bind x (fun _ => y))
  (at level 200, x at level 100, y at level 200, only parsing).

(** [Option::unwrap] / indexing: [None] is a panic. *)
Definition unwrap {E A} (x : option A) : outcome E A :=
  match x with Some a => Ok a | None => Panic end.

(** A call that finished normally, with a value or an error. *)
Definition finished {E A} (x : outcome E A) : Prop :=
  match x with Ok _ | Err _ => True | _ => False end.

Lemma bind_Ok {E A B} (x : outcome E A) (f : A -> outcome E B) b :
  bind x f = Ok b <-> exists a, x = Ok a /\ f a = Ok b.
Proof.
  destruct x; simpl; split; intros H; try discriminate; eauto;
    destruct H as (? & H & ?); try discriminate; congruence.
Qed.

Lemma bind_assoc {E A B C} (x : outcome E A) (f : A -> outcome E B) (g : B -> outcome E C) :
  bind (bind x f) g = bind x (fun a => bind (f a) g).
Proof. now destruct x. Qed.

(** ** Slices

    [&s[m..n]] panics unless [m <= n <= len] and both ends are char
    boundaries: [is_char_boundary] (core::str) is true at 0, at the length, and
    before any byte that is not a UTF-8 continuation byte 0x80..=0xBF. *)

Definition byte_N (b : byte) : N := Byte.to_N b.

Definition is_cont (b : byte) : bool := ((128 <=? byte_N b) && (byte_N b <? 192))%N.

Definition boundary (s : str) (i : nat) : bool :=
  match nth_error s i with
  | Some b => negb (is_cont b) || (i =? 0)
  | None => i =? length s
  end.

(** The raw bytes [s[m..n]], no checks. *)
Definition sub (s : str) (m n : nat) : str := firstn (n - m) (skipn m s).

Definition slice {E} (s : str) (m n : nat) : outcome E str :=
  if (m <=? n) && (n <=? length s) && boundary s m && boundary s n
  then Ok (sub s m n) else Panic.

(** [&s[m..]] *)
Definition slice_from {E} (s : str) (m : nat) : outcome E str :=
  if (m <=? length s) && boundary s m then Ok (skipn m s) else Panic.

(** [str::contains(char)] for an ASCII character. *)
Definition containsb (b : byte) (s : str) : bool := existsb (Byte.eqb b) s.

(** ** List helpers *)

(** [List.update] at an index; identity when out of range (callers check). *)
Fixpoint upd {A} (n : nat) (f : A -> A) (l : list A) : list A :=
  match l, n with
  | [], _ => []
  | x :: l', O => f x :: l'
  | x :: l', S n' => x :: upd n' f l'
  end.

Lemma upd_length {A} n (f : A -> A) l : length (upd n f l) = length l.
Proof. revert n; induction l as [|x l IH]; intros [|n]; simpl; congruence. Qed.

Lemma nth_error_upd_same {A} n (f : A -> A) l x :
  nth_error l n = Some x -> nth_error (upd n f l) n = Some (f x).
Proof.
  revert n; induction l as [|y l IH]; intros [|n]; simpl; intros H; try discriminate.
  - congruence.
  - now apply IH.
Qed.

Lemma nth_error_upd_other {A} n m (f : A -> A) l :
  n <> m -> nth_error (upd n f l) m = nth_error l m.
Proof.
  revert n m; induction l as [|y l IH]; intros [|n] [|m] H; simpl; try reflexivity;
    try congruence.
  apply IH; congruence.
Qed.

Lemma skipn_skipn {A} (n m : nat) (l : list A) : skipn n (skipn m l) = skipn (n + m) l.
Proof.
  revert l; induction m as [|m IH]; intros l.
  - now rewrite Nat.add_0_r.
  - rewrite Nat.add_succ_r. destruct l as [|x l]; simpl; [now rewrite skipn_nil|apply IH].
Qed.

(** ** Decimal printing of integers ([Display] of the integer types) *)

Fixpoint uint_bytes (d : Decimal.uint) : str :=
  match d with
  | Decimal.Nil => []
  | Decimal.D0 d => x30 :: uint_bytes d
  | Decimal.D1 d => x31 :: uint_bytes d
  | Decimal.D2 d => x32 :: uint_bytes d
  | Decimal.D3 d => x33 :: uint_bytes d
  | Decimal.D4 d => x34 :: uint_bytes d
  | Decimal.D5 d => x35 :: uint_bytes d
  | Decimal.D6 d => x36 :: uint_bytes d
  | Decimal.D7 d => x37 :: uint_bytes d
  | Decimal.D8 d => x38 :: uint_bytes d
  | Decimal.D9 d => x39 :: uint_bytes d
  end.

Definition show_N (n : N) : str := uint_bytes (N.to_uint n).
Definition show_nat (n : nat) : str := show_N (N.of_nat n).
Definition show_Z (z : Z) : str :=
  match z with
  | Zneg p => x2d :: show_N (Npos p)
  | _ => show_N (Z.to_N z)
  end.

(** Ranges of the machine integers. *)
Definition i64_min : Z := (- 2 ^ 63)%Z.
Definition i64_max : Z := (2 ^ 63 - 1)%Z.
Definition u64_max : Z := (2 ^ 64 - 1)%Z.
Definition in_i64 (z : Z) : bool := ((i64_min <=? z) && (z <=? i64_max))%Z.
