(** Decimal notation. *)
From Verif Require Import Base.

Definition decimal_digit (b : byte) : Prop := (48 <= byte_N b <= 57)%N.
(** The number a sequence of digits denotes. *)
Definition digits_value (s : str) : N := fold_left (fun a b => 10 * a + (byte_N b - 48))%N s 0%N.
(** [natural n s]: [s] is [n] in decimal, without leading zeros. *)
Definition natural (n : N) (s : str) : Prop :=
  s <> [] /\ Forall decimal_digit s /\ (s = [x30] \/ hd_error s <> Some x30) /\ digits_value s = n.
(** [decimal z s]: [s] is [z] in decimal, with a minus sign if negative. *)
Definition decimal (z : Z) (s : str) : Prop :=
  if (0 <=? z)%Z then natural (Z.to_N z) s else exists t, s = x2d :: t /\ natural (Z.to_N (- z)) t.
