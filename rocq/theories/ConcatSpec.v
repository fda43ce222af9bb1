(** When two texts can be put one after the other: specification (C46). *)
From Verif Require Import Base Syntax SearchSpec LexSpec.

(** No delimiter begins in [a] and ends in [b]. *)
Definition no_straddle (sx : syntax) (a b : str) : Prop :=
  forall k p i, In (k, p) sx -> occurs_at p (a ++ b) i -> i < length a -> i + length p <= length a.
(** [a] does not end in a hyphenated closing delimiter, or one and white space. *)
Definition no_trim_after (sx : syntax) (a : str) : Prop :=
  forall k m n, tag_at sx a k m n -> opening k = false -> hyphenated k = true -> ~ white (sub a n (length a)).
(** [b] does not begin with a hyphenated opening delimiter, or white space and one. *)
Definition no_trim_before (sx : syntax) (b : str) : Prop :=
  forall k m n, tag_at sx b k m n -> opening k = true -> hyphenated k = true -> ~ white (sub b 0 m).
Definition apart (sx : syntax) (a b : str) : Prop :=
  no_straddle sx a b /\ no_trim_after sx a /\ no_trim_before sx b.
