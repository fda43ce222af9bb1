(** Specification of the delimiter search, independent of the automaton. *)
From Verif Require Import Base.

(** Pattern text [p] occurs in [h] at offset [i]. *)
Definition occurs_at (p h : str) (i : nat) : Prop :=
  i <= length h /\ exists t, skipn i h = p ++ t.

(** [ps] is the configured list of (identifier, text).  [best ps h at_ k i j] says
    that the pattern with identifier [k] occurs at [i..j], that no pattern occurs
    at an offset in [at_..i), that no pattern occurring at [i] is longer, and that
    [k] is the identifier of the first configured pattern with that text. *)
Definition best {K} (ps : list (K * str)) (h : str) (at_ : nat) (k : K) (i j : nat) : Prop :=
  at_ <= i /\ i <= j /\ j <= length h /\
  (forall i' k' p', In (k', p') ps -> occurs_at p' h i' -> at_ <= i' -> i <= i') /\
  (forall k' p', In (k', p') ps -> occurs_at p' h i -> length p' <= j - i) /\
  (exists before p after, ps = before ++ (k, p) :: after /\ occurs_at p h i /\ length p = j - i /\
     forall k' p', In (k', p') before -> p' <> p).

(** No configured pattern occurs at or after [at_]. *)
Definition no_occurrence {K} (ps : list (K * str)) (h : str) (at_ : nat) : Prop :=
  forall k p i, In (k, p) ps -> at_ <= i -> ~ occurs_at p h i.
