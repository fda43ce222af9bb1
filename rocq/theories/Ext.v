(** Oracles for code that is outside the repository: the [unicode-ident] and
    [unicode-width] crates and the float parsing/printing/narrowing routines of
    the Rust standard library.  They are fields of the class [Ext]; every
    definition and theorem of the model is parametric in an arbitrary instance.

    An [f64] is a [SpecFloat.spec_float] (sign, mantissa, exponent, infinities,
    one NaN); only the sign and being zero are ever inspected by the model. *)
From Verif Require Import Base Utf8.
From Coq Require Import Floats.SpecFloat.

Notation f64 := spec_float.

Class Ext : Type := {
  (** [unicode_ident::is_xid_start] with feature "unicode" (lex.rs 533-536);
      without the feature, lex.rs 543-546.  The underscore test of lex.rs 535
      is in the model ([is_ident_start]). *)
  xid_start : N -> bool;
  (** [unicode_ident::is_xid_continue] / lex.rs 538-541, 548-551 *)
  xid_continue : N -> bool;
  (** [display_width], error.rs 293-301 *)
  display_width : str -> nat;
  (** [str::parse::<f64>] *)
  f64_parse : str -> option f64;
  (** [Display] of f64: the chunks given to [write_str], in order *)
  f64_display : f64 -> list str;
  (** [v as f32] followed by the filter function seeing an f32 *)
  f64_to_f32 : f64 -> f64
}.

(** What theorems assume about the identifier oracles, when they need it:
    ASCII behaviour, true of both feature configurations. *)
Definition ascii_letter (c : N) : bool :=
  (((65 <=? c) && (c <=? 90)) || ((97 <=? c) && (c <=? 122)))%N.
Definition ascii_digit (c : N) : bool := ((48 <=? c) && (c <=? 57))%N.

Definition ext_ascii (X : Ext) : Prop :=
  (forall c, (c < 128)%N -> ascii_letter c = true -> xid_start c = true) /\
  (forall c, (c < 128)%N -> xid_start c = true -> ascii_letter c || ascii_digit c || (c =? 95)%N = true) /\
  (forall c, (c < 128)%N -> xid_continue c = ascii_letter c || ascii_digit c || (c =? 95)%N).

(** A concrete instance used in examples: the non-"unicode" build of the crate
    (lex.rs 543-551, error.rs 298-301); float routines are placeholders that
    only know the integers ("1." style is not needed). *)
Definition ascii_ext : Ext := {|
  xid_start := fun c => ascii_letter c || ascii_digit c || (c =? 95)%N;
  xid_continue := fun c => ascii_letter c || ascii_digit c || (c =? 95)%N;
  display_width := fun s => length (chars s);
  f64_parse := fun s =>
    match s with
    | [x30; x2e; x30] => Some (S754_zero false)
    | [x30; x2e; x35] => Some (S754_finite false 1%positive (-1)%Z)
    | [x31; x2e; x35] => Some (S754_finite false 3%positive (-1)%Z)
    | _ => None
    end;
  f64_display := fun f =>
    match f with
    | S754_zero false => [s2b "0"]
    | S754_zero true => [s2b "-0"]
    | S754_finite false 3%positive (-1)%Z => [s2b "1.5"]
    | S754_finite true 3%positive (-1)%Z => [s2b "-1.5"]
    | _ => [s2b "float"]
    end;
  f64_to_f32 := fun f => f
|}.

Lemma ascii_ext_ok : ext_ascii ascii_ext.
Proof.
  unfold ext_ascii, ascii_ext; cbn [xid_start xid_continue]. repeat split.
  - intros c _ ->. reflexivity.
  - intros c _ H. exact H.
Qed.
