(** Specification of displayed messages: lines and columns of a text. *)
From Verif Require Import Base Ext Errors DecimalSpec.

(** The lines of a text. *)
Fixpoint lines_of (s : str) : list str :=
  match s with
  | [] => [[]]
  | c :: s' => if byte_eqb c x0a then [] :: lines_of s'
               else match lines_of s' with l :: ls => (c :: l) :: ls | [] => [[c]] end
  end.
(** The columns of [line] that show the character [c]. *)
Definition shows (line : str) (c : byte) (j : nat) : Prop := nth_error line j = Some c.
(** A part of [s] without line breaks takes one column per byte. *)
Definition one_column_per_byte `{X : Ext} (s : str) : Prop :=
  forall a t b, s = a ++ t ++ b -> ~ In x0a t -> display_width t = length t.
(** So do numbers. *)
Definition digits_narrow `{X : Ext} : Prop := forall n, display_width (show_nat n) = length (show_nat n).
Definition one_line (s : str) : Prop := ~ In x0a s.

(** The text for each kind of error. *)
Definition kind_text (k : ekind) : str :=
  match k with
  | KSyntax => s2b "invalid syntax"
  | KRender => s2b "render error"
  | KFilter => s2b "filter error"
  | KFormat => s2b "format error"
  | KSerialize => s2b "serialize error"
  | KIo _ => s2b "io error"
  end.
(** The same kind of error (the io error itself is not displayed). *)
Definition same_kind (k k' : ekind) : Prop :=
  match k, k' with KIo _, KIo _ => True | _, _ => k = k' end.

(** [points_at msg kind name ln col text from to]: the lines of [msg] are

      kind
      (an empty line)
       --> name:ln:col
        |
     ln | text
        | ^^^^
      ...

    the carets are exactly below the columns [from..to) of [text]. *)
Definition points_at (msg kind name : str) (ln col : N) (text : str) (from to : nat) : Prop :=
  exists a num c bar gutter marks rest,
    lines_of msg = kind :: [] :: (a ++ s2b "--> " ++ name ++ s2b ":" ++ num ++ s2b ":" ++ c) :: bar :: (gutter ++ text) :: marks :: rest /\
    natural ln num /\ natural col c /\ gutter = s2b " " ++ num ++ s2b " | " /\
    forall j, shows marks x5e j <-> length gutter + from <= j < length gutter + to.
