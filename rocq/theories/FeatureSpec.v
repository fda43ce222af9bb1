(** The two builds of the crate: with and without the feature "unicode" (C51). *)
From Verif Require Import Base Utf8 Ext Errors Syntax SyntaxSpec Value Ast Lexer LexSpec GrammarSpec Fmt.

(** All bytes are ASCII. *)
Definition all_ascii (s : str) : Prop := Forall (fun b => (byte_N b < 128)%N) s.

(** Two builds with the same standard library: they may differ in the characters
    allowed in identifiers, but not among the ASCII ones, and in the display width. *)
Record two_builds (X1 X2 : Ext) : Prop := mkbuilds {
  tb_parse : @f64_parse X1 = @f64_parse X2;
  tb_display : @f64_display X1 = @f64_display X2;
  tb_narrow : @f64_to_f32 X1 = @f64_to_f32 X2;
  tb_ascii1 : ext_ascii X1;
  tb_ascii2 : ext_ascii X2
}.
(** The build without "unicode": lex.rs 543-551 *)
Definition no_unicode (X : Ext) : Prop :=
  (forall c, @xid_start X c = ascii_letter c || ascii_digit c || (c =? 95)%N) /\
  (forall c, @xid_continue X c = ascii_letter c || ascii_digit c || (c =? 95)%N).

(** The delimiters are ASCII. *)
Definition ascii_delimiters (sx : syntax) : Prop := forall k p, In (k, p) sx -> all_ascii p.
(** The identifiers of a source, as the build [X] cuts it into tokens, are ASCII. *)
Definition ascii_identifiers (X : Ext) (sx : syntax) (source : str) : Prop :=
  forall ts sp, tiling sx source true 0 (MText false) ts -> In (TIdent, sp) ts -> all_ascii (txt source sp).

(** Results that are equal except for the line, column and width errors show. *)
Definition same_but_place {A} (x y : res A) : Prop :=
  match x, y with
  | Ok a, Ok b => a = b
  | Err e, Err e' => e_kind e = e_kind e' /\ e_name e = e_name e' /\ e_reason e = e_reason e' /\
                     (e_pretty e = None <-> e_pretty e' = None)
  | Panic, Panic => True
  | OutOfFuel, OutOfFuel => True
  | _, _ => False
  end.

(** A source in which every non-ASCII character is one that identifiers cannot contain
    (in the build [X]): an emoji, a dash, a quotation mark... *)
Definition only_ascii_words (X : Ext) (source : str) : Prop :=
  forall c, In c (chars source) -> (128 <= c)%N -> @word_start X c = false /\ @word_char X c = false.
