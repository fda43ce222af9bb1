(** The [Debug] form of an error: what [{:?}] and [unwrap] show. *)
From Coq Require Import Hexadecimal.
From Verif Require Import Base Utf8 Ext Errors.

(** Hexadecimal digits, lower case ([char::escape_unicode] of the standard library). *)
Fixpoint hex_bytes (d : Hexadecimal.uint) : str :=
  match d with
  | Hexadecimal.Nil => []
  | Hexadecimal.D0 d => x30 :: hex_bytes d
  | Hexadecimal.D1 d => x31 :: hex_bytes d
  | Hexadecimal.D2 d => x32 :: hex_bytes d
  | Hexadecimal.D3 d => x33 :: hex_bytes d
  | Hexadecimal.D4 d => x34 :: hex_bytes d
  | Hexadecimal.D5 d => x35 :: hex_bytes d
  | Hexadecimal.D6 d => x36 :: hex_bytes d
  | Hexadecimal.D7 d => x37 :: hex_bytes d
  | Hexadecimal.D8 d => x38 :: hex_bytes d
  | Hexadecimal.D9 d => x39 :: hex_bytes d
  | Hexadecimal.Da d => x61 :: hex_bytes d
  | Hexadecimal.Db d => x62 :: hex_bytes d
  | Hexadecimal.Dc d => x63 :: hex_bytes d
  | Hexadecimal.Dd d => x64 :: hex_bytes d
  | Hexadecimal.De d => x65 :: hex_bytes d
  | Hexadecimal.Df d => x66 :: hex_bytes d
  end.

Section Debug.
Context `{X : Ext}.
(** Oracles for the standard library: the characters beyond ASCII that [Debug] of [str]
    leaves as they are (printable, and not an extension of a grapheme), and [Debug] of
    [std::io::Error]. *)
Variable printable : N -> bool.
Variable io_debug : N -> str.

(** [char::escape_debug_ext] as [<str as Debug>] uses it (standard library; called by the
    fields of src/error.rs 179-184 and the derived [Debug] of 218) *)
Definition plain_char (c : N) : bool :=
  (if c <? 128 then (32 <=? c) && (c <? 127) else printable c)%N.
Definition escape_char (c : N) : str :=
  (if c =? 0 then s2b "\0"
   else if c =? 9 then s2b "\t"
   else if c =? 13 then s2b "\r"
   else if c =? 10 then s2b "\n"
   else if c =? 34 then [x5c; x22]
   else if c =? 92 then s2b "\\"
   else if plain_char c then encode c
   else s2b "\u{" ++ hex_bytes (N.to_hex_uint c) ++ s2b "}")%N.
(** [<str as Debug>::fmt] (standard library) *)
Definition debug_str (s : str) : str := [x22] ++ flat_map escape_char (chars s) ++ [x22].
(** [<Option as Debug>::fmt] (derived) *)
Definition debug_option {A} (f : A -> str) (o : option A) : str :=
  match o with None => s2b "None" | Some a => s2b "Some(" ++ f a ++ s2b ")" end.
(** src/error.rs 22, [derive(Debug)] of [ErrorKind] *)
Definition debug_kind (k : ekind) : str :=
  match k with
  | KSyntax => s2b "Syntax"
  | KSerialize => s2b "Serialize"
  | KRender => s2b "Render"
  | KFilter => s2b "Filter"
  | KFormat => s2b "Format"
  | KIo code => s2b "Io(" ++ io_debug code ++ s2b ")"
  end.
(** src/error.rs 218, [derive(Debug)] of [Pretty] *)
Definition debug_pretty (p : pretty) : str :=
  s2b "Pretty { ln: " ++ show_nat (p_ln p) ++ s2b ", col: " ++ show_nat (p_col p) ++
  s2b ", width: " ++ show_nat (p_width p) ++ s2b ", text: " ++ debug_str (p_text p) ++ s2b " }".
(** src/error.rs 179-184: the fields *)
Definition debug_fields (e : error) : str :=
  s2b "Error { kind: " ++ debug_kind (e_kind e) ++ s2b ", name: " ++ debug_option debug_str (e_name e) ++
  s2b ", reason: " ++ debug_option debug_str (e_reason e) ++ s2b ", pretty: " ++ debug_option debug_pretty (e_pretty e) ++ s2b " }".
(** src/error.rs 173-188, not alternate ([{:?}] without a width; with [{:#?}] only the
    fields are shown, on many lines: not modelled) *)
Definition debug_error (e : error) : str := display_error_alt e ++ nl ++ debug_fields e.
End Debug.
