(** Specification of quoted text, as Rust's [Debug] writes it. *)
From Verif Require Import Base Utf8 Ext Errors DecimalSpec.
Local Open Scope N_scope.

(** Characters with an escape of their own. *)
Definition short_escapes : list (byte * N) := [(x30, 0); (x74, 9); (x6e, 10); (x72, 13); (x22, 34); (x5c, 92)].
(** The value of a lower case hexadecimal digit, of a sequence of them. *)
Definition hex_digit (b : byte) (v : N) : Prop :=
  (48 <= byte_N b <= 57 /\ v = byte_N b - 48) \/ (97 <= byte_N b <= 102 /\ v = byte_N b - 87).
Inductive hex_value : str -> N -> N -> Prop :=
| hv_end a : hex_value [] a a
| hv_digit b v s a n : hex_digit b v -> hex_value s (16 * a + v) n -> hex_value (b :: s) a n.
(** [reads q s]: [q] is a way to write [s] between double quotes. *)
Inductive reads : str -> str -> Prop :=
| reads_end : reads [] []
| reads_plain c q s : scalar c -> 32 <= c -> c <> 34 -> c <> 92 -> c <> 127 -> reads q s -> reads (encode c ++ q) (encode c ++ s)
| reads_short x c q s : In (x, c) short_escapes -> reads q s -> reads (x5c :: x :: q) (encode c ++ s)
| reads_hex h c q s : scalar c -> h <> [] -> hex_value h 0 c -> reads q s -> reads (s2b "\u{" ++ h ++ s2b "}" ++ q) (encode c ++ s).

(** [shown_text o d]: [d] shows the optional text [o]. *)
Inductive shown_text : option str -> str -> Prop :=
| shown_none : shown_text None (s2b "None")
| shown_some s q : reads q s -> shown_text (Some s) (s2b "Some(" ++ [x22] ++ q ++ [x22] ++ s2b ")").
Inductive shown_place : option pretty -> str -> Prop :=
| place_none : shown_place None (s2b "None")
| place_some p ln col width q : natural (N.of_nat (p_ln p)) ln -> natural (N.of_nat (p_col p)) col -> natural (N.of_nat (p_width p)) width -> reads q (p_text p) ->
    shown_place (Some p) (s2b "Some(Pretty { ln: " ++ ln ++ s2b ", col: " ++ col ++ s2b ", width: " ++ width ++ s2b ", text: " ++ [x22] ++ q ++ [x22] ++ s2b " })").
(** The name of the kind of an error; of an io error, what the library shows of it. *)
Inductive shown_kind (io : N -> str) : ekind -> str -> Prop :=
| sk_syntax : shown_kind io KSyntax (s2b "Syntax")
| sk_serialize : shown_kind io KSerialize (s2b "Serialize")
| sk_render : shown_kind io KRender (s2b "Render")
| sk_filter : shown_kind io KFilter (s2b "Filter")
| sk_format : shown_kind io KFormat (s2b "Format")
| sk_io code : shown_kind io (KIo code) (s2b "Io(" ++ io code ++ s2b ")").
(** All fields of an error, on one line. *)
Definition shown_error (io : N -> str) (e : error) (d : str) : Prop :=
  exists k n r p, shown_kind io (e_kind e) k /\ shown_text (e_name e) n /\ shown_text (e_reason e) r /\ shown_place (e_pretty e) p /\
    d = s2b "Error { kind: " ++ k ++ s2b ", name: " ++ n ++ s2b ", reason: " ++ r ++ s2b ", pretty: " ++ p ++ s2b " }".
(** The texts in an error are Unicode (in Rust they are Strings). *)
Definition texts_valid (e : error) : Prop :=
  (forall s, e_name e = Some s -> valid_utf8 s) /\ (forall s, e_reason e = Some s -> valid_utf8 s) /\
  (forall p, e_pretty e = Some p -> valid_utf8 (p_text p)).
