(** Specification of places in a text: lines and columns (counted from 0). *)
From Verif Require Import Base Ext.

(** [text] is the line of [s] between [before] and [after]. *)
Record line_at (s before text after : str) : Prop := {
  la_split : s = before ++ text ++ after;
  la_start : before = [] \/ exists b, before = b ++ [x0a];
  la_line : ~ In x0a text;
  la_end : after = [] \/ exists a, after = x0a :: a }.
Definition newlines (s : str) : nat := count_occ (fun a b : byte => Byte.byte_eq_dec a b) s x0a.
(** Byte [m] of [s] is byte [col] of line [ln], which is [text]. *)
Definition at_line_column (s : str) (m ln col : nat) (text : str) : Prop :=
  exists before after, line_at s before text after /\ ln = newlines before /\ m = length before + col /\ col <= length text.
Definition is_line (s text : str) : Prop := exists before after, line_at s before text after.
(** Every line is displayed with one column per byte. *)
Definition narrow `{X : Ext} (s : str) : Prop := forall text, is_line s text -> display_width text = length text.
(** The end of a text that ends with a line break (or is empty). *)
Definition past_last_line (s : str) (m : nat) : Prop := m = length s /\ (s = [] \/ exists b, s = b ++ [x0a]).

(** ** The place that is shown

    What the code shows instead of [at_line_column]: it counts the columns of the lines
    as they are displayed, not their bytes. *)
Section WithExt.
Context `{X : Ext}.
(** The lines [before] take [n] columns, with one for each line break. *)
Inductive columns : str -> nat -> Prop :=
| columns_none : columns [] 0
| columns_line before text n : columns before n -> ~ In x0a text -> columns (before ++ text ++ [x0a]) (n + display_width text + 1).
(** Line [ln], which is [text], has the column numbered [m] when all columns are
    counted, and it is column [col] of the line; or there is no such column, and what is
    shown is the line after the last with the text of the last and its width. *)
Definition shown (s : str) (m ln col : nat) (text : str) : Prop :=
  exists before after n, line_at s before text after /\ text ++ after <> [] /\ columns before n /\
    ((ln = newlines before /\ m = n + col /\ col <= display_width text) \/
     ((after = [] \/ after = [x0a]) /\ ln = newlines before + 1 /\ n + display_width text < m /\ col = display_width text)).
End WithExt.
