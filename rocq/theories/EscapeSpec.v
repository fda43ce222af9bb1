(** Escaped text. *)
From Verif Require Import Base Ext.

(** [entity b e]: in HTML, [e] stands for the character [b], that means something else there. *)
Inductive entity : byte -> str -> Prop :=
| en_lt : entity x3c (s2b "&lt;")
| en_gt : entity x3e (s2b "&gt;")
| en_amp : entity x26 (s2b "&amp;")
| en_apos : entity x27 (s2b "&#39;")
| en_quot : entity x22 (s2b "&quot;").

(** [reads x s]: an HTML text [x], read as text, is [s]: entities stand for their characters, and
    every other character for itself. *)
Inductive reads : str -> str -> Prop :=
| rd_end : reads [] []
| rd_entity b e x s : entity b e -> reads x s -> reads (e ++ x) (b :: s)
| rd_byte b x s : (forall e, ~ entity b e) -> reads x s -> reads (b :: x) (b :: s).

(** Numbers are displayed without such characters (a property of the standard library). *)
Definition plain_floats `{X : Ext} : Prop := forall f c b e, In c (f64_display f) -> In b c -> ~ entity b e.
