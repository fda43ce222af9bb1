(** What the default formatter writes for a value. *)
From Verif Require Import Base Utf8 Ext Value DecimalSpec.

(** [prints v text]: the text of a value that has one.  The text of a float is the
    Rust standard library's ([f64_display]). *)
Inductive prints `{X : Ext} : value -> str -> Prop :=
| pr_none : prints VNone []
| pr_true : prints (VBool true) (s2b "true")
| pr_false : prints (VBool false) (s2b "false")
| pr_int z text : decimal z text -> prints (VInt z) text
| pr_string s : prints (VStr s) s
| pr_float f : prints (VFloat f) (concat (f64_display f)).
(** The others, and what they are called. *)
Definition unprintable (v : value) (what : str) : Prop :=
  (exists l, v = VList l /\ what = s2b "list") \/ (exists m, v = VMap m /\ what = s2b "map").
