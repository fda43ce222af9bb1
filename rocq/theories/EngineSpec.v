(** Engines and templates a program can obtain. *)
From Verif Require Import Base Utf8 Ext Errors Syntax Value Ast Fmt Filters Render Engine.

(** [engine_for sx e]: [e] was created with syntax [sx] and changed only through
    the methods of [Engine]. *)
Inductive engine_for `{X : Ext} (sx : syntax) : engine -> Prop :=
| ef_new e : engine_with_syntax sx = Ok e -> engine_for sx e
| ef_depth n e : engine_for sx e -> engine_for sx (set_max_include_depth n e)
| ef_default f e : engine_for sx e -> engine_for sx (set_default_formatter f e)
| ef_formatter n f e : engine_for sx e -> engine_for sx (fst (add_formatter n f e))
| ef_filter n f e : engine_for sx e -> engine_for sx (fst (add_filter n f e))
| ef_remove_function n e : engine_for sx e -> engine_for sx (fst (remove_function n e))
| ef_template n s e : valid_utf8 s -> engine_for sx e -> engine_for sx (fst (add_template n s e))
| ef_remove_template n e : engine_for sx e -> engine_for sx (fst (remove_template n e)).
