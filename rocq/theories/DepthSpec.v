(** The include depth: which templates are active during a rendering, if nothing
    limits the includes. *)
From Verif Require Import Base Utf8 Ext Errors Syntax Value Ast Fmt Stack Filters Render.
From Coq Require Import Relations.

Section Depth.
Context `{X : Ext}.
Variable inner : renderer_inner.

(** The active templates (the innermost first), the variables, the names the
    template function was asked for, and what has been written. *)
Record moment := mkmoment { mo_active : list activation; mo_vars : stack; mo_asked : list str; mo_written : str }.

(** [reaches_include out a st out' rs a' st']: the template [a] writes until it
    comes to an include or to its end. *)
Definition proceeds (out : str) (a : activation) (st : stack) (out' : str) (rs : render_state) (a' : activation) (st' : stack) : Prop :=
  exists fuel pc, run_string out (render_one inner fuel (ac_template a) (ac_pc a) st None) = (out', Ok (rs, pc, st')) /\
    a' = mkact (ac_template a) (ac_name a) pc (ac_has_scope a).

(** An include makes one more template active, the end of a template one less; no
    limit is mentioned. *)
Inductive follows : moment -> moment -> Prop :=
| fo_end a rest st h out a' st' out' : proceeds out a st out' RsDone a' st' -> ac_has_scope a = false ->
    follows (mkmoment (a :: rest) st h out) (mkmoment rest st' h out')
| fo_end_scope a rest st h out a' c st' out' : proceeds out a st out' RsDone a' (FrScope c :: FrBoundary :: st') -> ac_has_scope a = true ->
    follows (mkmoment (a :: rest) st h out) (mkmoment rest st' h out')
| fo_include a rest st h out a' st' out' name t h' : proceeds out a st out' (RsInclude name) a' st' ->
    get_template inner (t_source (ac_template a)) name h = Ok (t, h') ->
    follows (mkmoment (a :: rest) st h out) (mkmoment (mkact t (Some (as_name name)) 0 false :: a' :: rest) st' h' out')
| fo_include_with a rest st h out a' st' out' name c t h' : proceeds out a st out' (RsIncludeWith name c) a' st' ->
    get_template inner (t_source (ac_template a)) name h = Ok (t, h') ->
    follows (mkmoment (a :: rest) st h out) (mkmoment (mkact t (Some (as_name name)) 0 true :: a' :: rest) (FrScope c :: FrBoundary :: st') h' out').

Definition leads_to : moment -> moment -> Prop := clos_refl_trans_1n _ follows.
(** The beginning of a rendering. *)
Definition start (st : stack) : moment := mkmoment [mkact (ri_template inner) (ri_template_name inner) 0 false] st [] [].
End Depth.
