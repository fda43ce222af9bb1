(** Which functions and templates of an engine a template uses. *)
From Verif Require Import Base Utf8 Ext Errors Value Ast Fmt Filters Render.

(** The function names in an expression, and in a statement at any depth. *)
Fixpoint expr_calls (e : expr) : list ident :=
  match e with
  | EBase _ => []
  | ECall name _ recv _ => name :: expr_calls recv
  end.
Fixpoint stmt_calls (s : stmt) : list ident :=
  match s with
  | SRaw _ => []
  | SInline e _ => expr_calls e
  | SInclude _ g => match g with Some e => expr_calls e | None => [] end
  | SIf _ c thn els =>
    expr_calls c ++ flat_map stmt_calls thn ++ match els with Some l => flat_map stmt_calls l | None => [] end
  | SFor _ e b => expr_calls e ++ flat_map stmt_calls b
  | SWith e _ b => expr_calls e ++ flat_map stmt_calls b
  end.
(** [calls source l name]: a pipeline in the statements [l] of [source] has the
    function [name]. *)
Definition calls (source : str) (l : scope) (name : str) : Prop :=
  exists id, In id (flat_map stmt_calls l) /\ index_span source (id_span id) = @Ok error _ name.

(** [with_engine e inner]: the same renderer over another engine. *)
Definition with_engine (e : engine) (inner : renderer_inner) : renderer_inner :=
  mkinner e (ri_template inner) (ri_template_name inner) (ri_max_include_depth inner) (ri_template_fn inner).
