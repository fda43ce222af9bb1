(** Which [with] variables of other templates can be in sight of a template (C13). *)
From Verif Require Import Base Ext Errors Value Ast Wp AstOk Compiler Fmt Stack Filters Render RenderSpec RenderErr.

(** The [include]s without [with] in a statement, each with the names of the [with]
    blocks it is in; [ws] are those around the statement. *)
Fixpoint shares (ws : list ident) (s : stmt) : list (str * list ident) :=
  match s with
  | SRaw _ | SInline _ _ => []
  | SInclude name None => [(as_name name, ws)]
  | SInclude _ (Some _) => []
  | SIf _ _ thn els => flat_map (shares ws) thn ++ match els with Some l => flat_map (shares ws) l | None => [] end
  | SFor _ _ b => flat_map (shares ws) b
  | SWith _ n b => flat_map (shares (n :: ws)) b
  end.

Section Sight.
Variable inner : renderer_inner.
Variable ast_of : template -> scope.
(** [in_sight t sp]: while [t] is rendered, the name of a [with] variable at [sp] in
    another template may be in sight. *)
Inductive in_sight : template -> span -> Prop :=
| is_with t name ws n t' : provided inner t -> In (name, ws) (flat_map (shares []) (ast_of t)) -> In n ws ->
    resolves inner name t' -> in_sight t' (id_span n)
| is_more t name ws sp t' : in_sight t sp -> In (name, ws) (flat_map (shares []) (ast_of t)) ->
    resolves inner name t' -> in_sight t' sp.
End Sight.
