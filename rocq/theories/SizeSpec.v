(** The size of a compiled template, and templates that are run straight through. *)
From Verif Require Import Base Errors Value Ast.

(** The bytes of text in a literal. *)
Definition lit_size (v : value) : nat := match v with VStr s => length s | _ => 0 end.
(** An argument: the names and indexes of a variable; or a literal. *)
Definition arg_size (b : base_expr) : nat :=
  match b with BVar v => length v | BLit v _ => 1 + lit_size v end.
(** An instruction with all that it holds: the names and indexes of a variable, the
    arguments of a filter, the texts of literals, the name of a template. *)
Definition instr_size (i : instr) : nat :=
  match i with
  | IExprStart v => 1 + length v
  | IExprStartLit v => 1 + lit_size v
  | IApply _ _ (Some a) => 1 + list_sum (map arg_size (a_values a))
  | IInclude n => 1 + length (as_name n)
  | IIncludeWith n => 1 + length (as_name n)
  | _ => 1
  end.
Definition size (t : template) : nat := list_sum (map instr_size (t_instrs t)).

(** No [for] and no [include], at any depth. *)
Fixpoint straight (s : stmt) : Prop :=
  let all := fix all (l : list stmt) : Prop := match l with [] => True | s :: l' => straight s /\ all l' end in
  match s with
  | SRaw _ => True
  | SInline _ _ => True
  | SInclude _ _ => False
  | SIf _ _ thn els => all thn /\ match els with Some l => all l | None => True end
  | SFor _ _ _ => False
  | SWith _ _ body => all body
  end.
Fixpoint all_straight (l : scope) : Prop := match l with [] => True | s :: l' => straight s /\ all_straight l' end.
