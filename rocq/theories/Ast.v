(** src/types/ast.rs and src/types/program.rs *)
From Verif Require Import Base Ext Errors Value.

(** ast.rs 150-155 [Ident]: identifiers are spans of the source *)
Record ident := mkident { id_span : span }.

(** ast.rs [AccessOp] *)
Inductive access_op := Direct | Optional.

(** ast.rs [Access], [Index]; a [usize] index is in [N] *)
Inductive access :=
| AIndex (value : N) (sp : span)
| AKey (id : ident).

(** ast.rs 196-203 [Access::span] *)
Definition access_span (a : access) : span :=
  match a with AIndex _ sp => sp | AKey id => id_span id end.

(** ast.rs [Member] *)
Record member := mkmember { mb_op : access_op; mb_access : access; mb_span : span }.

(** ast.rs [Var] *)
Definition var := list member.

(** ast.rs 179-194: [first], [last], [rest], [span]; [unwrap] of an empty path
    panics *)
Definition var_first {E} (v : var) : outcome E member := unwrap (hd_error v).
Definition var_last {E} (v : var) : outcome E member := unwrap (hd_error (rev v)).
Definition var_rest (v : var) : list member := tl v.
Definition var_span {E} (v : var) : outcome E span :=
  let* a := var_first v in
  let* b := var_last v in
  Ok (combine_span (mb_span a) (mb_span b)).

(** ast.rs [BaseExpr], [Literal] *)
Inductive base_expr :=
| BVar (v : var)
| BLit (v : value) (sp : span).

(** ast.rs 170-177 [BaseExpr::span] *)
Definition base_span {E} (b : base_expr) : outcome E span :=
  match b with BVar v => var_span v | BLit _ sp => Ok sp end.

(** ast.rs [Args] *)
Record args := mkargs { a_values : list base_expr; a_span : span }.

(** ast.rs [Expr], [Call] *)
Inductive expr :=
| EBase (b : base_expr)
| ECall (name : ident) (a : option args) (receiver : expr) (sp : span).

(** ast.rs 161-168 [Expr::span] *)
Definition expr_span {E} (e : expr) : outcome E span :=
  match e with EBase b => base_span b | ECall _ _ _ sp => Ok sp end.

(** ast.rs [LoopVars], [KeyValue] *)
Inductive loop_vars :=
| LVItem (id : ident)
| LVKeyValue (key value : ident) (sp : span).

(** ast.rs [String]: decoded text and span *)
Record ast_string := mkaststr { as_name : str; as_span : span }.

(** ast.rs [Stmt] and its payloads; a [Scope] is a list of statements *)
Inductive stmt :=
| SRaw (sp : span)
| SInline (e : expr) (sp : span)
| SInclude (name : ast_string) (globals : option expr)
| SIf (not : bool) (cond : expr) (then_branch : list stmt) (else_branch : option (list stmt))
| SFor (vars : loop_vars) (iterable : expr) (body : list stmt)
| SWith (e : expr) (name : ident) (body : list stmt).

Definition scope := list stmt.

(** program.rs 19-62 [Instr].  A jump target is [None] while it is [FIXME]
    (program.rs 10). *)
Inductive instr :=
| IJump (t : option nat)
| IJumpIfTrue (t : option nat)
| IJumpIfFalse (t : option nat)
| IEmit (sp : span)
| IEmitRaw (sp : span)
| IEmitWith (name : ident) (sp : span)
| ILoopStart (vars : loop_vars) (sp : span)
| ILoopNext (t : option nat)
| IWithStart (name : ident)
| IWithEnd
| IInclude (name : ast_string)
| IIncludeWith (name : ast_string)
| IExprStart (v : var)
| IExprStartLit (v : value)
| IApply (name : ident) (sp : span) (a : option args).

(** program.rs 12-17 [Template] *)
Record template := mktemplate { t_source : str; t_instrs : list instr }.
