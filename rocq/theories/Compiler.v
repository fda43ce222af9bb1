(** src/compile/mod.rs *)
From Verif Require Import Base Utf8 Ext Errors Syntax AhoCorasick Value Ast Lexer Parser.

(** compile/mod.rs 184-188 [push] *)
Definition push (code : list instr) (i : instr) : list instr := code ++ [i].

(** compile/mod.rs 175-182 [update_jump]; panics if the index is out of range or
    the instruction is not a jump *)
Definition update_jump (code : list instr) (i : nat) : res (list instr) :=
  let n := Some (length code) in
  match nth_error code i with
  | Some (IJump _) => Ok (upd i (fun _ => IJump n) code)
  | Some (IJumpIfTrue _) => Ok (upd i (fun _ => IJumpIfTrue n) code)
  | Some (IJumpIfFalse _) => Ok (upd i (fun _ => IJumpIfFalse n) code)
  | Some (ILoopNext _) => Ok (upd i (fun _ => ILoopNext n) code)
  | _ => Panic
  end.

(** compile/mod.rs 150-159 [compile_base_expr] *)
Definition compile_base_expr (code : list instr) (b : base_expr) : list instr :=
  match b with
  | BVar v => push code (IExprStart v)
  | BLit v _ => push code (IExprStartLit v)
  end.

(** compile/mod.rs 132-148 [compile_expr] *)
Fixpoint compile_expr (code : list instr) (e : expr) : list instr :=
  match e with
  | EBase b => compile_base_expr code b
  | ECall name a receiver sp => push (compile_expr code receiver) (IApply name sp a)
  end.

(** compile/mod.rs 161-173 [pop_emit_expr] *)
Definition pop_emit_expr (code : list instr) (sp : span) : list instr :=
  match rev code with
  | IApply name _ None :: r => push (rev r) (IEmitWith name sp)
  | _ => push code (IEmit sp)
  end.

(** compile/mod.rs 56-130 [compile_stmt] and 50-54 [compile_scope] *)
Fixpoint compile_stmt (code : list instr) (s : stmt) {struct s} : res (list instr) :=
  let compile_scope :=
    fix compile_scope (code : list instr) (l : list stmt) {struct l} : res (list instr) :=
      match l with
      | [] => Ok code
      | s :: l' => let* code := compile_stmt code s in compile_scope code l'
      end in
  match s with
  | SRaw sp => Ok (push code (IEmitRaw sp))
  | SInline e _ =>
    let* sp := expr_span e in
    Ok (pop_emit_expr (compile_expr code e) sp)
  | SInclude name globals =>
    match globals with
    | Some g => Ok (push (compile_expr code g) (IIncludeWith name))
    | None => Ok (push code (IInclude name))
    end
  | SIf not_ cond then_branch else_branch =>
    let code := compile_expr code cond in
    let j := length code in
    let code := push code (if not_ then IJumpIfTrue None else IJumpIfFalse None) in
    let* code := compile_scope code then_branch in
    match else_branch with
    | Some els =>
      let j2 := length code in
      let code := push code (IJump None) in
      let* code := update_jump code j in
      let* code := compile_scope code els in
      update_jump code j2
    | None => update_jump code j
    end
  | SFor vars iterable body =>
    let* sp := expr_span iterable in
    let code := compile_expr code iterable in
    let code := push code (ILoopStart vars sp) in
    let j := length code in
    let code := push code (ILoopNext None) in
    let* code := compile_scope code body in
    let code := push code (IJump (Some j)) in
    update_jump code j
  | SWith e name body =>
    let code := compile_expr code e in
    let code := push code (IWithStart name) in
    let* code := compile_scope code body in
    Ok (push code IWithEnd)
  end.

Fixpoint compile_scope (code : list instr) (l : scope) : res (list instr) :=
  match l with
  | [] => Ok code
  | s :: l' => let* code := compile_stmt code s in compile_scope code l'
  end.

(** compile/mod.rs 22-28 [template] and 41-48 [compile_template] *)
Definition compile_template `{X : Ext} (sr : searcher) (source : str) : res template :=
  let* sc := parse_template sr source in
  let* code := compile_scope [] sc in
  Ok (mktemplate source code).
