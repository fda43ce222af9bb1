(** What a sequence of calls of the methods of [SyntaxBuilder] configures. *)
From Verif Require Import Base Utf8 Syntax.

(** A call: [expr(b, e)], [block(b, e)] or [comment(b, e)]. *)
Inductive group := GExpr | GBlock | GComment.
Definition group_eqb (a b : group) : bool :=
  match a, b with GExpr, GExpr | GBlock, GBlock | GComment, GComment => true | _, _ => false end.
Record setting := set_to { se_group : group; se_begin : str; se_end : str }.

(** The delimiters set last for a group. *)
Fixpoint last_setting (g : group) (l : list setting) : option (str * str) :=
  match l with
  | [] => None
  | s :: l' =>
    match last_setting g l' with
    | Some p => Some p
    | None => if group_eqb g (se_group s) then Some (se_begin s, se_end s) else None
    end
  end.

(** The group a delimiter belongs to; whether it opens or closes; whether it trims. *)
Definition group_of (k : kind) : group :=
  match k with
  | BeginExprK | EndExprK | BeginExprTrimK | EndExprTrimK => GExpr
  | BeginBlockK | EndBlockK | BeginBlockTrimK | EndBlockTrimK => GBlock
  | BeginCommentK | EndCommentK | BeginCommentTrimK | EndCommentTrimK => GComment
  end.
(** The text of a delimiter of a group with the delimiters [b] and [e]: the hyphen
    is on the inner side of the tag. *)
Definition spelled (k : kind) (b e : str) : str :=
  match k with
  | BeginExprK | BeginBlockK | BeginCommentK => b
  | EndExprK | EndBlockK | EndCommentK => e
  | BeginExprTrimK | BeginBlockTrimK | BeginCommentTrimK => b ++ s2b "-"
  | EndExprTrimK | EndBlockTrimK | EndCommentTrimK => s2b "-" ++ e
  end.

(** [configured l k p]: after the calls [l], [p] is the delimiter of kind [k]. *)
Definition configured (l : list setting) (k : kind) (p : str) : Prop :=
  exists b e, last_setting (group_of k) l = Some (b, e) /\ p = spelled k b e.

(** Running the calls (src/types/syntax.rs 107-139) from [SyntaxBuilder::new()]. *)
Fixpoint call_all (l : list setting) (sb : syntax_builder) : outcome unit syntax_builder :=
  match l with
  | [] => Ok sb
  | set_to g b e :: l' =>
    match (match g with GExpr => sb_set_expr b e sb | GBlock => sb_set_block b e sb | GComment => sb_set_comment b e sb end) with
    | Ok sb' => call_all l' sb'
    | Err u => Err u
    | Panic => Panic
    | OutOfFuel => OutOfFuel
    end
  end.
