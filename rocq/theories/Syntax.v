(** src/types/syntax.rs *)
From Verif Require Import Base Utf8.

(** src/types/syntax.rs 23-37 *)
Inductive kind :=
| BeginExprK | EndExprK | BeginExprTrimK | EndExprTrimK
| BeginBlockK | EndBlockK | BeginBlockTrimK | EndBlockTrimK
| BeginCommentK | EndCommentK | BeginCommentTrimK | EndCommentTrimK.

(** src/types/syntax.rs 190-194: [k as usize] *)
Definition kind_usize (k : kind) : nat :=
  match k with
  | BeginExprK => 0 | EndExprK => 1 | BeginExprTrimK => 2 | EndExprTrimK => 3
  | BeginBlockK => 4 | EndBlockK => 5 | BeginBlockTrimK => 6 | EndBlockTrimK => 7
  | BeginCommentK => 8 | EndCommentK => 9 | BeginCommentTrimK => 10 | EndCommentTrimK => 11
  end.

(** src/types/syntax.rs 170-188 [Kind::from_usize]; other numbers: unreachable! *)
Definition kind_from_usize {E} (n : nat) : outcome E kind :=
  match n with
  | 0 => Ok BeginExprK | 1 => Ok EndExprK | 2 => Ok BeginExprTrimK | 3 => Ok EndExprTrimK
  | 4 => Ok BeginBlockK | 5 => Ok EndBlockK | 6 => Ok BeginBlockTrimK | 7 => Ok EndBlockTrimK
  | 8 => Ok BeginCommentK | 9 => Ok EndCommentK | 10 => Ok BeginCommentTrimK
  | 11 => Ok EndCommentTrimK
  | _ => Panic
  end.

(** src/types/syntax.rs 17-21 [SyntaxBuilder] *)
Record syntax_builder := {
  sb_expr : option (str * str);
  sb_block : option (str * str);
  sb_comment : option (str * str)
}.

(** src/types/syntax.rs 91-97 *)
Definition sb_new : syntax_builder := {| sb_expr := None; sb_block := None; sb_comment := None |}.

Definition is_empty (s : str) : bool := match s with [] => true | _ => false end.

(** src/types/syntax.rs 107-111; the assert is a panic *)
Definition sb_set_expr {E} (b e : str) (sb : syntax_builder) : outcome E syntax_builder :=
  if negb (is_empty b) && negb (is_empty e)
  then Ok {| sb_expr := Some (b, e); sb_block := sb_block sb; sb_comment := sb_comment sb |}
  else Panic.
(** src/types/syntax.rs 121-125 *)
Definition sb_set_block {E} (b e : str) (sb : syntax_builder) : outcome E syntax_builder :=
  if negb (is_empty b) && negb (is_empty e)
  then Ok {| sb_expr := sb_expr sb; sb_block := Some (b, e); sb_comment := sb_comment sb |}
  else Panic.
(** src/types/syntax.rs 135-139 *)
Definition sb_set_comment {E} (b e : str) (sb : syntax_builder) : outcome E syntax_builder :=
  if negb (is_empty b) && negb (is_empty e)
  then Ok {| sb_expr := sb_expr sb; sb_block := sb_block sb; sb_comment := Some (b, e) |}
  else Panic.

(** src/types/syntax.rs 7-11: the pattern list of a [Syntax] *)
Definition syntax := list (kind * str).

(** src/types/syntax.rs 142-167 [build] *)
Definition sb_build (sb : syntax_builder) : syntax :=
  match sb_expr sb with
  | Some (b, e) => [(BeginExprK, b); (EndExprK, e); (BeginExprTrimK, b ++ [x2d]);
                    (EndExprTrimK, x2d :: e)]
  | None => []
  end ++
  match sb_block sb with
  | Some (b, e) => [(BeginBlockK, b); (EndBlockK, e); (BeginBlockTrimK, b ++ [x2d]);
                    (EndBlockTrimK, x2d :: e)]
  | None => []
  end ++
  match sb_comment sb with
  | Some (b, e) => [(BeginCommentK, b); (EndCommentK, e); (BeginCommentTrimK, b ++ [x2d]);
                    (EndCommentTrimK, x2d :: e)]
  | None => []
  end.

(** src/types/syntax.rs 61-68 *)
Definition default_syntax : syntax :=
  sb_build {| sb_expr := Some (s2b "{{", s2b "}}");
              sb_block := Some (s2b "{%", s2b "%}");
              sb_comment := Some (s2b "{#", s2b "#}") |}.
