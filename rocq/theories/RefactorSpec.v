(** Rewritings of templates that should not change what they render to (C47).

    On the trees of Meaning.v, which have no positions and no layout. *)
From Verif Require Import Base Ext Errors Value Ast Fmt Stack Filters Render Meaning.

(** ** Names in a template *)
Definition mentions (x : str) (a : patom) : Prop := match a with PVar first _ => first = x | PLit _ => False end.
(** No [?.] in it. *)
Definition direct (a : patom) : Prop := match a with PVar _ rest => Forall (fun s => ps_optional s = false) rest | PLit _ => True end.
Section Each.
Variable at_ : patom -> Prop.   (* holds of every variable and literal *)
Variable binds : str -> Prop.   (* holds of every name that a block introduces *)
Variable shares : Prop.         (* if there is an [include] that shares the variables *)
Fixpoint in_expr (e : pexpr) : Prop :=
  match e with
  | PAtom a => at_ a
  | PCall recv _ args => in_expr recv /\ match args with Some l => Forall at_ l | None => True end
  end.
Fixpoint in_stmt (s : pstmt) : Prop :=
  let all := fix all (l : list pstmt) : Prop := match l with [] => True | s :: l' => in_stmt s /\ all l' end in
  match s with
  | PText _ => True
  | PShow e => in_expr e
  | PInclude _ None => shares
  | PInclude _ (Some e) => in_expr e
  | PIf _ c thn els => in_expr c /\ all thn /\ match els with Some l => all l | None => True end
  | PFor i e b => binds i /\ in_expr e /\ all b
  | PForEntries k v e b => binds k /\ binds v /\ in_expr e /\ all b
  | PWith e n b => binds n /\ in_expr e /\ all b
  end.
Fixpoint in_block (l : list pstmt) : Prop := match l with [] => True | s :: l' => in_stmt s /\ in_block l' end.
End Each.

(** [x] does not occur in the block, which includes nothing that could see it. *)
Definition unused (x : str) (l : list pstmt) : Prop := in_block (fun a => ~ mentions x a) (fun _ => True) False l.
(** [x] can be called [y] in the block: [y] does not occur in it, neither is
    introduced in it, and it includes nothing that could see them. *)
Definition can_rename (x y : str) (l : list pstmt) : Prop :=
  x <> s2b "loop" /\ y <> s2b "loop" /\
  in_block (fun a => ~ mentions y a) (fun n => n <> x /\ n <> y) False l.
(** [x] is not accessed with [?.] (a missing optional member of a loop variable is
    looked for outside of the loop, see C20). *)
Definition direct_use (x : str) (l : list pstmt) : Prop := in_block (fun a => mentions x a -> direct a) (fun _ => True) True l.

Section Rename.
Variables x y : str.
Definition ren_atom (a : patom) : patom :=
  match a with PVar first rest => PVar (if str_eqb first x then y else first) rest | PLit v => PLit v end.
Fixpoint ren_expr (e : pexpr) : pexpr :=
  match e with
  | PAtom a => PAtom (ren_atom a)
  | PCall recv name args => PCall (ren_expr recv) name (match args with Some l => Some (map ren_atom l) | None => None end)
  end.
Fixpoint ren_stmt (s : pstmt) : pstmt :=
  match s with
  | PText s => PText s
  | PShow e => PShow (ren_expr e)
  | PInclude n a => PInclude n (match a with Some e => Some (ren_expr e) | None => None end)
  | PIf neg c thn els => PIf neg (ren_expr c) (map ren_stmt thn) (match els with Some l => Some (map ren_stmt l) | None => None end)
  | PFor i e b => PFor i (ren_expr e) (map ren_stmt b)
  | PForEntries k v e b => PForEntries k v (ren_expr e) (map ren_stmt b)
  | PWith e n b => PWith (ren_expr e) n (map ren_stmt b)
  end.
End Rename.
Definition rename (x y : str) (l : list pstmt) : list pstmt := map (ren_stmt x y) l.

(** ** The laws *)
Section Laws.
Context `{X : Ext}.
Variable functions : str -> option engine_fn.   (* of the engine *)
Variable default : formatter.                   (* its default formatter *)

(** The last function of [e] is not a formatter, nor unknown. *)
Definition has_value (e : pexpr) : Prop :=
  match e with PCall _ f None => exists fl, functions f = Some (EFilter fl) | _ => True end.
Definition or_empty (els : option (list pstmt)) : list pstmt := match els with Some l => l | None => [] end.

Inductive refactors : list pstmt -> list pstmt -> Prop :=
(* an equivalence, in any place *)
| rf_refl l : refactors l l
| rf_sym a b : refactors a b -> refactors b a
| rf_trans a b c : refactors a b -> refactors b c -> refactors a c
| rf_app a a' b b' : refactors a a' -> refactors b b' -> refactors (a ++ b) (a' ++ b')
| rf_if n c a a' b b' : refactors a a' -> refactors (or_empty b) (or_empty b') -> refactors [PIf n c a b] [PIf n c a' b']
| rf_for i e a a' : refactors a a' -> refactors [PFor i e a] [PFor i e a']
| rf_entries k v e a a' : refactors a a' -> refactors [PForEntries k v e a] [PForEntries k v e a']
| rf_with e n a a' : refactors a a' -> refactors [PWith e n a] [PWith e n a']
(* text *)
| rf_text s t : refactors [PText s; PText t] [PText (s ++ t)]
| rf_no_text : refactors [PText []] []
| rf_show_text s : default = fmt_default -> refactors [PShow (PAtom (PLit (VStr s)))] [PText s]
(* conditionals *)
| rf_not n c a b : refactors [PIf n c a (Some b)] [PIf (negb n) c b (Some a)]
| rf_constant n v a b : refactors [PIf n (PAtom (PLit v)) a (Some b)] (if xorb n (as_bool v) then a else b)
| rf_tail n c a b l : refactors (PIf n c a (Some b) :: l) [PIf n c (a ++ l) (Some (b ++ l))]
| rf_head s n c a b : refactors [PText s; PIf n c a (Some b)] [PIf n c (PText s :: a) (Some (PText s :: b))]
(* variables *)
| rf_name e x : has_value e -> refactors [PShow e] [PWith e x [PShow (PAtom (PVar x []))]]
| rf_longer e x a l : unused x l -> refactors (PWith e x a :: l) [PWith e x (a ++ l)]
| rf_rename_with e x y a : can_rename x y a -> refactors [PWith e x a] [PWith e y (rename x y a)]
| rf_rename_for e x y a : can_rename x y a -> direct_use x a -> refactors [PFor x e a] [PFor y e (rename x y a)]
| rf_rename_key e x y v a : can_rename x y a -> x <> v -> y <> v ->
    refactors [PForEntries x v e a] [PForEntries y v e (rename x y a)]
| rf_rename_value e k x y a : can_rename x y a -> direct_use x a -> x <> k -> y <> k ->
    refactors [PForEntries k x e a] [PForEntries k y e (rename x y a)].
End Laws.

(** ** Inlining (C48) *)
(** Some [include]s without [with] are replaced by the statements of the template they
    name. *)
Section Inline.
Variable template : str -> list pstmt -> Prop.   (* the statements of the template of a name *)
Inductive inlines : list pstmt -> list pstmt -> Prop :=
| il_refl l : inlines l l
| il_trans a b c : inlines a b -> inlines b c -> inlines a c
| il_app a a' b b' : inlines a a' -> inlines b b' -> inlines (a ++ b) (a' ++ b')
| il_if n c a a' b b' : inlines a a' -> inlines (or_empty b) (or_empty b') -> inlines [PIf n c a b] [PIf n c a' b']
| il_for i e a a' : inlines a a' -> inlines [PFor i e a] [PFor i e a']
| il_entries k v e a a' : inlines a a' -> inlines [PForEntries k v e a] [PForEntries k v e a']
| il_with e n a a' : inlines a a' -> inlines [PWith e n a] [PWith e n a']
| il_include n a : template n a -> inlines [PInclude n None] a.
End Inline.
