(** Which templates there are: the trees of Meaning.v that can be written down.
    Nothing here refers to the lexer or the parser. *)
From Verif Require Import Base Utf8 Ext Errors Syntax SearchSpec Value Ast LexSpec GrammarSpec Meaning.

Section Trees.
Context `{X : Ext}.
Variable sx : syntax.

(** A name: an identifier that is not a reserved word. *)
Definition a_name (s : str) : Prop := valid_utf8 s /\ ident_shape s /\ ~ In s reserved.
(** Text: no delimiter occurs in it.  It may be empty. *)
Definition a_text (s : str) : Prop := valid_utf8 s /\ forall k p i, In (k, p) sx -> ~ occurs_at p s i.
(** The text of a number literal: a digit, then letters, digits and [_ - + .] *)
Definition a_number (s : str) : Prop :=
  exists b r, s = b :: r /\ ascii_digit (byte_N b) = true /\ Forall (fun b => number_char (byte_N b) = true) r.
(** Literals: booleans, 64-bit integers, all strings, and those floats that some
    number literal, with or without a sign, denotes. *)
Inductive a_literal : value -> Prop :=
| al_bool b : a_literal (VBool b)
| al_int z : (i64_min <= z <= i64_max)%Z -> a_literal (VInt z)
| al_str s : valid_utf8 s -> a_literal (VStr s)
| al_float s neg f : a_number s -> number_lit s neg (VFloat f) -> a_literal (VFloat f).

Definition a_step (s : pstep) : Prop :=
  match ps_key s with KName n => a_name n | KIndex i => (Z.of_N i <= u64_max)%Z end.
Definition a_atom (a : patom) : Prop :=
  match a with PVar first rest => a_name first /\ Forall a_step rest | PLit v => a_literal v end.
(** A call has no arguments (and no colon), or at least one. *)
Fixpoint a_expr (e : pexpr) : Prop :=
  match e with
  | PAtom a => a_atom a
  | PCall recv name args => a_expr recv /\ a_name name /\
      match args with Some l => l <> [] /\ Forall a_atom l | None => True end
  end.
(** The expression begins with a number. *)
Fixpoint number_first (e : pexpr) : bool :=
  match e with
  | PAtom (PLit (VInt _)) | PAtom (PLit (VFloat _)) => true
  | PAtom _ => false
  | PCall recv _ _ => number_first recv
  end.

(** What a loop ranges over does not begin with a number. *)
Inductive a_stmt : pstmt -> Prop :=
| as_text s : a_text s -> a_stmt (PText s)
| as_show e : a_expr e -> a_stmt (PShow e)
| as_include n : valid_utf8 n -> a_stmt (PInclude n None)
| as_include_with n e : valid_utf8 n -> a_expr e -> a_stmt (PInclude n (Some e))
| as_if neg c thn : a_expr c -> a_template thn -> a_stmt (PIf neg c thn None)
| as_if_else neg c thn els : a_expr c -> a_template thn -> a_template els -> a_stmt (PIf neg c thn (Some els))
| as_for x e b : a_name x -> a_expr e -> number_first e = false -> a_template b -> a_stmt (PFor x e b)
| as_for_entries k v e b : a_name k -> a_name v -> a_expr e -> number_first e = false -> a_template b -> a_stmt (PForEntries k v e b)
| as_with e n b : a_expr e -> a_name n -> a_template b -> a_stmt (PWith e n b)
with a_template : list pstmt -> Prop :=
| at_nil : a_template []
| at_cons s l : a_stmt s -> a_template l -> a_template (s :: l).

(** The source text is a template with the given tree. *)
Definition is_template (source : str) (p : list pstmt) : Prop :=
  valid_utf8 source /\ exists l, derives sx source l /\ bare source l = p.
End Trees.

Scheme a_stmt_mut := Minimality for a_stmt Sort Prop
  with a_template_mut := Minimality for a_template Sort Prop.
Combined Scheme a_mut from a_stmt_mut, a_template_mut.
