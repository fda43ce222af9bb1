(** Specification of C54: a block does what its body does in a larger context.

    On the trees of Meaning.v. *)
From Verif Require Import Base Ext Errors Value Ast Fmt Stack Filters Render Engine Meaning RefactorSpec BlockSpec.

(** Results one after the other: the outputs together, or the first that is no output. *)
Fixpoint in_order (rs : list (res str)) : res str :=
  match rs with
  | [] => Ok []
  | Ok s :: rs' => match in_order rs' with Ok s' => Ok (s ++ s') | r => r end
  | r :: _ => r
  end.

(** The branch of a conditional ([neg] with [not]). *)
Inductive chosen (neg : bool) (v : value) (thn : list pstmt) (els : option (list pstmt)) : list pstmt -> Prop :=
| chosen_then : (if neg then falsy v else ~ falsy v) -> chosen neg v thn els thn
| chosen_else : (if neg then ~ falsy v else falsy v) -> chosen neg v thn els (match els with Some b => b | None => [] end).

(** What [loop] is in round [k] of [n], as a value. *)
Definition loop_value (k n : nat) : value :=
  VMap [(s2b "first", VBool (k =? 0)); (s2b "index", VInt (Z.of_nat k)); (s2b "last", VBool (S k =? n))].
(** The context of a round: the outer one, with the loop variables and [loop]. *)
Definition item_context (m : list (str * value)) (x : str) (k n : nat) (v : value) : list (str * value) :=
  map_insert (s2b "loop") (loop_value k n) (map_insert x v m).
Definition entry_context (m : list (str * value)) (kn vn : str) (k n : nat) (kv : str * value) : list (str * value) :=
  map_insert (s2b "loop") (loop_value k n) (map_insert kn (VStr (fst kv)) (map_insert vn (snd kv) m)).

(** ** When a filter cannot tell where its arguments come from *)
Section Bodies.
Context `{X : Ext}.
(** No filter of the engine takes an argument by reference ([&str], [&Value], ..):
    such filters refuse arguments that are not stored in the context. *)
Definition takes_reference (t : arg_ty) : Prop := t = TyStr \/ t = TyListRef \/ t = TyMapRef \/ t = TyValueRef.
Definition by_value (e : engine) : Prop :=
  forall name f, map_get name (en_functions e) = Some (EFilter f) -> Forall (fun t => ~ takes_reference t) (fl_args f).

(** The value of an expression in a context, or the error. *)
Definition value_in (e : engine) (g : globals) (ex : pexpr) (v : cow + (ekind * str)) : Prop :=
  m_expr (mkworld (fun n => map_get n (en_functions e)) (en_default_formatter e) 0 (fun _ _ => inr [])) (start g) ex = v.

(** ** How the variables of a loop are used

    [loop], or one member of it; and, since in the code a missing [?.] member of a
    loop variable is looked for outside of the loop (C20), no [?.] behind a loop
    variable; nothing behind the key of a loop over a map. *)
Definition loop_use (e : engine) (first : str) (rest : list pstep) : Prop :=
  first = s2b "loop" -> by_value e /\ (rest = [] \/ exists o k, rest = [mkpstep o (KName k)]).
Definition item_use (e : engine) (x : str) (a : patom) : Prop :=
  match a with PVar first rest => loop_use e first rest /\ (first = x -> Forall (fun s => ps_optional s = false) rest) | PLit _ => True end.
Definition entry_use (e : engine) (kn vn : str) (a : patom) : Prop :=
  match a with
  | PVar first rest => loop_use e first rest /\ (first = kn -> by_value e /\ rest = []) /\
      (first = vn -> first <> kn -> Forall (fun s => ps_optional s = false) rest)
  | PLit _ => True
  end.
(** The atoms of a block are used so; and if it includes templates (without [with]), which
    see its variables, those of all templates of the engine, [lib], are. *)
Definition used_so (use : patom -> Prop) (lib : list pstmt -> Prop) (body : list pstmt) : Prop :=
  in_block use (fun _ => True) (forall b, lib b -> in_block use (fun _ => True) True b) body.
End Bodies.
