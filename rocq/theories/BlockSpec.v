(** Specification of blocks: truthiness, branches, iterations, visibility. *)
From Verif Require Import Base Utf8 Ext Errors Value Ast Fmt Stack Filters Render RenderSpec LookupSpec.
From Coq Require Import Floats.SpecFloat.

(** ** Truthiness *)
Inductive falsy : value -> Prop :=
| fa_none : falsy VNone
| fa_false : falsy (VBool false)
| fa_zero : falsy (VInt 0)
| fa_fzero sign : falsy (VFloat (S754_zero sign))
| fa_str : falsy (VStr [])
| fa_list : falsy (VList [])
| fa_map : falsy (VMap []).

(** ** [if .. else if .. else] *)

(** A branch: [not] or not, the condition, the body. *)
Definition branch := (bool * expr * scope)%type.
(** An [else if] is an [if] inside the [else]. *)
Fixpoint chain (b : branch) (more : list branch) (els : option scope) : stmt :=
  match b with
  | (n, c, body) =>
    SIf n c body (match more with [] => els | b' :: more' => Some [chain b' more' els] end)
  end.

Inductive selected := Chosen (l : scope) | Failed (e : error) | Crashed.
(** [selects value bs els r]: given the values of conditions, the first branch
    whose condition holds is chosen; conditions after it are not evaluated. *)
Inductive selects (value_of : expr -> res cow) : list branch -> option scope -> selected -> Prop :=
| sel_if c body bs els v : value_of c = Ok v -> ~ falsy (cow_val v) -> selects value_of ((false, c, body) :: bs) els (Chosen body)
| sel_if_not c body bs els v : value_of c = Ok v -> falsy (cow_val v) -> selects value_of ((true, c, body) :: bs) els (Chosen body)
| sel_skip c body bs els v r : value_of c = Ok v -> falsy (cow_val v) -> selects value_of bs els r ->
    selects value_of ((false, c, body) :: bs) els r
| sel_skip_not c body bs els v r : value_of c = Ok v -> ~ falsy (cow_val v) -> selects value_of bs els r ->
    selects value_of ((true, c, body) :: bs) els r
| sel_error n c body bs els e : value_of c = Err e -> selects value_of ((n, c, body) :: bs) els (Failed e)
| sel_crash n c body bs els : value_of c = Panic -> selects value_of ((n, c, body) :: bs) els Crashed
| sel_else l : selects value_of [] (Some l) (Chosen l)
| sel_none : selects value_of [] None (Chosen []).

(** ** Names *)

(** [written source v ks]: the variable [v] is written [k1.k2. ...] (with [.] or
    [?.]) in the source. *)
Definition written (source : str) (v : var) (ks : list str) : Prop := Forall2 (names source) v ks.
(** [starts source v k]: the first name of the path [v] is [k]. *)
Definition starts (source : str) (v : var) (k : str) : Prop := exists m ms, v = m :: ms /\ names source m k.

(** ** Iterations *)
Section Iteration.
Context `{X : Ext}.

(** The [k]-th iteration of [n] over a list: what the frame [fr] shows on top of
    the variables [st]. *)
Record list_iteration (item : str) (source : str) (st : stack) (fr : frame) (k n : nat) (x : value) : Prop := {
  li_item v : written source v [item] -> exists c, lookup_var (fr :: st) source v = Ok c /\ cow_val c = x;
  li_index v : written source v [s2b "loop"; s2b "index"] -> lookup_var (fr :: st) source v = Ok (Owned (VInt (Z.of_nat k)));
  li_first v : written source v [s2b "loop"; s2b "first"] -> lookup_var (fr :: st) source v = Ok (Owned (VBool (k =? 0)));
  li_last v : written source v [s2b "loop"; s2b "last"] -> lookup_var (fr :: st) source v = Ok (Owned (VBool (S k =? n)));
  li_other v name : starts source v name -> name <> item -> name <> s2b "loop" -> lookup_var (fr :: st) source v = lookup_var st source v }.
(** The same over a map, with the key and the value. *)
Record map_iteration (key value : str) (source : str) (st : stack) (fr : frame) (k n : nat) (x : str * Value.value) : Prop := {
  mi_key v : written source v [key] -> exists c, lookup_var (fr :: st) source v = Ok c /\ cow_val c = VStr (fst x);
  mi_value v : key <> value -> written source v [value] -> exists c, lookup_var (fr :: st) source v = Ok c /\ cow_val c = snd x;
  mi_index v : written source v [s2b "loop"; s2b "index"] -> lookup_var (fr :: st) source v = Ok (Owned (VInt (Z.of_nat k)));
  mi_first v : written source v [s2b "loop"; s2b "first"] -> lookup_var (fr :: st) source v = Ok (Owned (VBool (k =? 0)));
  mi_last v : written source v [s2b "loop"; s2b "last"] -> lookup_var (fr :: st) source v = Ok (Owned (VBool (S k =? n)));
  mi_other v name : starts source v name -> name <> key -> name <> value -> name <> s2b "loop" ->
    lookup_var (fr :: st) source v = lookup_var st source v }.
End Iteration.
