(** tools/gen-filters/src/main.rs: the program that writes src/filters/impls.rs. *)
From Verif Require Import Base Utf8 Ext Errors Value Ast Fmt Stack Filters FilterImpls.

(** main.rs 108-115 [enum ArgType] *)
Inductive arg_type := AOwned | AStr | AListRef | AMapRef | AValueRef.
Definition arg_type_eq_dec (a b : arg_type) : {a = b} + {a <> b}.
Proof. decide equality. Defined.
(** main.rs 58-66: the types a first parameter may have, and the types of the others *)
Definition value_types : list arg_type := [AOwned; AStr; AListRef; AMapRef; AValueRef].
Definition arg_types : list arg_type := [AOwned; AStr].
(** main.rs 67 [all] *)
Definition all_types : list (list arg_type) := [value_types; arg_types; arg_types; arg_types; arg_types].

(** itertools [multi_cartesian_product]: all choices of one element of each list, the last list
    varying fastest *)
Fixpoint cartesian {A} (ls : list (list A)) : list (list A) :=
  match ls with
  | [] => [[]]
  | l :: ls => flat_map (fun a => map (cons a) (cartesian ls)) l
  end.
(** main.rs 71-73: "types.iter().all(|t| matches!(t, ArgType::Owned))" *)
Definition is_owned_type (t : arg_type) : bool := match t with AOwned => true | _ => false end.
(** main.rs 70-74: for each number of parameters the choices of their types, without those of
    owned types only *)
Definition gen_types (all : list (list arg_type)) : list (list arg_type) :=
  List.filter (fun ts => negb (forallb is_owned_type ts)) (flat_map (fun i => cartesian (firstn i all)) (seq 1 (length all))).

(** main.rs 68: the names of the generic types, 'V', 'A', 'B', ...; the same for the variables
    (main.rs 143) *)
Definition generics : list gvar := [gV; gA; gB; gC; gD].
Definition variables : list pvar := [pv; pa; pb; pc; pd].
(** main.rs 117-124 [enum Arg], 75-101: the argument for a type at a position *)
Inductive arg := Generic (c : gvar) | Borrowed (impl_type : arg_ty) (fn_type : rty).
Definition to_arg (p : arg_type * gvar) : arg :=
  match p with
  | (AOwned, g) => Generic g
  | (AStr, _) => Borrowed TyStr RStr
  | (AListRef, _) => Borrowed TyListRef RSlice
  | (AMapRef, _) => Borrowed TyMapRef RMapRef
  | (AValueRef, _) => Borrowed TyValueRef RValueRef
  end.
(** main.rs 164-199 [maybe_where], [impl_type], [fn_type]; [fn_type_lt] is the same type with a
    lifetime, which the model of the impls leaves out *)
Definition maybe_where (a : arg) : list (gvar * gvar) := match a with Generic c => [(c, c)] | Borrowed _ _ => [] end.
Definition impl_type (a : arg) : mty := match a with Generic c => MGen c | Borrowed t _ => MArg t end.
Definition fn_type (a : arg) : fty := match a with Generic c => FGen c | Borrowed _ t => FTy t end.
(** main.rs 126-162 [render] *)
Definition render_impl (args : list arg) : impl :=
  let head := map impl_type args in
  let fn := map fn_type args in
  let vars := firstn (length args) variables in
  mkimpl head fn (flat_map maybe_where args) (head, fn) vars fn vars.
(** main.rs 75-103: the impl for a choice of types *)
Definition impl_for (ts : list arg_type) : impl := render_impl (map to_arg (combine ts generics)).
(** main.rs 42-106 [gen] *)
Definition gen : list impl := map impl_for (gen_types all_types).
