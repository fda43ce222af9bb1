(** Filters that take parameters by reference or by value. *)
From Verif Require Import Base Errors Value Ast Fmt Stack Filters Render Engine.

(** [taken_by t1 t2]: [t2] is [t1], or [t1] is a reference type and [t2] the type of the
    values it refers to. *)
Inductive taken_by : arg_ty -> arg_ty -> Prop :=
| tb_same t : taken_by t t
| tb_str : taken_by TyStr TyString
| tb_list : taken_by TyListRef TyVec
| tb_map : taken_by TyMapRef TyMap
| tb_value : taken_by TyValueRef TyValue.

(** [f2] does what [f1] does, and takes its receiver, and if [args] its arguments, by value
    where [f1] may take them by reference. *)
Definition same_filter (args : bool) (f1 f2 : filter) : Prop :=
  taken_by (fl_recv f1) (fl_recv f2) /\
  (if args then Forall2 taken_by (fl_args f1) (fl_args f2) else fl_args f1 = fl_args f2) /\
  forall a l, fl_run f1 a l = fl_run f2 a l.
Definition same_function (args : bool) (a b : option engine_fn) : Prop :=
  match a, b with
  | Some (EFilter f1), Some (EFilter f2) => same_filter args f1 f2
  | a, b => a = b
  end.
(** The engines differ in how some filters take their parameters only. *)
Definition same_engine (args : bool) (e1 e2 : engine) : Prop :=
  en_default_formatter e1 = en_default_formatter e2 /\ en_templates e1 = en_templates e2 /\
  en_max_include_depth e1 = en_max_include_depth e2 /\
  forall n, same_function args (map_get n (en_functions e1)) (map_get n (en_functions e2)).

(** An argument that is not stored anywhere was to be passed by reference. *)
Definition owned_only (e : error) : Prop :=
  e_kind e = KRender /\ e_pretty e <> None /\
  exists what, e_reason e = Some (s2b "filter expected reference argument but this " ++ what ++ s2b " can only be passed as owned").
(** The errors are the same but for the name of a parameter type. *)
Definition rephrased (e1 e2 : error) : Prop :=
  e_kind e1 = e_kind e2 /\ e_name e1 = e_name e2 /\ e_pretty e1 = e_pretty e2 /\
  (e_reason e1 = e_reason e2 \/
   exists of got, e_reason e1 = Some (s2b "filter expected &str " ++ of ++ s2b ", found " ++ got) /\
                  e_reason e2 = Some (s2b "filter expected string " ++ of ++ s2b ", found " ++ got) /\ (of = s2b "value" \/ of = s2b "argument")).
(** What the second is told after the first: the same; only if [args] can the first fail where
    the second does not, for an argument that can not be passed by reference. *)
Definition told (args : bool) {A} (r1 r2 : res A) : Prop :=
  match r1 with
  | Ok a => r2 = Ok a
  | Err e => (args = true /\ owned_only e) \/ exists e', r2 = Err e' /\ rephrased e e'
  | Panic => args = false -> r2 = Panic
  | OutOfFuel => r2 = OutOfFuel
  end.
