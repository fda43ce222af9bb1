(** Specification of filter calls, pipelines and emitted expressions, as rules. *)
From Verif Require Import Base Utf8 Ext Errors Value Ast Fmt Stack Filters Render LookupSpec.
From Coq Require Import Floats.SpecFloat.

(** ** Types of arguments *)

(** The integer types (usize and isize have 64 bits). *)
Definition int_bits (t : int_ty) : Z :=
  match t with U8 | I8 => 8 | U16 | I16 => 16 | U32 | I32 => 32 | U64 | I64 | USize | ISize => 64 | U128 | I128 => 128 end.
Definition int_signed (t : int_ty) : bool :=
  match t with I8 | I16 | I32 | I64 | ISize | I128 => true | _ => false end.
Definition int_range (t : int_ty) (z : Z) : Prop :=
  if int_signed t then (- 2 ^ (int_bits t - 1) <= z < 2 ^ (int_bits t - 1))%Z else (0 <= z < 2 ^ int_bits t)%Z.

Definition int_name (t : int_ty) : str :=
  s2b (if int_signed t then "i" else "u") ++
  match t with USize | ISize => s2b "size" | _ => match int_bits t with 8 => s2b "8" | 16 => s2b "16" | 32 => s2b "32" | 64 => s2b "64" | _ => s2b "128" end%Z end.

(** The type as it is called in messages. *)
Definition ty_name (t : arg_ty) : str :=
  match t with
  | TyUnit => s2b "()" | TyBool => s2b "bool" | TyInt it => int_name it | TyF32 => s2b "f32" | TyF64 => s2b "f64"
  | TyString => s2b "string" | TyStr => s2b "&str" | TyVec | TyListRef => s2b "list" | TyMap | TyMapRef => s2b "map"
  | TyValue | TyValueRef => s2b "value"
  end.
Definition is_reference (t : arg_ty) : bool := match t with TyStr | TyListRef | TyMapRef | TyValueRef => true | _ => false end.

(** The kind of value a type is made from. *)
Definition of_kind (t : arg_ty) (v : value) : Prop :=
  match t with
  | TyUnit => v = VNone
  | TyBool => exists b, v = VBool b
  | TyInt _ => exists z, v = VInt z
  | TyF32 | TyF64 => exists f, v = VFloat f
  | TyString | TyStr => exists s, v = VStr s
  | TyVec | TyListRef => exists l, v = VList l
  | TyMap | TyMapRef => exists m, v = VMap m
  | TyValue | TyValueRef => True
  end.

Section Filters.
Context `{X : Ext}.

(** [fits t v a]: as a [t], the value [v] is [a]. *)
Inductive fits : arg_ty -> value -> arg_val -> Prop :=
| fit_unit : fits TyUnit VNone AvUnit
| fit_bool b : fits TyBool (VBool b) (AvBool b)
| fit_int it z : int_range it z -> fits (TyInt it) (VInt z) (AvInt z)
| fit_f32 f : fits TyF32 (VFloat f) (AvFloat (f64_to_f32 f))
| fit_f64 f : fits TyF64 (VFloat f) (AvFloat f)
| fit_string s : fits TyString (VStr s) (AvString s)
| fit_str s : fits TyStr (VStr s) (AvString s)
| fit_vec l : fits TyVec (VList l) (AvList l)
| fit_list l : fits TyListRef (VList l) (AvList l)
| fit_map m : fits TyMap (VMap m) (AvMap m)
| fit_map_ref m : fits TyMapRef (VMap m) (AvMap m)
| fit_value v : fits TyValue v (AvValue v)
| fit_value_ref v : fits TyValueRef v (AvValue v).

(** [unfit what t v reason]: [v] cannot be passed as a [t]. *)
Inductive unfit (what : str) (t : arg_ty) (v : value) : str -> Prop :=
| un_kind : ~ of_kind t v -> unfit what t v (s2b "filter expected " ++ ty_name t ++ s2b " " ++ what ++ s2b ", found " ++ kind_word v)
| un_range it z : t = TyInt it -> v = VInt z -> ~ int_range it z ->
    unfit what t v (s2b "filter expected " ++ int_name it ++ s2b " " ++ what ++ s2b ", but `" ++ show_Z z ++ s2b "` is out of range").

(** [passes t c a] and [refused t c reason]: an argument; only borrowed values can
    be passed by reference. *)
Definition passes (t : arg_ty) (c : cow) (a : arg_val) : Prop :=
  fits t (cow_val c) a /\ (is_reference t = true -> is_owned c = false).
Inductive refused (t : arg_ty) (c : cow) : str -> Prop :=
| re_unfit r : unfit (s2b "argument") t (cow_val c) r -> refused t c r
| re_owned : is_reference t = true -> is_owned c = true -> of_kind t (cow_val c) ->
    refused t c (s2b "filter expected reference argument but this "
                 ++ match t with TyStr => s2b "string" | _ => ty_name t end ++ s2b " can only be passed as owned").

Variable source : str.

(** ** One call *)

(** Where an argument is written. *)
Definition place (b : base_expr) : span :=
  match b with
  | BLit _ sp => sp
  | BVar (first :: rest) => combine_span (mb_span first) (mb_span (last rest first))
  | BVar [] => mkspan 0 0
  end.
(** The value of a literal or variable (a literal is borrowed). *)
Inductive stands_for (st : stack) : base_expr -> answer -> Prop :=
| sf_lit v sp : stands_for st (BLit v sp) (AnValue (Borrowed v))
| sf_var first name rest a : names source first name -> looks source first name rest st a -> stands_for st (BVar (first :: rest)) a.

(** [given st tys l r]: the arguments [l] as the types [tys], or what is wrong with
    the first bad one. *)
Inductive given (st : stack) : list arg_ty -> list base_expr -> list arg_val + str * span -> Prop :=
| gi_none : given st [] [] (inl [])
| gi_some t tys b l c a avs : stands_for st b (AnValue c) -> passes t c a -> given st tys l (inl avs) ->
    given st (t :: tys) (b :: l) (inl (a :: avs))
| gi_later t tys b l c a e : stands_for st b (AnValue c) -> passes t c a -> given st tys l (inr e) ->
    given st (t :: tys) (b :: l) (inr e)
| gi_refused t tys b l c r : stands_for st b (AnValue c) -> refused t c r -> given st (t :: tys) (b :: l) (inr (r, place b))
| gi_missing t tys b l r sp : stands_for st b (AnError r sp) -> given st (t :: tys) (b :: l) (inr (r, sp)).

(** [calls f name st c l r]: calling [f], written [name], on [c] with [l]: the
    values it is run with, or an error. *)
Inductive calls (f : filter) (name : ident) (st : stack) (c : cow) (l : list base_expr) : (arg_val * list arg_val) + str * span -> Prop :=
| ca_run a avs : length l = length (fl_args f) -> fits (fl_recv f) (cow_val c) a -> given st (fl_args f) l (inl avs) ->
    calls f name st c l (inl (a, avs))
| ca_number : length l <> length (fl_args f) ->
    calls f name st c l (inr (s2b "filter expected " ++ show_nat (length (fl_args f)) ++ s2b " arguments", id_span name))
| ca_receiver r : length l = length (fl_args f) -> unfit (s2b "value") (fl_recv f) (cow_val c) r ->
    calls f name st c l (inr (r, id_span name))
| ca_argument a e : length l = length (fl_args f) -> fits (fl_recv f) (cow_val c) a -> given st (fl_args f) l (inr e) ->
    calls f name st c l (inr e).

(** ** Expressions *)

Inductive evaluated :=
| EvValue (c : cow)
| EvError (k : ekind) (reason : str) (sp : span).

Variable functions : list (str * engine_fn).
Definition function_is (name : ident) (o : option engine_fn) : Prop :=
  exists w, @index_span error source (id_span name) = Ok w /\ map_get w functions = o.

Inductive evaluates (st : stack) : expr -> evaluated -> Prop :=
| ev_lit v sp : evaluates st (EBase (BLit v sp)) (EvValue (Owned v))
| ev_var v c : stands_for st (BVar v) (AnValue c) -> evaluates st (EBase (BVar v)) (EvValue c)
| ev_var_error v r sp : stands_for st (BVar v) (AnError r sp) -> evaluates st (EBase (BVar v)) (EvError KRender r sp)
(* filters are applied from left to right *)
| ev_filter name a recv sp c f av avs v : evaluates st recv (EvValue c) -> function_is name (Some (EFilter f)) ->
    calls f name st c (match a with Some a => a_values a | None => [] end) (inl (av, avs)) -> fl_run f av avs = inl v ->
    evaluates st (ECall name a recv sp) (EvValue (Owned v))
| ev_filter_fails name a recv sp c f av avs msg : evaluates st recv (EvValue c) -> function_is name (Some (EFilter f)) ->
    calls f name st c (match a with Some a => a_values a | None => [] end) (inl (av, avs)) -> fl_run f av avs = inr msg ->
    evaluates st (ECall name a recv sp) (EvError KFilter msg (id_span name))
| ev_not_callable name a recv sp c f r esp : evaluates st recv (EvValue c) -> function_is name (Some (EFilter f)) ->
    calls f name st c (match a with Some a => a_values a | None => [] end) (inr (r, esp)) ->
    evaluates st (ECall name a recv sp) (EvError KRender r esp)
| ev_formatter name a recv sp c f : evaluates st recv (EvValue c) -> function_is name (Some (EFormatter f)) ->
    evaluates st (ECall name a recv sp) (EvError KRender (s2b "expected filter, found formatter") (id_span name))
| ev_unknown name a recv sp c : evaluates st recv (EvValue c) -> function_is name None ->
    evaluates st (ECall name a recv sp) (EvError KRender (s2b "unknown filter") (id_span name))
| ev_before name a recv sp k r esp : evaluates st recv (EvError k r esp) -> evaluates st (ECall name a recv sp) (EvError k r esp).

(** Where an expression is written. *)
Definition expr_place (e : expr) : span := match e with EBase b => place b | ECall _ _ _ sp => sp end.
Definition bare_call (e : expr) : bool := match e with ECall _ None _ _ => true | _ => false end.

(** What an emitted expression does: format a value and blame a place, or fail. *)
Inductive emitted :=
| EmFormat (f : formatter) (v : value) (sp : span)
| EmError (k : ekind) (reason : str) (sp : span).

Variable default : formatter.
Inductive emits (st : stack) : expr -> emitted -> Prop :=
| em_value e c : bare_call e = false -> evaluates st e (EvValue c) -> emits st e (EmFormat default (cow_val c) (expr_place e))
| em_error e k r sp : bare_call e = false -> evaluates st e (EvError k r sp) -> emits st e (EmError k r sp)
(* the last function of the pipeline, without arguments, may be a formatter *)
| em_formatter name recv sp c f : evaluates st recv (EvValue c) -> function_is name (Some (EFormatter f)) ->
    emits st (ECall name None recv sp) (EmFormat f (cow_val c) (id_span name))
| em_filter name recv sp f c : function_is name (Some (EFilter f)) -> evaluates st (ECall name None recv sp) (EvValue c) ->
    emits st (ECall name None recv sp) (EmFormat default (cow_val c) sp)
| em_filter_error name recv sp f k r esp c : function_is name (Some (EFilter f)) -> evaluates st recv (EvValue c) ->
    evaluates st (ECall name None recv sp) (EvError k r esp) -> emits st (ECall name None recv sp) (EmError k r esp)
| em_unknown name recv sp c : evaluates st recv (EvValue c) -> function_is name None ->
    emits st (ECall name None recv sp) (EmError KRender (s2b "unknown filter or formatter") (id_span name))
| em_before name recv sp k r esp : evaluates st recv (EvError k r esp) -> emits st (ECall name None recv sp) (EmError k r esp).

(** ** What the code returns for these *)
Definition located_error (k : ekind) (reason : str) (sp : span) : res error :=
  let* p := build_pretty source sp in Ok (mkerror k None (Some reason) (Some p)).
Definition fails {A} (k : ekind) (reason : str) (sp : span) : res A :=
  let* e := located_error k reason sp in Err e.
Definition evaluated_result (r : evaluated) : res cow :=
  match r with EvValue c => Ok c | EvError k reason sp => fails k reason sp end.
End Filters.
