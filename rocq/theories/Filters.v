(** src/filters/{mod,args}.rs *)
From Verif Require Import Base Utf8 Ext Errors Value Ast Fmt Stack.
From Coq Require Import Floats.SpecFloat.

(** The integer types of filters/args.rs 96 *)
Inductive int_ty := U8 | U16 | U32 | U64 | U128 | USize | I8 | I16 | I32 | I64 | ISize | I128.

(** The types implementing [FilterArg], filters/args.rs 31-307 *)
Inductive arg_ty :=
| TyUnit | TyBool | TyInt (t : int_ty) | TyF32 | TyF64 | TyString | TyStr | TyVec | TyListRef
| TyMap | TyMapRef | TyValue | TyValueRef.

(** The Rust values a filter function can receive *)
Inductive arg_val :=
| AvUnit | AvBool (b : bool) | AvInt (z : Z) | AvFloat (f : f64) | AvString (s : str)
| AvList (l : list value) | AvMap (m : list (str * value)) | AvValue (v : value).

(** filters/args.rs 9-29 [args::Error] *)
Inductive arg_error :=
| AeType (expected got : str)
| AeReference (expected : str)
| AeTryFromInt (ty : str) (v : Z).

Definition int_ty_name (t : int_ty) : str :=
  match t with
  | U8 => s2b "u8" | U16 => s2b "u16" | U32 => s2b "u32" | U64 => s2b "u64" | U128 => s2b "u128"
  | USize => s2b "usize" | I8 => s2b "i8" | I16 => s2b "i16" | I32 => s2b "i32" | I64 => s2b "i64"
  | ISize => s2b "isize" | I128 => s2b "i128"
  end.

(** The values of the integer types on a 64-bit target ([TryFrom<i64>]) *)
Definition int_ty_min (t : int_ty) : Z :=
  match t with
  | U8 | U16 | U32 | U64 | U128 | USize => 0
  | I8 => - 2 ^ 7 | I16 => - 2 ^ 15 | I32 => - 2 ^ 31 | I64 | ISize => - 2 ^ 63 | I128 => - 2 ^ 127
  end%Z.
Definition int_ty_max (t : int_ty) : Z :=
  match t with
  | U8 => 2 ^ 8 - 1 | U16 => 2 ^ 16 - 1 | U32 => 2 ^ 32 - 1 | U64 | USize => 2 ^ 64 - 1
  | U128 => 2 ^ 128 - 1
  | I8 => 2 ^ 7 - 1 | I16 => 2 ^ 15 - 1 | I32 => 2 ^ 31 - 1 | I64 | ISize => 2 ^ 63 - 1
  | I128 => 2 ^ 127 - 1
  end%Z.

Section Filters.
Context `{X : Ext}.

(** filters/args.rs: [from_value_ref] of each type *)
Definition from_value_ref (t : arg_ty) (v : value) : arg_val + arg_error :=
  match t with
  | TyUnit => match v with VNone => inl AvUnit | _ => inr (AeType (s2b "()") (human v)) end
  | TyBool => match v with VBool b => inl (AvBool b) | _ => inr (AeType (s2b "bool") (human v)) end
  | TyInt it =>
    match v with
    | VInt z => if ((int_ty_min it <=? z) && (z <=? int_ty_max it))%Z then inl (AvInt z)
                else inr (AeTryFromInt (int_ty_name it) z)
    | _ => inr (AeType (int_ty_name it) (human v))
    end
  | TyF32 => match v with VFloat f => inl (AvFloat (f64_to_f32 f))
                        | _ => inr (AeType (s2b "f32") (human v)) end
  | TyF64 => match v with VFloat f => inl (AvFloat f) | _ => inr (AeType (s2b "f64") (human v)) end
  | TyString => match v with VStr s => inl (AvString s) | _ => inr (AeType (s2b "string") (human v)) end
  | TyStr => match v with VStr s => inl (AvString s) | _ => inr (AeType (s2b "&str") (human v)) end
  | TyVec | TyListRef =>
    match v with VList l => inl (AvList l) | _ => inr (AeType (s2b "list") (human v)) end
  | TyMap | TyMapRef =>
    match v with VMap m => inl (AvMap m) | _ => inr (AeType (s2b "map") (human v)) end
  | TyValue | TyValueRef => inl (AvValue v)
  end.

(** filters/args.rs: [from_value] of each type (an owned argument) *)
Definition from_value (t : arg_ty) (v : value) : arg_val + arg_error :=
  match t with
  | TyStr => match v with VStr _ => inr (AeReference (s2b "string"))
                        | _ => inr (AeType (s2b "&str") (human v)) end
  | TyListRef => match v with VList _ => inr (AeReference (s2b "list"))
                            | _ => inr (AeType (s2b "list") (human v)) end
  | TyMapRef => match v with VMap _ => inr (AeReference (s2b "map"))
                           | _ => inr (AeType (s2b "map") (human v)) end
  | TyValueRef => inr (AeReference (s2b "value"))
  | _ => from_value_ref t v
  end.

(** filters/args.rs: [from_cow_mut] of each type; [take] (value/cow.rs 26-31)
    yields the value in both cases *)
Definition from_cow_mut (t : arg_ty) (c : cow) : arg_val + arg_error :=
  from_value_ref t (cow_val c).

(** A registered filter: the types of its receiver and arguments (at most four in
    the code), and the function itself (filters/mod.rs 100-111); it is assumed to
    be a function of its arguments, to return, and not to panic. *)
Record filter := mkfilter {
  fl_recv : arg_ty;
  fl_args : list arg_ty;
  fl_run : arg_val -> list arg_val -> value + str
}.

(** filters/mod.rs 400-413 [err_expected_arg] *)
Definition err_expected_arg {A} (e : arg_error) (source : str) (sp : span) : res A :=
  err_render
    (match e with
     | AeType exp got => s2b "filter expected " ++ exp ++ s2b " argument, found " ++ got
     | AeReference got => s2b "filter expected reference argument but this " ++ got
                          ++ s2b " can only be passed as owned"
     | AeTryFromInt want v => s2b "filter expected " ++ want ++ s2b " argument, but `"
                              ++ show_Z v ++ s2b "` is out of range"
     end) source sp.

(** filters/mod.rs 415-428 [err_expected_val] *)
Definition err_expected_val {A} (e : arg_error) (source : str) (sp : span) : res A :=
  match e with
  | AeType exp got =>
    err_render (s2b "filter expected " ++ exp ++ s2b " value, found " ++ got) source sp
  | AeReference _ => Panic
  | AeTryFromInt want v =>
    err_render (s2b "filter expected " ++ want ++ s2b " value, but `" ++ show_Z v
                ++ s2b "` is out of range") source sp
  end.

(** filters/mod.rs 376-398 [get_arg] for one argument expression *)
Definition get_arg (t : arg_ty) (source : str) (st : stack) (a : base_expr) : res arg_val :=
  match a with
  | BVar v =>
    let* c := lookup_var st source v in
    let r := match c with Borrowed x => from_value_ref t x | Owned x => from_value t x end in
    match r with
    | inl av => Ok av
    | inr e => let* sp := var_span v in err_expected_arg e source sp
    end
  | BLit x sp =>
    match from_value_ref t x with
    | inl av => Ok av
    | inr e => err_expected_arg e source sp
    end
  end.

Fixpoint get_args (tys : list arg_ty) (source : str) (st : stack) (l : list base_expr)
  : res (list arg_val) :=
  match tys, l with
  | [], [] => Ok []
  | t :: tys', a :: l' =>
    let* av := get_arg t source st a in
    let* rest := get_args tys' source st l' in
    Ok (av :: rest)
  | _, _ => Panic (* args[i] out of range; check_args excludes it *)
  end.

(** filters/mod.rs 364-374 [check_args] *)
Definition check_args (exp : nat) (source : str) (name : ident) (l : list base_expr) : res unit :=
  if length l =? exp then Ok tt
  else err_render (s2b "filter expected " ++ show_nat exp ++ s2b " arguments") source (id_span name).

(** filters/mod.rs 100-111 and 274-360 [from_state], then the call and
    [FilterReturn::to_value] (430-467) *)
Definition call_filter (f : filter) (source : str) (name : ident) (st : stack) (recv : cow)
    (l : list base_expr) : res value :=
  let* _ := check_args (length (fl_args f)) source name l in
  let* r := match from_cow_mut (fl_recv f) recv with
            | inl av => Ok av
            | inr e => err_expected_val e source (id_span name)
            end in
  let* avs := get_args (fl_args f) source st l in
  match fl_run f r avs with
  | inl v => Ok v
  | inr msg => Err (mk_filter_error msg)
  end.

End Filters.
