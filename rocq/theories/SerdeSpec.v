(** Specification of the conversion of serializable data to values, as rules. *)
From Verif Require Import Base Utf8 Ext Errors Value Serde DecimalSpec.

(** Integers of up to 64 bits. *)
Inductive integer : sdata -> Z -> Prop :=
| in_i8 z : integer (SI8 z) z | in_i16 z : integer (SI16 z) z | in_i32 z : integer (SI32 z) z | in_i64 z : integer (SI64 z) z
| in_u8 z : integer (SU8 z) z | in_u16 z : integer (SU16 z) z | in_u32 z : integer (SU32 z) z | in_u64 z : integer (SU64 z) z.

(** [key d r]: as the key of a map, [d] is a text or is refused with a message. *)
Inductive key : sdata -> str + str -> Prop :=
| ke_str s : key (SStr s) (inl s)
| ke_char c : key (SChar c) (inl (encode c))
| ke_int d z s : integer d z -> decimal z s -> key d (inl s)
| ke_variant n v : key (SUnitVariant n v) (inl v)
| ke_newtype n d r : key d r -> key (SNewtypeStruct n d) r
| ke_fail m : key (SFail m) (inr m)
| ke_i128 z : key (SI128 z) (inr (s2b "i128 is not supported"))
| ke_u128 z : key (SU128 z) (inr (s2b "u128 is not supported"))
| ke_other d :
    match d with
    | SBool _ | SF32 _ | SF64 _ | SBytes _ | SNone | SSome _ | SUnit | SUnitStruct _ | SNewtypeVariant _ _ _
    | SSeq _ | STuple _ | STupleStruct _ _ | STupleVariant _ _ _ | SMap _ | SStruct _ _ | SStructVariant _ _ _ => True
    | _ => False
    end -> key d (inr (s2b "map key must be a string")).

(** The last entry for a key. *)
Fixpoint last_entry {V} (k : str) (l : list (str * V)) : option V :=
  match l with
  | [] => None
  | (k', v) :: l' => match last_entry k l' with Some w => Some w | None => if str_eqb k k' then Some v else None end
  end.
(** [m] is the map with these entries: of several with one key, the last. *)
Definition map_with {V} (l m : list (str * V)) : Prop :=
  sorted_keys m /\ forall k, map_get k m = last_entry k l.
(** A map with one entry. *)
Definition one (k : str) (v : value) : value := VMap [(k, v)].

Definition seq_of (d : sdata) : option (list sdata) :=
  match d with SSeq l | STuple l | STupleStruct _ l => Some l | _ => None end.

(** [converts d r]: [d] is converted to a value, or refused with a message. *)
Inductive converts : sdata -> value + str -> Prop :=
| co_int d z : integer d z -> (z <= i64_max)%Z -> converts d (inl (VInt z))
| co_too_big z : (i64_max < z)%Z -> converts (SU64 z) (inr (s2b "out of range integral type conversion attempted"))
| co_i128 z : converts (SI128 z) (inr (s2b "i128 is not supported"))
| co_u128 z : converts (SU128 z) (inr (s2b "u128 is not supported"))
| co_bool b : converts (SBool b) (inl (VBool b))
| co_f32 f : converts (SF32 f) (inl (VFloat f))
| co_f64 f : converts (SF64 f) (inl (VFloat f))
| co_char c : converts (SChar c) (inl (VStr (encode c)))
| co_str s : converts (SStr s) (inl (VStr s))
| co_bytes bs l : Forall2 (fun b v => v = VInt (Z.of_N (byte_N b))) bs l -> converts (SBytes bs) (inl (VList l))
| co_none : converts SNone (inl VNone)
| co_unit : converts SUnit (inl VNone)
| co_unit_struct n : converts (SUnitStruct n) (inl VNone)
| co_some d r : converts d r -> converts (SSome d) r
| co_newtype n d r : converts d r -> converts (SNewtypeStruct n d) r
| co_unit_variant n v : converts (SUnitVariant n v) (inl (VStr v))
| co_newtype_variant n k d v : converts d (inl v) -> converts (SNewtypeVariant n k d) (inl (one k v))
| co_newtype_variant_fails n k d m : converts d (inr m) -> converts (SNewtypeVariant n k d) (inr m)
| co_seq d l vs : seq_of d = Some l -> converts_all l (inl vs) -> converts d (inl (VList vs))
| co_seq_fails d l m : seq_of d = Some l -> converts_all l (inr m) -> converts d (inr m)
| co_tuple_variant n k l vs : converts_all l (inl vs) -> converts (STupleVariant n k l) (inl (one k (VList vs)))
| co_tuple_variant_fails n k l m : converts_all l (inr m) -> converts (STupleVariant n k l) (inr m)
| co_map l es m : converts_entries l (inl es) -> map_with es m -> converts (SMap l) (inl (VMap m))
| co_map_fails l e : converts_entries l (inr e) -> converts (SMap l) (inr e)
| co_struct n l es m : converts_fields l (inl es) -> map_with es m -> converts (SStruct n l) (inl (VMap m))
| co_struct_fails n l e : converts_fields l (inr e) -> converts (SStruct n l) (inr e)
| co_struct_variant n k l es m : converts_fields l (inl es) -> map_with es m -> converts (SStructVariant n k l) (inl (one k (VMap m)))
| co_struct_variant_fails n k l e : converts_fields l (inr e) -> converts (SStructVariant n k l) (inr e)
| co_fail m : converts (SFail m) (inr m)
(* in order; the first refusal counts *)
with converts_all : list sdata -> list value + str -> Prop :=
| ca_nil : converts_all [] (inl [])
| ca_cons d l v vs : converts d (inl v) -> converts_all l (inl vs) -> converts_all (d :: l) (inl (v :: vs))
| ca_first d l m : converts d (inr m) -> converts_all (d :: l) (inr m)
| ca_later d l v m : converts d (inl v) -> converts_all l (inr m) -> converts_all (d :: l) (inr m)
with converts_entries : list (sdata * sdata) -> list (str * value) + str -> Prop :=
| ce_nil : converts_entries [] (inl [])
| ce_cons a d l k v es : key a (inl k) -> converts d (inl v) -> converts_entries l (inl es) -> converts_entries ((a, d) :: l) (inl ((k, v) :: es))
| ce_key a d l m : key a (inr m) -> converts_entries ((a, d) :: l) (inr m)
| ce_value a d l k m : key a (inl k) -> converts d (inr m) -> converts_entries ((a, d) :: l) (inr m)
| ce_later a d l k v m : key a (inl k) -> converts d (inl v) -> converts_entries l (inr m) -> converts_entries ((a, d) :: l) (inr m)
with converts_fields : list (str * sdata) -> list (str * value) + str -> Prop :=
| cf_nil : converts_fields [] (inl [])
| cf_cons k d l v es : converts d (inl v) -> converts_fields l (inl es) -> converts_fields ((k, d) :: l) (inl ((k, v) :: es))
| cf_first k d l m : converts d (inr m) -> converts_fields ((k, d) :: l) (inr m)
| cf_later k d l v m : converts d (inl v) -> converts_fields l (inr m) -> converts_fields ((k, d) :: l) (inr m).

(** Data a Rust program can have: integers in the range of their type, texts that
    are UTF-8, characters that are scalar values. *)
Definition all {A} (P : A -> Prop) (l : list A) : Prop := fold_right (fun a Q => P a /\ Q) True l.
Definition signed (n z : Z) : Prop := (- 2 ^ (n - 1) <= z < 2 ^ (n - 1))%Z.
Definition unsigned (n z : Z) : Prop := (0 <= z < 2 ^ n)%Z.
Fixpoint machine (d : sdata) : Prop :=
  match d with
  | SI8 z => signed 8 z | SI16 z => signed 16 z | SI32 z => signed 32 z | SI64 z => signed 64 z | SI128 z => signed 128 z
  | SU8 z => unsigned 8 z | SU16 z => unsigned 16 z | SU32 z => unsigned 32 z | SU64 z => unsigned 64 z | SU128 z => unsigned 128 z
  | SChar c => scalar c
  | SStr s => valid_utf8 s
  | SUnitVariant _ v => valid_utf8 v
  | SSome d | SNewtypeStruct _ d => machine d
  | SNewtypeVariant _ v d => valid_utf8 v /\ machine d
  | SSeq l | STuple l | STupleStruct _ l => all machine l
  | STupleVariant _ v l => valid_utf8 v /\ all machine l
  | SMap l => all (fun kd => machine (fst kd) /\ machine (snd kd)) l
  | SStruct _ l => all (fun kd => valid_utf8 (fst kd) /\ machine (snd kd)) l
  | SStructVariant _ v l => valid_utf8 v /\ all (fun kd => valid_utf8 (fst kd) /\ machine (snd kd)) l
  | _ => True
  end.
(** Values a Rust program can have. *)
Fixpoint proper (v : value) : Prop :=
  match v with
  | VInt z => (i64_min <= z <= i64_max)%Z
  | VStr s => valid_utf8 s
  | VList l => all proper l
  | VMap m => sorted_keys m /\ all (fun kv => valid_utf8 (fst kv) /\ proper (snd kv)) m
  | _ => True
  end.
Fixpoint proper_data (d : into_data) : Prop :=
  match d with
  | IVec l => all proper_data l
  | IPairs l => all (fun kd => proper_data (snd kd)) l
  | ISome d => proper_data d
  | IValue v => proper v
  | _ => True
  end.
