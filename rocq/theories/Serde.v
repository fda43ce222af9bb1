(** src/value/ser/{mod,map,list,variants}.rs and src/value/from.rs *)
From Verif Require Import Base Utf8 Ext Errors Value.

(** The serde data model: what a [Serialize] implementation hands to the
    serializer.  [SFail] is an implementation that reports an error itself
    ([S::Error::custom]).  Integers carry their width in the constructor; the
    machine ranges are in [sdata_wf].  [SF32] carries the widened f64.
    [collect_str] is [SStr] (mod.rs inherits the default, map.rs 224-229). *)
Inductive sdata :=
| SFail (msg : str)
| SBool (b : bool)
| SI8 (z : Z) | SI16 (z : Z) | SI32 (z : Z) | SI64 (z : Z) | SI128 (z : Z)
| SU8 (z : Z) | SU16 (z : Z) | SU32 (z : Z) | SU64 (z : Z) | SU128 (z : Z)
| SF32 (f : f64) | SF64 (f : f64)
| SChar (c : N)
| SStr (s : str)
| SBytes (bs : str)
| SNone
| SSome (d : sdata)
| SUnit
| SUnitStruct (name : str)
| SUnitVariant (name variant : str)
| SNewtypeStruct (name : str) (d : sdata)
| SNewtypeVariant (name variant : str) (d : sdata)
| SSeq (l : list sdata)
| STuple (l : list sdata)
| STupleStruct (name : str) (l : list sdata)
| STupleVariant (name variant : str) (l : list sdata)
| SMap (l : list (sdata * sdata))
| SStruct (name : str) (l : list (str * sdata))
| SStructVariant (name variant : str) (l : list (str * sdata)).

(** ser/map.rs 233-235 [err_not_string] *)
Definition err_not_string {A} : res A := Err (mk_ser_error (s2b "map key must be a string")).

(** ser/map.rs 62-231 [MapKeySerializer]; 128-bit integers: the default methods
    of [serde::Serializer] *)
Fixpoint serialize_key (d : sdata) : res str :=
  match d with
  | SFail msg => Err (mk_ser_error msg)
  | SI8 z | SI16 z | SI32 z | SI64 z | SU8 z | SU16 z | SU32 z | SU64 z => Ok (show_Z z)
  | SI128 _ => Err (mk_ser_error (s2b "i128 is not supported"))
  | SU128 _ => Err (mk_ser_error (s2b "u128 is not supported"))
  | SChar c => Ok (encode c)
  | SStr s => Ok s
  | SUnitVariant _ variant => Ok variant
  | SNewtypeStruct _ d => serialize_key d
  | _ => err_not_string
  end.

(** ser/mod.rs 16-22 [to_value], 52-229 [Serializer], list.rs, map.rs 24-60,
    variants.rs *)
Fixpoint to_value (d : sdata) : res value :=
  let to_list :=
    fix to_list (l : list sdata) : res (list value) :=
      match l with
      | [] => Ok []
      | d :: l' => let* v := to_value d in let* vs := to_list l' in Ok (v :: vs)
      end in
  let to_fields :=
    fix to_fields (l : list (str * sdata)) (m : list (str * value)) : res (list (str * value)) :=
      match l with
      | [] => Ok m
      | (k, d) :: l' => let* v := to_value d in to_fields l' (map_insert k v m)
      end in
  match d with
  | SFail msg => Err (mk_ser_error msg)
  | SBool b => Ok (VBool b)
  | SI8 z | SI16 z | SI32 z | SI64 z | SU8 z | SU16 z | SU32 z => Ok (VInt z)
  | SI128 _ => Err (mk_ser_error (s2b "i128 is not supported"))
  | SU128 _ => Err (mk_ser_error (s2b "u128 is not supported"))
  | SU64 z =>
    if (z <=? i64_max)%Z then Ok (VInt z)
    else Err (mk_ser_error (s2b "out of range integral type conversion attempted"))
  | SF32 f | SF64 f => Ok (VFloat f)
  | SChar c => Ok (VStr (encode c))
  | SStr s => Ok (VStr s)
  | SBytes bs => Ok (VList (map (fun b => VInt (Z.of_N (byte_N b))) bs))
  | SNone | SUnit | SUnitStruct _ => Ok VNone
  | SSome d => to_value d
  | SUnitVariant _ variant => Ok (VStr variant)
  | SNewtypeStruct _ d => to_value d
  | SNewtypeVariant _ variant d => let* v := to_value d in Ok (VMap (map_insert variant v []))
  | SSeq l | STuple l | STupleStruct _ l => let* vs := to_list l in Ok (VList vs)
  | STupleVariant _ variant l =>
    let* vs := to_list l in Ok (VMap (map_insert variant (VList vs) []))
  | SMap l =>
    let* m :=
      (fix to_entries (l : list (sdata * sdata)) (m : list (str * value))
         : res (list (str * value)) :=
         match l with
         | [] => Ok m
         | (k, d) :: l' =>
           let* k := serialize_key k in
           let* v := to_value d in
           to_entries l' (map_insert k v m)
         end) l [] in
    Ok (VMap m)
  | SStruct _ l => let* m := to_fields l [] in Ok (VMap m)
  | SStructVariant _ variant l =>
    let* m := to_fields l [] in Ok (VMap (map_insert variant (VMap m) []))
  end.

(** ser/mod.rs 24-46 [impl Serialize for Value] *)
Fixpoint value_serialize (v : value) : sdata :=
  match v with
  | VNone => SUnit
  | VBool b => SBool b
  | VInt z => SI64 z
  | VFloat f => SF64 f
  | VStr s => SStr s
  | VList l => SSeq (map value_serialize l)
  | VMap m => SMap (map (fun kv => (SStr (fst kv), value_serialize (snd kv))) m)
  end.

(** value/from.rs: the Rust data with an [Into<Value>] implementation.  A
    [HashMap] or an iterator of pairs is its sequence of pairs, in iteration
    order. *)
Inductive into_data :=
| IUnit | IBool (b : bool) | IInt (z : Z) | IFloat (f : f64) | IString (s : str)
| IVec (l : list into_data) | IPairs (l : list (str * into_data)) | INone | ISome (d : into_data)
| IValue (v : value).

(** value/from.rs 6-149 *)
Fixpoint value_from (d : into_data) : value :=
  match d with
  | IUnit => VNone
  | IBool b => VBool b
  | IInt z => VInt z
  | IFloat f => VFloat f
  | IString s => VStr s
  | IVec l => VList (map value_from l)
  | IPairs l => VMap (map_of_list (map (fun kv => (fst kv, value_from (snd kv))) l))
  | INone => VNone
  | ISome d => value_from d
  | IValue v => v
  end.

(** The [Serialize] implementation of the same data (serde's impls for std) *)
Fixpoint into_serialize (d : into_data) : sdata :=
  match d with
  | IUnit => SUnit
  | IBool b => SBool b
  | IInt z => SI64 z
  | IFloat f => SF64 f
  | IString s => SStr s
  | IVec l => SSeq (map into_serialize l)
  | IPairs l => SMap (map (fun kv => (SStr (fst kv), into_serialize (snd kv))) l)
  | INone => SNone
  | ISome d => SSome (into_serialize d)
  | IValue v => value_serialize v
  end.
