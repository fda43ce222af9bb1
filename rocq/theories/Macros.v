(** Model of src/macros.rs: the macro [value!].

    The input of a macro is a sequence of token trees.  Simplifications: a Rust
    expression that is not a single word, not a bracketed list and not a braced map
    (a literal, [1 + 2], [f(x)], [x[0]], [S { a: 1 }], ...) is one token [MtExpr],
    carrying the data its value serializes to, since the fragment specifier [expr]
    takes it whole and keeps it opaque; a word used as an expression (a variable,
    [true], [false]) serializes to [env w].  An expression the arms of the macro
    would cut (one that starts with a list, a map or [None] and goes on) is not one
    token; neither is [_].  Not modelled: the compiler's recursion limit, the
    hygiene of the variable [map], the text of compile errors. *)
From Verif Require Import Base Errors Value Serde.

(** A token tree. *)
Inductive tt :=
| MtWord (w : str)
| MtExpr (d : sdata)
| MtComma
| MtColon
| MtList (l : list tt)   (* [ ... ] *)
| MtMap (l : list tt).   (* { ... } *)

(** The expression a macro call expands to: [Value::None], [Value::List(vec![..])],
    the block that makes a [BTreeMap], inserts the entries in order and returns
    [Value::Map] of it, and [to_value(x).unwrap()]. *)
Inductive code :=
| CNone
| CVec (l : list code)
| CMap (l : list (str * code))
| CToValue (d : sdata).

Section Expand.
Variable env : str -> sdata.

(** How the arms see a token where a value is expected: as [None], as a list, as a
    map (which take that one token), or by the fragment [expr]. *)
Definition is_whole (t : tt) : bool :=
  match t with MtWord w => str_eqb w (s2b "None") | MtList _ | MtMap _ => true | _ => false end.

(** macros.rs 59-234 [_value!]: the result is [None] if no arm matches or the arm
    expands to [_value_unexpected!(x)] or to [_value!()], which match nothing: a
    compile error. *)
Fixpoint expand (t : tt) : option code :=
  let list_arms :=
    (* macros.rs 69-112 [_value!(@list [acc] rest)]; [ended]: [acc] ends with a comma
       or is empty, so it matches [$($elems:expr,)*]; it matches [$($elems:expr),*]
       if it does not end with a comma *)
    fix list_arms (acc : list code) (ended : bool) (rest : list tt) {struct rest} : option code :=
      match rest with
      (* 69-77: done *)
      | [] => Some (CVec acc)
      | t :: rest' =>
        if ended && is_whole t then
          (* 79-92: next is None, a list or a map *)
          match expand t with Some c => list_arms (acc ++ [c]) false rest' | None => None end
        else
          match t with
          | MtWord _ | MtExpr _ =>
            if ended then
              match rest' with
              (* 94-97: an expression followed by a comma *)
              | MtComma :: rest'' => match expand t with Some c => list_arms (acc ++ [c]) true rest'' | None => None end
              (* 99-102: the last element *)
              | [] => match expand t with Some c => Some (CVec (acc ++ [c])) | None => None end
              | _ => None
              end
            else None
          (* 104-107: a comma after an element, or at the start *)
          | MtComma => if negb ended || (match acc with [] => true | _ => false end) then list_arms acc true rest' else None
          (* 109-112 *)
          | _ => None
          end
      end in
  let map_arms :=
    (* macros.rs 124-191 [_value!(@map map () (rest) (rest))]: the insertions *)
    fix map_arms (rest : list tt) {struct rest} : option (list (str * code)) :=
      match rest with
      (* 124-125: done *)
      | [] => Some []
      (* 188-191: a key *)
      | MtWord k :: MtColon :: t :: rest' =>
        if is_whole t then
          (* 143-156: the value is None, a list or a map *)
          match expand t, rest' with
          (* 127-131: followed by a comma *)
          | Some c, MtComma :: rest'' => match map_arms rest'' with Some l => Some ((k, c) :: l) | None => None end
          (* 138-141: the last entry *)
          | Some c, [] => Some [(k, c)]
          (* 133-136: unexpected *)
          | _, _ => None
          end
        else
          match t with
          | MtWord _ | MtExpr _ =>
            match expand t, rest' with
            (* 158-161: an expression followed by a comma, then 127-131 *)
            | Some c, MtComma :: rest'' => match map_arms rest'' with Some l => Some ((k, c) :: l) | None => None end
            (* 163-166: the last value, then 138-141 *)
            | Some c, [] => Some [(k, c)]
            | _, _ => None
            end
          | _ => None
          end
      (* 168-186: no value, no colon, a misplaced colon; or no arm *)
      | _ => None
      end in
  match t with
  (* 198-200, 230-233; a fragment [expr] never matches the arms [(true)] and
     [(false)] of 202-208, which are therefore dead *)
  | MtWord w => if str_eqb w (s2b "None") then Some CNone else Some (CToValue (env w))
  | MtExpr d => Some (CToValue d)
  (* 210-216 *)
  | MtList l => list_arms [] true l
  (* 218-228 *)
  | MtMap l => match map_arms l with Some es => Some (CMap es) | None => None end
  | MtComma | MtColon => None
  end.

(** macros.rs 45-57 [value!] *)
Definition value_macro (ts : list tt) : option code := expand (MtMap ts).

End Expand.

(** Running the expansion: [unwrap] panics; [BTreeMap::insert] in order. *)
Fixpoint eval (c : code) : res value :=
  match c with
  | CNone => Ok VNone
  | CVec l =>
    let* vs := (fix evals (l : list code) : res (list value) :=
      match l with
      | [] => Ok []
      | c :: l' => let* v := eval c in let* vs := evals l' in Ok (v :: vs)
      end) l in
    Ok (VList vs)
  | CMap l =>
    let* m := (fix inserts (l : list (str * code)) (m : list (str * value)) : res (list (str * value)) :=
      match l with
      | [] => Ok m
      | (k, c) :: l' => let* v := eval c in inserts l' (map_insert k v m)
      end) l [] in
    Ok (VMap m)
  | CToValue d => match to_value d with Ok v => Ok v | _ => Panic end
  end.
