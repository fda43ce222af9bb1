(** The fuzz targets of the repository (fuzz/src), and what their data is. *)
From Verif Require Import Base Utf8 Ext Errors Syntax Value Ast Compiler Fmt Stack Filters Render Engine Serde.

(** fuzz/src/compile.rs 5-8: returns normally unless the library panics; the result is ignored. *)
Definition fuzz_compile `{X : Ext} (data : str) : res unit :=
  let* e := engine_new in
  match snd (add_template (s2b "fuzz") data e) with
  | Panic => Panic
  | OutOfFuel => OutOfFuel
  | _ => Ok tt
  end.

(** fuzz/src/render.rs 9-18 [Value]; the entries of a [BTreeMap] in the order of their keys *)
Inductive fuzz_value :=
| FNone | FBool (b : bool) | FInteger (z : Z) | FFloat (f : f64) | FString (s : str)
| FList (l : list fuzz_value) | FMap (m : list (str * fuzz_value)).
(** fuzz/src/render.rs 9 [derive(Serialize)]: externally tagged *)
Fixpoint fuzz_serialize (v : fuzz_value) : sdata :=
  let tagged t d := SNewtypeVariant (s2b "Value") (s2b t) d in
  match v with
  | FNone => SUnitVariant (s2b "Value") (s2b "None")
  | FBool b => tagged "Bool"%string (SBool b)
  | FInteger z => tagged "Integer"%string (SI64 z)
  | FFloat f => tagged "Float"%string (SF64 f)
  | FString s => tagged "String"%string (SStr s)
  | FList l => tagged "List"%string (SSeq (map fuzz_serialize l))
  | FMap m => tagged "Map"%string (SMap (map (fun kv => (SStr (fst kv), fuzz_serialize (snd kv))) m))
  end.

(** fuzz/src/render.rs 26-28: the results are ignored *)
Fixpoint fuzz_includes `{X : Ext} (l : list (str * str)) (e : engine) : res engine :=
  match l with
  | [] => Ok e
  | (name, data) :: l' =>
    match add_template name data e with
    | (_, Panic) => Panic
    | (_, OutOfFuel) => OutOfFuel
    | (e', _) => fuzz_includes l' e'
    end
  end.
(** fuzz/src/render.rs 20-30.  The target makes a [Renderer] and drops it: nothing is rendered.  Here
    the renderer and its context are the result, [None] if there is none. *)
Definition fuzz_render `{X : Ext} (root : str) (includes : list (str * str)) (v : fuzz_value) : res (option (renderer_inner * globals)) :=
  let* e := engine_new in
  match add_template (s2b "fuzz") root e with
  | (_, Err _) => Ok None
  | (_, Panic) => Panic
  | (_, OutOfFuel) => OutOfFuel
  | (e', Ok tt) =>
    let* e'' := fuzz_includes includes e' in
    let* r := engine_template (s2b "fuzz") e'' in
    Ok (Some (template_ref_renderer r e'', GOwned (to_value (fuzz_serialize v))))
  end.
