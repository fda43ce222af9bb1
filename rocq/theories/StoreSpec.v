(** A store of templates beside the engine (examples/custom_template_store.rs), for C67. *)
From Verif Require Import Base Ext Errors Value Ast Compiler Fmt Stack Filters Render Engine.

(** custom_template_store.rs 27-31: the function given to [with_template_fn].  [msg]: what it says
    of a name that is not in the store; the example always says "template not found". *)
Definition store_fn (store : list (str * template)) (msg : str -> str) : template_fn :=
  fun _ name => match map_get name store with Some t => inl t | None => inr (msg name) end.
(** custom_template_store.rs 7-22: [compile] each source, [insert] it under its name, stop at the
    first error. *)
Fixpoint fill `{X : Ext} (e : engine) (l : list (str * str)) (store : list (str * template)) : res (list (str * template)) :=
  match l with
  | [] => Ok store
  | (name, source) :: l' => let* t := engine_compile source e in fill e l' (map_insert name t store)
  end.
(** The same with [add_template]. *)
Fixpoint add_all `{X : Ext} (e : engine) (l : list (str * str)) : engine * res unit :=
  match l with
  | [] => (e, Ok tt)
  | (name, source) :: l' =>
    match add_template name source e with
    | (e', Ok tt) => add_all e' l'
    | (e', r) => (e', r)
    end
  end.

(** The engine without templates of its own, the renderer with those of the engine only. *)
Definition shared (store : list (str * template)) (inner : renderer_inner) : renderer_inner :=
  mkinner (set_templates store (ri_engine inner)) (ri_template inner) (ri_template_name inner) (ri_max_include_depth inner) None.
Definition own (store : list (str * template)) (msg : str -> str) (inner : renderer_inner) : renderer_inner :=
  with_template_fn (store_fn store msg) inner.

(** Equal results, or the error for an included name that is not in the store, each in its words. *)
Inductive as_stored {A} (store : list (str * template)) (msg : str -> str) : res A -> res A -> Prop :=
| as_same r : as_stored store msg r r
| as_unknown name tname place : map_get name store = None ->
    as_stored store msg (Err (mkerror KRender tname (Some (s2b "unknown template")) place)) (Err (mkerror KRender tname (Some (msg name)) place)).
