(** src/lib.rs: [Engine], [Template], [TemplateRef] *)
From Verif Require Import Base Utf8 Ext Errors Syntax AhoCorasick Value Ast Lexer Parser Compiler
  Fmt Stack Filters Render.

(** lib.rs 268-276 [EngineFn] *)
Inductive engine_fn_kind := FnFormatter | FnFilter.

(** lib.rs 542-548 [discriminant] *)
Definition discriminant (f : engine_fn) : engine_fn_kind :=
  match f with EFilter _ => FnFilter | EFormatter _ => FnFormatter end.

Section Engine.
Context `{X : Ext}.

(** lib.rs 361-369 [with_syntax] *)
Definition engine_with_syntax (sx : syntax) : res engine :=
  let* sr := searcher_new sx in
  Ok (mkengine sr fmt_default [] [] 64).

(** lib.rs 346-348 [new] *)
Definition engine_new : res engine := engine_with_syntax default_syntax.

(** lib.rs 378-380 *)
Definition set_max_include_depth (n : N) (e : engine) : engine :=
  mkengine (en_searcher e) (en_default_formatter e) (en_functions e) (en_templates e) n.

(** lib.rs 389-394 *)
Definition set_default_formatter (f : formatter) (e : engine) : engine :=
  mkengine (en_searcher e) f (en_functions e) (en_templates e) (en_max_include_depth e).

Definition set_functions (fs : list (str * engine_fn)) (e : engine) : engine :=
  mkengine (en_searcher e) (en_default_formatter e) fs (en_templates e) (en_max_include_depth e).
Definition set_templates (ts : list (str * template)) (e : engine) : engine :=
  mkengine (en_searcher e) (en_default_formatter e) (en_functions e) ts (en_max_include_depth e).

(** lib.rs 407-415 [add_formatter] *)
Definition add_formatter (name : str) (f : formatter) (e : engine)
  : engine * option engine_fn_kind :=
  (set_functions (map_insert name (EFormatter f) (en_functions e)) e,
   option_map discriminant (map_get name (en_functions e))).

(** lib.rs 431-441 [add_filter] *)
Definition add_filter (name : str) (f : filter) (e : engine)
  : engine * option engine_fn_kind :=
  (set_functions (map_insert name (EFilter f) (en_functions e)) e,
   option_map discriminant (map_get name (en_functions e))).

(** lib.rs 451-453 [remove_function] *)
Definition remove_function (name : str) (e : engine) : engine * option engine_fn_kind :=
  (set_functions (map_remove name (en_functions e)) e,
   option_map discriminant (map_get name (en_functions e))).

(** lib.rs 520-526 [compile] *)
Definition engine_compile (source : str) (e : engine) : res template :=
  compile_template (en_searcher e) source.

(** lib.rs 464-477 [add_template]: the engine is changed only on success *)
Definition add_template (name source : str) (e : engine) : engine * res unit :=
  match engine_compile source e with
  | Ok t => (set_templates (map_insert name t (en_templates e)) e, Ok tt)
  | Err err => (e, Err (with_template_name err name))
  | Panic => (e, Panic)
  | OutOfFuel => (e, OutOfFuel)
  end.

(** lib.rs 495-503 [get_template]: the [TemplateRef] is the name and template *)
Definition engine_get_template (name : str) (e : engine) : option (str * template) :=
  option_map (fun t => (name, t)) (map_get name (en_templates e)).

(** lib.rs 486-491 [template]: panics if missing *)
Definition engine_template (name : str) (e : engine) : res (str * template) :=
  unwrap (engine_get_template name e).

(** lib.rs 510-512 [remove_template] *)
Definition remove_template (name : str) (e : engine) : engine * bool :=
  (set_templates (map_remove name (en_templates e)) e,
   match map_get name (en_templates e) with Some _ => true | None => false end).

(** lib.rs 571-607 [Template::render*]: no name *)
Definition template_renderer (t : template) (e : engine) : renderer_inner :=
  mkinner e t None None None.

(** lib.rs 630-667 [TemplateRef::render*]: the name of the template *)
Definition template_ref_renderer (r : str * template) (e : engine) : renderer_inner :=
  mkinner e (snd r) (Some (fst r)) None None.

(** render/mod.rs 136-142 [with_template_fn] *)
Definition with_template_fn (f : template_fn) (i : renderer_inner) : renderer_inner :=
  mkinner (ri_engine i) (ri_template i) (ri_template_name i) (ri_max_include_depth i) (Some f).

(** render/mod.rs 150-153 [with_max_include_depth] *)
Definition with_max_include_depth (n : N) (i : renderer_inner) : renderer_inner :=
  mkinner (ri_engine i) (ri_template i) (ri_template_name i) (Some n) (ri_template_fn i).

End Engine.
