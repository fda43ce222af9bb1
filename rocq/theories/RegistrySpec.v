(** Specification of the engine's registries: two finite maps and two settings. *)
From Verif Require Import Base Utf8 Ext Errors Syntax AhoCorasick Value Ast Lexer Parser Compiler Fmt Stack Filters Render Engine.

Section Registry.
Context `{X : Ext}.

(** Calls of methods of an engine, and what they return. *)
Inductive op :=
| AddFormatter (n : str) (f : formatter) | AddFilter (n : str) (f : filter) | RemoveFunction (n : str)
| AddTemplate (n s : str) | GetTemplate (n : str) | TheTemplate (n : str) | RemoveTemplate (n : str) | Compile (s : str)
| SetDefaultFormatter (f : formatter) | SetMaxIncludeDepth (n : N).
Inductive reply :=
| Nothing
| Replaced (k : option engine_fn_kind)
| Added (r : res unit)
| Found (o : option (str * template))
| TheFound (r : res (str * template))
| Removed (b : bool)
| Compiled (r : res template).

(** A call, in the model of the code. *)
Definition call (o : op) (e : engine) : engine * reply :=
  match o with
  | AddFormatter n f => let '(e', k) := add_formatter n f e in (e', Replaced k)
  | AddFilter n f => let '(e', k) := add_filter n f e in (e', Replaced k)
  | RemoveFunction n => let '(e', k) := remove_function n e in (e', Replaced k)
  | AddTemplate n s => let '(e', r) := add_template n s e in (e', Added r)
  | GetTemplate n => (e, Found (engine_get_template n e))
  | TheTemplate n => (e, TheFound (engine_template n e))
  | RemoveTemplate n => let '(e', b) := remove_template n e in (e', Removed b)
  | Compile s => (e, Compiled (engine_compile s e))
  | SetDefaultFormatter f => (set_default_formatter f e, Nothing)
  | SetMaxIncludeDepth n => (set_max_include_depth n e, Nothing)
  end.
Fixpoint call_all (l : list op) (e : engine) : engine * list reply :=
  match l with
  | [] => (e, [])
  | o :: l' => let '(e, r) := call o e in let '(e, rs) := call_all l' e in (e, r :: rs)
  end.

(** The specification: names to functions, names to templates. *)
Record registry := mkregistry {
  rg_functions : str -> option engine_fn;
  rg_templates : str -> option template;
  rg_default : formatter;
  rg_depth : N }.
Definition put {V} (n : str) (o : option V) (m : str -> option V) : str -> option V := fun k => if str_eqb k n then o else m k.
Definition kind_of (f : engine_fn) : engine_fn_kind := match f with EFilter _ => FnFilter | EFormatter _ => FnFormatter end.

(** What compiling a text yields (for one syntax). *)
Variable comp : str -> res template.
Definition expect (o : op) (s : registry) : registry * reply :=
  let fns m := mkregistry m (rg_templates s) (rg_default s) (rg_depth s) in
  let tpl m := mkregistry (rg_functions s) m (rg_default s) (rg_depth s) in
  match o with
  | AddFormatter n f => (fns (put n (Some (EFormatter f)) (rg_functions s)), Replaced (option_map kind_of (rg_functions s n)))
  | AddFilter n f => (fns (put n (Some (EFilter f)) (rg_functions s)), Replaced (option_map kind_of (rg_functions s n)))
  | RemoveFunction n => (fns (put n None (rg_functions s)), Replaced (option_map kind_of (rg_functions s n)))
  | AddTemplate n text =>
    match comp text with
    | Ok t => (tpl (put n (Some t) (rg_templates s)), Added (Ok tt))
    | Err e => (s, Added (Err (mkerror (e_kind e) (Some n) (e_reason e) (e_pretty e))))
    | Panic => (s, Added Panic)
    | OutOfFuel => (s, Added OutOfFuel)
    end
  | GetTemplate n => (s, Found (match rg_templates s n with Some t => Some (n, t) | None => None end))
  | TheTemplate n => (s, TheFound (match rg_templates s n with Some t => Ok (n, t) | None => Panic end))
  | RemoveTemplate n => (tpl (put n None (rg_templates s)), Removed (match rg_templates s n with Some _ => true | None => false end))
  | Compile text => (s, Compiled (comp text))
  | SetDefaultFormatter f => (mkregistry (rg_functions s) (rg_templates s) f (rg_depth s), Nothing)
  | SetMaxIncludeDepth n => (mkregistry (rg_functions s) (rg_templates s) (rg_default s) n, Nothing)
  end.
Fixpoint expect_all (l : list op) (s : registry) : registry * list reply :=
  match l with
  | [] => (s, [])
  | o :: l' => let '(s, r) := expect o s in let '(s, rs) := expect_all l' s in (s, r :: rs)
  end.
(** A new engine. *)
Definition blank : registry := mkregistry (fun _ => None) (fun _ => None) fmt_default 64.
(** What an engine holds. *)
Record holds (e : engine) (s : registry) : Prop := {
  ho_functions n : map_get n (en_functions e) = rg_functions s n;
  ho_templates n : map_get n (en_templates e) = rg_templates s n;
  ho_default : en_default_formatter e = rg_default s;
  ho_depth : en_max_include_depth e = rg_depth s }.
End Registry.
