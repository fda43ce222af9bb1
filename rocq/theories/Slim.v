(** The build without the feature "filters": src/lib.rs and src/render/core.rs with
    what is marked [#[cfg(feature = "filters")]] left out.  Everything else, the
    compiler in particular, is the same code in both builds. *)
From Verif Require Import Base Utf8 Ext Errors Syntax AhoCorasick Value Ast Lexer Parser Compiler Fmt Stack Filters Render Engine.

(** lib.rs 258-264 [Engine] and 278-282 [EngineBoxFn], which has one variant left *)
Record slim_engine := mkslim {
  se_searcher : searcher;
  se_default_formatter : formatter;
  se_functions : list (str * formatter);
  se_templates : list (str * template);
  se_max_include_depth : N
}.

(** render/mod.rs 56-66 [RendererInner] *)
Record slim_inner := mksinner {
  si_engine : slim_engine;
  si_template : template;
  si_template_name : option str;
  si_max_include_depth : option N;
  si_template_fn : option template_fn
}.

Section SlimRender.
Context `{X : Ext}.
Variable inner : slim_inner.

Notation en := (si_engine inner).

(** render/core.rs 107-258: the body of the instruction loop *)
Definition slim_exec (t : template) (i : instr) (pc : nat) (st : stack) (ex : option cow) : rt next :=
  let source := t_source t in
  match i with
  | IJump j => jump j st ex
  | IJumpIfTrue j =>
    let% c := lift (unwrap ex) in
    if as_bool (cow_val c) then jump j st None else RRet (Ok (NGo (pc + 1) st None))
  | IJumpIfFalse j =>
    let% c := lift (unwrap ex) in
    if negb (as_bool (cow_val c)) then jump j st None else RRet (Ok (NGo (pc + 1) st None))
  | IEmit sp =>
    let% c := lift (unwrap ex) in
    let% _ := run_fmt (se_default_formatter en (cow_val c)) (fun m => err_format m source sp) in
    RRet (Ok (NGo (pc + 1) st None))
  | IEmitRaw sp =>
    let% raw := lift (index_span source sp) in
    RWrite raw (RRet (Ok (NGo (pc + 1) st ex))) (RRet (Err mk_fmt_error))
  | IEmitWith name sp =>
    (* core.rs 140-176 without 146-160 *)
    let% name_raw := lift (index_span source (id_span name)) in
    match map_get name_raw (se_functions en) with
    | Some f =>
      let% c := lift (unwrap ex) in
      let% _ := run_fmt (f (cow_val c)) (fun m => err_format m source (id_span name)) in
      RRet (Ok (NGo (pc + 1) st None))
    | None => lift (err_render (s2b "unknown filter or formatter") source (id_span name))
    end
  | ILoopStart vars sp =>
    let% c := lift (unwrap ex) in
    let% l := lift (loop_new source vars c sp) in
    RRet (Ok (NGo (pc + 1) (FrLoop l :: st) None))
  | ILoopNext j =>
    let% l := lift (last_loop_state st) in
    match iterate l with
    | None => let% st := lift (pop_loop_state st) in jump j st ex
    | Some l' => RRet (Ok (NGo (pc + 1) (FrLoop l' :: tl st) ex))
    end
  | IWithStart name =>
    let% c := lift (unwrap ex) in
    RRet (Ok (NGo (pc + 1) (FrVar name c :: st) None))
  | IWithEnd =>
    let% st := lift (pop_var st) in
    RRet (Ok (NGo (pc + 1) st ex))
  | IInclude name => RRet (Ok (NStop (RsInclude name) (pc + 1) st))
  | IIncludeWith name =>
    let% c := lift (unwrap ex) in
    RRet (Ok (NStop (RsIncludeWith name c) (pc + 1) st))
  | IExprStart v =>
    let% c := lift (lookup_var st source v) in
    match ex with
    | None => RRet (Ok (NGo (pc + 1) st (Some c)))
    | Some _ => RRet Panic (* debug_assert *)
    end
  | IExprStartLit v =>
    match ex with
    | None => RRet (Ok (NGo (pc + 1) st (Some (Owned v))))
    | Some _ => RRet Panic (* debug_assert *)
    end
  | IApply name _ a =>
    (* core.rs 227-262 without 231-248 *)
    let% name_raw := lift (index_span source (id_span name)) in
    match map_get name_raw (se_functions en) with
    | Some _ => lift (err_render (s2b "expected filter, found formatter") source (id_span name))
    | None => lift (err_render (s2b "unknown filter") source (id_span name))
    end
  end.

(** render/core.rs 97-269 [render_one]; one unit of fuel per instruction *)
Fixpoint slim_render_one (fuel : nat) (t : template) (pc : nat) (st : stack) (ex : option cow)
  : rt (render_state * nat * stack) :=
  match fuel with
  | 0 => RRet OutOfFuel
  | S fuel' =>
    match nth_error (t_instrs t) pc with
    | Some i =>
      let% n := slim_exec t i pc st ex in
      match n with
      | NGo pc st ex => slim_render_one fuel' t pc st ex
      | NStop rs pc st => RRet (Ok (rs, pc, st))
      end
    | None => if pc =? length (t_instrs t) then RRet (Ok (RsDone, pc, st)) else RRet Panic
    end
  end.

(** render/core.rs 271-287 [get_template] *)
Definition slim_get_template (source : str) (name : ast_string) (hist : list str) : res (template * list str) :=
  match si_template_fn inner with
  | Some f =>
    match f hist (as_name name) with
    | inl t => Ok (t, as_name name :: hist)
    | inr e => err_render e source (as_span name)
    end
  | None =>
    match map_get (as_name name) (se_templates en) with
    | Some t => Ok (t, hist)
    | None => err_render (s2b "unknown template") source (as_span name)
    end
  end.

(** render/core.rs 47-50 *)
Definition slim_max_include_depth : N :=
  match si_max_include_depth inner with Some n => n | None => se_max_include_depth en end.

(** render/core.rs 51-95: the loop of [render] *)
Fixpoint slim_loop (fuel : nat) (ts : list activation) (st : stack) (hist : list str) : rt unit :=
  match ts with
  | [] => RRet (Ok tt)
  | a :: rest =>
    match fuel with
    | 0 => RRet OutOfFuel
    | S fuel' =>
      let t := ac_template a in
      let tname := ac_name a in
      let% (rs, pc, st) := name_err tname (slim_render_one fuel' t (ac_pc a) st None) in
      let a := mkact t tname pc (ac_has_scope a) in
      let% (ts, st, hist) :=
        match rs with
        | RsDone =>
          if ac_has_scope a then
            let% st := lift (pop_scope st) in
            let% st := lift (pop_boundary st) in
            RRet (Ok (rest, st, hist))
          else RRet (Ok (rest, st, hist))
        | RsInclude name =>
          let% (t', hist) := name_err tname (lift (slim_get_template (t_source t) name hist)) in
          RRet (Ok (mkact t' (Some (as_name name)) 0 false :: a :: rest, st, hist))
        | RsIncludeWith name globals =>
          let% (t', hist) := name_err tname (lift (slim_get_template (t_source t) name hist)) in
          RRet (Ok (mkact t' (Some (as_name name)) 0 true :: a :: rest,
                    FrScope globals :: FrBoundary :: st, hist))
        end in
      if (slim_max_include_depth <? N.of_nat (length ts))%N
      then lift (err_max_include_depth slim_max_include_depth)
      else slim_loop fuel' ts st hist
    end
  end.

(** render/core.rs 44-95 [RendererImpl::render] *)
Definition slim_render (fuel : nat) (st : stack) : rt unit :=
  slim_loop fuel [mkact (si_template inner) (si_template_name inner) 0 false] st [].
End SlimRender.

(** render/mod.rs 18-23, 156-176 [Renderer::to_string] *)
Definition slim_to_string `{X : Ext} (fuel : nat) (inner : slim_inner) (g : globals) : res str :=
  let* st := initial_stack g in
  match run_string [] (slim_render inner fuel st) with
  | (s, Ok tt) => Ok s
  | (_, Err e) => Err e
  | (_, Panic) => Panic
  | (_, OutOfFuel) => OutOfFuel
  end.

(** render/mod.rs 25-35, 178-198 [Renderer::to_writer] *)
Definition slim_to_writer `{X : Ext} (fuel : nat) (inner : slim_inner) (g : globals) (k : sink) (w : sk_state k) : sk_state k * res unit :=
  match initial_stack g with
  | Ok st =>
    match run k w None (slim_render inner fuel st) with
    | (w', Some code, Err _) => (w', Err (mk_io_error code))
    | (w', _, r) => (w', r)
    end
  | Err e => (w, Err e)
  | Panic => (w, Panic)
  | OutOfFuel => (w, OutOfFuel)
  end.

(** ** The engine *)
Section SlimEngine.
Context `{X : Ext}.

(** lib.rs 361-369 [with_syntax] *)
Definition slim_with_syntax (sx : syntax) : res slim_engine :=
  let* sr := searcher_new sx in
  Ok (mkslim sr fmt_default [] [] 64).
(** lib.rs 378-380 *)
Definition slim_set_max_include_depth (n : N) (e : slim_engine) : slim_engine :=
  mkslim (se_searcher e) (se_default_formatter e) (se_functions e) (se_templates e) n.
(** lib.rs 389-394 *)
Definition slim_set_default_formatter (f : formatter) (e : slim_engine) : slim_engine :=
  mkslim (se_searcher e) f (se_functions e) (se_templates e) (se_max_include_depth e).
Definition slim_set_functions (fs : list (str * formatter)) (e : slim_engine) : slim_engine :=
  mkslim (se_searcher e) (se_default_formatter e) fs (se_templates e) (se_max_include_depth e).
Definition slim_set_templates (ts : list (str * template)) (e : slim_engine) : slim_engine :=
  mkslim (se_searcher e) (se_default_formatter e) (se_functions e) ts (se_max_include_depth e).
(** lib.rs 542-548 [discriminant]: only [Formatter] is left *)
Definition slim_discriminant (f : formatter) : engine_fn_kind := FnFormatter.
(** lib.rs 407-415 [add_formatter] *)
Definition slim_add_formatter (name : str) (f : formatter) (e : slim_engine) : slim_engine * option engine_fn_kind :=
  (slim_set_functions (map_insert name f (se_functions e)) e, option_map slim_discriminant (map_get name (se_functions e))).
(** lib.rs 451-453 [remove_function] *)
Definition slim_remove_function (name : str) (e : slim_engine) : slim_engine * option engine_fn_kind :=
  (slim_set_functions (map_remove name (se_functions e)) e, option_map slim_discriminant (map_get name (se_functions e))).
(** lib.rs 520-526 [compile] *)
Definition slim_compile (source : str) (e : slim_engine) : res template := compile_template (se_searcher e) source.
(** lib.rs 464-477 [add_template] *)
Definition slim_add_template (name source : str) (e : slim_engine) : slim_engine * res unit :=
  match slim_compile source e with
  | Ok t => (slim_set_templates (map_insert name t (se_templates e)) e, Ok tt)
  | Err err => (e, Err (with_template_name err name))
  | Panic => (e, Panic)
  | OutOfFuel => (e, OutOfFuel)
  end.
(** lib.rs 495-503 [get_template] *)
Definition slim_template (name : str) (e : slim_engine) : option (str * template) :=
  option_map (fun t => (name, t)) (map_get name (se_templates e)).
(** lib.rs 510-512 [remove_template] *)
Definition slim_remove_template (name : str) (e : slim_engine) : slim_engine * bool :=
  (slim_set_templates (map_remove name (se_templates e)) e,
   match map_get name (se_templates e) with Some _ => true | None => false end).
End SlimEngine.
