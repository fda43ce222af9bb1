(** src/render/core.rs and src/render/mod.rs *)
From Verif Require Import Base Utf8 Ext Errors Syntax AhoCorasick Value Ast Fmt Stack Filters.

(** lib.rs 278-282 [EngineBoxFn] *)
Inductive engine_fn :=
| EFormatter (f : formatter)
| EFilter (f : filter).

(** lib.rs 258-264 [Engine]; BTreeMaps are sorted association lists *)
Record engine := mkengine {
  en_searcher : searcher;
  en_default_formatter : formatter;
  en_functions : list (str * engine_fn);
  en_templates : list (str * template);
  en_max_include_depth : N
}.

(** render/mod.rs 37 [TemplateFn], an [FnMut]: its answer may depend on the names
    it was asked before (the history, most recent first); an [Err] is a message. *)
Definition template_fn := list str -> str -> template + str.

(** render/mod.rs 56-66 [RendererInner] *)
Record renderer_inner := mkinner {
  ri_engine : engine;
  ri_template : template;
  ri_template_name : option str;
  ri_max_include_depth : option N;
  ri_template_fn : option template_fn
}.

(** render/core.rs 30-39 [RenderState] *)
Inductive render_state :=
| RsDone
| RsInclude (name : ast_string)
| RsIncludeWith (name : ast_string) (globals : cow).

Section Render.
Context `{X : Ext}.
Variable inner : renderer_inner.

Notation en := (ri_engine inner).

Definition lift {A} (r : res A) : rt A := RRet r.

(** What executing one instruction does next *)
Inductive next :=
| NGo (pc : nat) (st : stack) (ex : option cow)
| NStop (rs : render_state) (pc : nat) (st : stack).

(** A jump to an unpatched target would index past the end and fail the final
    assertion: modelled as a panic *)
Definition jump (t : option nat) (st : stack) (ex : option cow) : rt next :=
  match t with Some j => RRet (Ok (NGo j st ex)) | None => RRet Panic end.

(** render/core.rs 107-258: the body of the instruction loop *)
Definition exec_instr (t : template) (i : instr) (pc : nat) (st : stack) (ex : option cow)
  : rt next :=
  let source := t_source t in
  match i with
  | IJump j => jump j st ex
  | IJumpIfTrue j =>
    let% c := lift (unwrap ex) in
    if as_bool (cow_val c) then jump j st None else RRet (Ok (NGo (pc + 1) st None))
  | IJumpIfFalse j =>
    let% c := lift (unwrap ex) in
    if negb (as_bool (cow_val c)) then jump j st None else RRet (Ok (NGo (pc + 1) st None))
  | IEmit sp =>
    let% c := lift (unwrap ex) in
    let% _ := run_fmt (en_default_formatter en (cow_val c)) (fun m => err_format m source sp) in
    RRet (Ok (NGo (pc + 1) st None))
  | IEmitRaw sp =>
    let% raw := lift (index_span source sp) in
    RWrite raw (RRet (Ok (NGo (pc + 1) st ex))) (RRet (Err mk_fmt_error))
  | IEmitWith name sp =>
    let% name_raw := lift (index_span source (id_span name)) in
    match map_get name_raw (en_functions en) with
    | Some (EFilter f) =>
      let% c := lift (unwrap ex) in
      let% v := lift (match call_filter f source name st c [] with
                      | Err e => err_enrich e source (id_span name)
                      | r => r
                      end) in
      let% _ := run_fmt (en_default_formatter en v) (fun m => err_format m source sp) in
      RRet (Ok (NGo (pc + 1) st None))
    | Some (EFormatter f) =>
      let% c := lift (unwrap ex) in
      let% _ := run_fmt (f (cow_val c)) (fun m => err_format m source (id_span name)) in
      RRet (Ok (NGo (pc + 1) st None))
    | None => lift (err_render (s2b "unknown filter or formatter") source (id_span name))
    end
  | ILoopStart vars sp =>
    let% c := lift (unwrap ex) in
    let% l := lift (loop_new source vars c sp) in
    RRet (Ok (NGo (pc + 1) (FrLoop l :: st) None))
  | ILoopNext j =>
    let% l := lift (last_loop_state st) in
    match iterate l with
    | None => let% st := lift (pop_loop_state st) in jump j st ex
    | Some l' => RRet (Ok (NGo (pc + 1) (FrLoop l' :: tl st) ex))
    end
  | IWithStart name =>
    let% c := lift (unwrap ex) in
    RRet (Ok (NGo (pc + 1) (FrVar name c :: st) None))
  | IWithEnd =>
    let% st := lift (pop_var st) in
    RRet (Ok (NGo (pc + 1) st ex))
  | IInclude name => RRet (Ok (NStop (RsInclude name) (pc + 1) st))
  | IIncludeWith name =>
    let% c := lift (unwrap ex) in
    RRet (Ok (NStop (RsIncludeWith name c) (pc + 1) st))
  | IExprStart v =>
    let% c := lift (lookup_var st source v) in
    match ex with
    | None => RRet (Ok (NGo (pc + 1) st (Some c)))
    | Some _ => RRet Panic (* debug_assert *)
    end
  | IExprStartLit v =>
    match ex with
    | None => RRet (Ok (NGo (pc + 1) st (Some (Owned v))))
    | Some _ => RRet Panic (* debug_assert *)
    end
  | IApply name _ a =>
    let% name_raw := lift (index_span source (id_span name)) in
    match map_get name_raw (en_functions en) with
    | Some (EFilter f) =>
      let% c := lift (unwrap ex) in
      let args := match a with Some a => a_values a | None => [] end in
      let% v := lift (match call_filter f source name st c args with
                      | Err e => err_enrich e source (id_span name)
                      | r => r
                      end) in
      RRet (Ok (NGo (pc + 1) st (Some (Owned v))))
    | Some (EFormatter _) =>
      lift (err_render (s2b "expected filter, found formatter") source (id_span name))
    | None => lift (err_render (s2b "unknown filter") source (id_span name))
    end
  end.

(** render/core.rs 97-269 [render_one]; one unit of fuel per instruction *)
Fixpoint render_one (fuel : nat) (t : template) (pc : nat) (st : stack) (ex : option cow)
  : rt (render_state * nat * stack) :=
  match fuel with
  | 0 => RRet OutOfFuel
  | S fuel' =>
    match nth_error (t_instrs t) pc with
    | Some i =>
      let% n := exec_instr t i pc st ex in
      match n with
      | NGo pc st ex => render_one fuel' t pc st ex
      | NStop rs pc st => RRet (Ok (rs, pc, st))
      end
    | None => if pc =? length (t_instrs t) then RRet (Ok (RsDone, pc, st)) else RRet Panic
    end
  end.

(** render/core.rs 271-287 [get_template]; returns the new history *)
Definition get_template (source : str) (name : ast_string) (hist : list str)
  : res (template * list str) :=
  match ri_template_fn inner with
  | Some f =>
    match f hist (as_name name) with
    | inl t => Ok (t, as_name name :: hist)
    | inr e => err_render e source (as_span name)
    end
  | None =>
    match map_get (as_name name) (en_templates en) with
    | Some t => Ok (t, hist)
    | None => err_render (s2b "unknown template") source (as_span name)
    end
  end.

(** render/core.rs 53-56, 66-69, 77-80: "map_err(|e| match tname ..)" *)
Definition name_err {A} (tname : option str) (x : rt A) : rt A :=
  rmap_err (fun e => match tname with Some s => with_template_name e s | None => e end) x.

(** An entry of the [templates] stack: template, name, pc, has_scope *)
Record activation := mkact {
  ac_template : template;
  ac_name : option str;
  ac_pc : nat;
  ac_has_scope : bool
}.

(** render/core.rs 47-50 *)
Definition max_include_depth : N :=
  match ri_max_include_depth inner with Some n => n | None => en_max_include_depth en end.

(** render/core.rs 51-95: the loop of [render]; [ts] has the top activation
    first *)
Fixpoint render_loop (fuel : nat) (ts : list activation) (st : stack) (hist : list str) : rt unit :=
  match ts with
  | [] => RRet (Ok tt)
  | a :: rest =>
    match fuel with
    | 0 => RRet OutOfFuel
    | S fuel' =>
      let t := ac_template a in
      let tname := ac_name a in
      let% (rs, pc, st) := name_err tname (render_one fuel' t (ac_pc a) st None) in
      let a := mkact t tname pc (ac_has_scope a) in
      let% (ts, st, hist) :=
        match rs with
        | RsDone =>
          if ac_has_scope a then
            let% st := lift (pop_scope st) in
            let% st := lift (pop_boundary st) in
            RRet (Ok (rest, st, hist))
          else RRet (Ok (rest, st, hist))
        | RsInclude name =>
          let% (t', hist) := name_err tname (lift (get_template (t_source t) name hist)) in
          RRet (Ok (mkact t' (Some (as_name name)) 0 false :: a :: rest, st, hist))
        | RsIncludeWith name globals =>
          let% (t', hist) := name_err tname (lift (get_template (t_source t) name hist)) in
          RRet (Ok (mkact t' (Some (as_name name)) 0 true :: a :: rest,
                    FrScope globals :: FrBoundary :: st, hist))
        end in
      if (max_include_depth <? N.of_nat (length ts))%N
      then lift (err_max_include_depth max_include_depth)
      else render_loop fuel' ts st hist
    end
  end.

(** render/core.rs 44-95 [RendererImpl::render] *)
Definition render (fuel : nat) (st : stack) : rt unit :=
  render_loop fuel [mkact (ri_template inner) (ri_template_name inner) 0 false] st [].

End Render.

(** render/mod.rs 51-55 [Globals] *)
Inductive globals :=
| GOwned (r : res value)
| GBorrowed (v : value)
| GFn (f : value_fn).

(** render/stack.rs 43-53, render/mod.rs 156-198: the initial stack; a
    serialization error is returned before anything is rendered *)
Definition initial_stack (g : globals) : res stack :=
  match g with
  | GOwned r => let* v := r in Ok [FrScope (Borrowed v)]
  | GBorrowed v => Ok [FrScope (Borrowed v)]
  | GFn f => Ok [FrValueFn f]
  end.

(** render/mod.rs 18-23, 156-176 [Renderer::to_string] *)
Definition to_string `{X : Ext} (fuel : nat) (inner : renderer_inner) (g : globals) : res str :=
  let* st := initial_stack g in
  match run_string [] (render inner fuel st) with
  | (s, Ok tt) => Ok s
  | (_, Err e) => Err e
  | (_, Panic) => Panic
  | (_, OutOfFuel) => OutOfFuel
  end.

(** render/mod.rs 25-35, 178-198 [Renderer::to_writer]: the final state of the
    writer and the result *)
Definition to_writer `{X : Ext} (fuel : nat) (inner : renderer_inner) (g : globals)
    (k : sink) (w : sk_state k) : sk_state k * res unit :=
  match initial_stack g with
  | Ok st =>
    match run k w None (render inner fuel st) with
    | (w', Some code, Err _) => (w', Err (mk_io_error code))
    | (w', _, r) => (w', r)
    end
  | Err e => (w, Err e)
  | Panic => (w, Panic)
  | OutOfFuel => (w, OutOfFuel)
  end.
