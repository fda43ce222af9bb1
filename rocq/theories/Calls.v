(** src/render/{core,stack}.rs and src/filters/mod.rs once more, with everything the
    user supplies outside: the functions registered, the template function, the value
    function and the writer may have state, may answer differently each time, panic or
    never return.  Render.v is the special case of functions without state (CallLink.v).

    Rendering acts on an environment: it hands over the calls one after the other, each
    changes the state of the environment and gives an answer. *)
From Verif Require Import Base Utf8 Ext Errors Syntax AhoCorasick Value Ast Fmt Stack Filters Render.

(** What the user supplies, with its state [S]: an [io::Write] or [String] (fmt.rs
    97-105); the formatters, by their name, and the default formatter ([None]), fmt.rs 80,
    which write by themselves; the filters, filters/mod.rs 100-111; the value function,
    lib.rs 284; the template function, render/mod.rs 37.  [Err]: the error returned;
    [Panic]: it panics; [OutOfFuel]: it never returns. *)
Record env (S : Type) := mkenv {
  ev_write : S -> str -> S * outcome unit unit;
  ev_format : S -> option str -> value -> S * outcome (option str) unit;
  ev_filter : S -> str -> arg_val -> list arg_val -> S * outcome str value;
  ev_value : S -> list vmember -> S * outcome str value;
  ev_template : S -> str -> S * outcome str template
}.
Arguments mkenv {S}.
Arguments ev_write {S}. Arguments ev_format {S}. Arguments ev_filter {S}. Arguments ev_value {S}. Arguments ev_template {S}.

(** Computations on the environment *)
Definition eff (S A : Type) : Type := S -> S * res A.
Definition efx {S A B} (p : S * res A) (f : A -> eff S B) : S * res B :=
  match p with
  | (s, Ok a) => f a s
  | (s, Err e) => (s, Err e)
  | (s, Panic) => (s, Panic)
  | (s, OutOfFuel) => (s, OutOfFuel)
  end.
Definition ebind {S A B} (x : eff S A) (f : A -> eff S B) : eff S B := fun s => efx (x s) f.
Definition eret {S A} (r : res A) : eff S A := fun s => (s, r).
Notation "'let!' p ':=' x 'in' y" := (ebind x (fun p => y))
  (at level 200, p pattern, x at level 100, y at level 200, only parsing).
(** A call, with the error to report for a refusal *)
Definition eask {S E A} (call : S -> S * outcome E A) (refused : E -> res A) : eff S A :=
  fun s => match call s with
           | (s', Ok a) => (s', Ok a)
           | (s', Err e) => (s', refused e)
           | (s', Panic) => (s', Panic)
           | (s', OutOfFuel) => (s', OutOfFuel)
           end.
(** [Result::map_err] and [or_else] *)
Definition ecatch {S A} (f : error -> res A) (x : eff S A) : eff S A :=
  fun s => match x s with (s', Err e) => (s', f e) | (s', Ok a) => (s', Ok a) | (s', Panic) => (s', Panic) | (s', OutOfFuel) => (s', OutOfFuel) end.

Section Calls.
Context `{X : Ext}.
Context {S : Type}.
Variable ev : env S.
Variable inner : renderer_inner.

Notation en := (ri_engine inner).

(** render/stack.rs 56-111 [Stack::lookup_var]; the function of a [FrValueFn] frame is
    the one of the environment *)
Fixpoint x_lookup_var (st : stack) (source : str) (v : var) : eff S cow :=
  match st with
  | [] => eret (err_not_found source v)
  | FrValueFn _ :: _ =>
    let! path := eret (value_path source v) in
    let! x := eask (fun s => ev_value ev s path) (fun reason => let* sp := var_span v in err_render reason source sp) in
    eret (Ok (Owned x))
  | FrScope c :: st' =>
    let! r := eret (lookup_path_maybe source c v) in
    match r with
    | Some x => eret (Ok x)
    | None => x_lookup_var st' source v
    end
  | FrVar name c :: st' =>
    let! first := eret (var_first v) in
    let! a := eret (index_span source (access_span (mb_access first))) in
    let! b := eret (index_span source (id_span name)) in
    if str_eqb a b then eret (lookup_path source c (var_rest v)) else x_lookup_var st' source v
  | FrLoop l :: st' =>
    let! r := eret (loop_lookup_var l source v) in
    match r with
    | Some x => eret (Ok x)
    | None => x_lookup_var st' source v
    end
  | FrBoundary :: _ => eret (err_not_found source v)
  end.

(** filters/mod.rs 376-398 [get_arg] *)
Definition x_get_arg (t : arg_ty) (source : str) (st : stack) (a : base_expr) : eff S arg_val :=
  match a with
  | BVar v =>
    let! c := x_lookup_var st source v in
    eret match (match c with Borrowed x => from_value_ref t x | Owned x => from_value t x end) with
         | inl av => Ok av
         | inr e => let* sp := var_span v in err_expected_arg e source sp
         end
  | BLit x sp =>
    eret match from_value_ref t x with
         | inl av => Ok av
         | inr e => err_expected_arg e source sp
         end
  end.
Fixpoint x_get_args (tys : list arg_ty) (source : str) (st : stack) (l : list base_expr) : eff S (list arg_val) :=
  match tys, l with
  | [], [] => eret (Ok [])
  | t :: tys', a :: l' =>
    let! av := x_get_arg t source st a in
    let! rest := x_get_args tys' source st l' in
    eret (Ok (av :: rest))
  | _, _ => eret Panic
  end.
(** filters/mod.rs 100-111, 274-360, 430-467: the types are those of the registered
    filter, what it does is up to the environment *)
Definition x_call_filter (f : filter) (raw_name : str) (source : str) (name : ident) (st : stack) (recv : cow)
    (l : list base_expr) : eff S value :=
  let! _ := eret (check_args (length (fl_args f)) source name l) in
  let! r := eret (match from_cow_mut (fl_recv f) recv with
            | inl av => Ok av
            | inr e => err_expected_val e source (id_span name)
            end) in
  let! avs := x_get_args (fl_args f) source st l in
  eask (fun s => ev_filter ev s raw_name r avs) (fun msg => Err (mk_filter_error msg)).

Definition x_jump (t : option nat) (st : stack) (ex : option cow) : eff S next :=
  match t with Some j => eret (Ok (NGo j st ex)) | None => eret Panic end.
(** A formatter writes to the output by itself *)
Definition x_format (which : option str) (v : value) (source : str) (sp : span) : eff S unit :=
  eask (fun s => ev_format ev s which v) (fun m => err_format m source sp).

(** render/core.rs 107-258: the body of the instruction loop *)
Definition x_exec_instr (t : template) (i : instr) (pc : nat) (st : stack) (ex : option cow) : eff S next :=
  let source := t_source t in
  match i with
  | IJump j => x_jump j st ex
  | IJumpIfTrue j =>
    let! c := eret (unwrap ex) in
    if as_bool (cow_val c) then x_jump j st None else eret (Ok (NGo (pc + 1) st None))
  | IJumpIfFalse j =>
    let! c := eret (unwrap ex) in
    if negb (as_bool (cow_val c)) then x_jump j st None else eret (Ok (NGo (pc + 1) st None))
  | IEmit sp =>
    let! c := eret (unwrap ex) in
    let! _ := x_format None (cow_val c) source sp in
    eret (Ok (NGo (pc + 1) st None))
  | IEmitRaw sp =>
    let! raw := eret (index_span source sp) in
    let! _ := eask (fun s => ev_write ev s raw) (fun _ => Err mk_fmt_error) in
    eret (Ok (NGo (pc + 1) st ex))
  | IEmitWith name sp =>
    let! name_raw := eret (index_span source (id_span name)) in
    match map_get name_raw (en_functions en) with
    | Some (EFilter f) =>
      let! c := eret (unwrap ex) in
      let! v := ecatch (fun e => err_enrich e source (id_span name)) (x_call_filter f name_raw source name st c []) in
      let! _ := x_format None v source sp in
      eret (Ok (NGo (pc + 1) st None))
    | Some (EFormatter f) =>
      let! c := eret (unwrap ex) in
      let! _ := x_format (Some name_raw) (cow_val c) source (id_span name) in
      eret (Ok (NGo (pc + 1) st None))
    | None => eret (err_render (s2b "unknown filter or formatter") source (id_span name))
    end
  | ILoopStart vars sp =>
    let! c := eret (unwrap ex) in
    let! l := eret (loop_new source vars c sp) in
    eret (Ok (NGo (pc + 1) (FrLoop l :: st) None))
  | ILoopNext j =>
    let! l := eret (last_loop_state st) in
    match iterate l with
    | None => let! st := eret (pop_loop_state st) in x_jump j st ex
    | Some l' => eret (Ok (NGo (pc + 1) (FrLoop l' :: tl st) ex))
    end
  | IWithStart name =>
    let! c := eret (unwrap ex) in
    eret (Ok (NGo (pc + 1) (FrVar name c :: st) None))
  | IWithEnd =>
    let! st := eret (pop_var st) in
    eret (Ok (NGo (pc + 1) st ex))
  | IInclude name => eret (Ok (NStop (RsInclude name) (pc + 1) st))
  | IIncludeWith name =>
    let! c := eret (unwrap ex) in
    eret (Ok (NStop (RsIncludeWith name c) (pc + 1) st))
  | IExprStart v =>
    let! c := x_lookup_var st source v in
    match ex with
    | None => eret (Ok (NGo (pc + 1) st (Some c)))
    | Some _ => eret Panic (* debug_assert *)
    end
  | IExprStartLit v =>
    match ex with
    | None => eret (Ok (NGo (pc + 1) st (Some (Owned v))))
    | Some _ => eret Panic (* debug_assert *)
    end
  | IApply name _ a =>
    let! name_raw := eret (index_span source (id_span name)) in
    match map_get name_raw (en_functions en) with
    | Some (EFilter f) =>
      let! c := eret (unwrap ex) in
      let args := match a with Some a => a_values a | None => [] end in
      let! v := ecatch (fun e => err_enrich e source (id_span name)) (x_call_filter f name_raw source name st c args) in
      eret (Ok (NGo (pc + 1) st (Some (Owned v))))
    | Some (EFormatter _) =>
      eret (err_render (s2b "expected filter, found formatter") source (id_span name))
    | None => eret (err_render (s2b "unknown filter") source (id_span name))
    end
  end.

(** render/core.rs 97-269 [render_one] *)
Fixpoint x_render_one (fuel : nat) (t : template) (pc : nat) (st : stack) (ex : option cow)
  : eff S (render_state * nat * stack) :=
  match fuel with
  | 0 => eret OutOfFuel
  | Datatypes.S fuel' =>
    match nth_error (t_instrs t) pc with
    | Some i =>
      let! n := x_exec_instr t i pc st ex in
      match n with
      | NGo pc st ex => x_render_one fuel' t pc st ex
      | NStop rs pc st => eret (Ok (rs, pc, st))
      end
    | None => if pc =? length (t_instrs t) then eret (Ok (RsDone, pc, st)) else eret Panic
    end
  end.

(** render/core.rs 271-287 [get_template] *)
Definition x_get_template (source : str) (name : ast_string) : eff S template :=
  match ri_template_fn inner with
  | Some _ => eask (fun s => ev_template ev s (as_name name)) (fun e => err_render e source (as_span name))
  | None =>
    match map_get (as_name name) (en_templates en) with
    | Some t => eret (Ok t)
    | None => eret (err_render (s2b "unknown template") source (as_span name))
    end
  end.

(** render/core.rs 53-56, 66-69, 77-80 *)
Definition x_name_err {A} (tname : option str) (x : eff S A) : eff S A :=
  ecatch (fun e => Err (match tname with Some s => with_template_name e s | None => e end)) x.

(** render/core.rs 51-95: the loop of [render] *)
Fixpoint x_render_loop (fuel : nat) (ts : list activation) (st : stack) : eff S unit :=
  match ts with
  | [] => eret (Ok tt)
  | a :: rest =>
    match fuel with
    | 0 => eret OutOfFuel
    | Datatypes.S fuel' =>
      let t := ac_template a in
      let tname := ac_name a in
      let! (rs, pc, st) := x_name_err tname (x_render_one fuel' t (ac_pc a) st None) in
      let a := mkact t tname pc (ac_has_scope a) in
      let! (ts, st) :=
        match rs with
        | RsDone =>
          if ac_has_scope a then
            let! st := eret (pop_scope st) in
            let! st := eret (pop_boundary st) in
            eret (Ok (rest, st))
          else eret (Ok (rest, st))
        | RsInclude name =>
          let! t' := x_name_err tname (x_get_template (t_source t) name) in
          eret (Ok (mkact t' (Some (as_name name)) 0 false :: a :: rest, st))
        | RsIncludeWith name globals =>
          let! t' := x_name_err tname (x_get_template (t_source t) name) in
          eret (Ok (mkact t' (Some (as_name name)) 0 true :: a :: rest, FrScope globals :: FrBoundary :: st))
        end in
      if (max_include_depth inner <? N.of_nat (length ts))%N
      then eret (err_max_include_depth (max_include_depth inner))
      else x_render_loop fuel' ts st
    end
  end.

(** render/core.rs 44-95 [RendererImpl::render]: the state of the environment after the
    rendering, and the result (before an io error is put in place of the error that it
    caused, render/mod.rs 25-35) *)
Definition x_render (fuel : nat) (st : stack) : eff S unit :=
  x_render_loop fuel [mkact (ri_template inner) (ri_template_name inner) 0 false] st.
End Calls.
