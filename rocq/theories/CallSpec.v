(** Specification of the calls made by a rendering: a direct interpreter of template
    structure, as in RenderSpec.v, that acts on the environment (Calls.v).

    It reads the statements from the first to the last.  The text between tags is written;
    an expression is evaluated from left to right: first the variable or literal, then each
    filter of the pipeline, whose arguments are evaluated from left to right just before
    the call; the condition of an [if] is evaluated once, before the branch it selects;
    the list of a [for] once, before the first iteration; an included template is asked for
    when the include is reached, and rendered at once. *)
From Verif Require Import Base Utf8 Ext Errors Syntax Value Ast Fmt Stack Filters Render RenderSpec Calls.

Section Interp.
Context `{X : Ext}.
Context {S : Type}.
Variable ev : env S.
Variable inner : renderer_inner.
Variable ast_of : template -> scope.

(** An argument is a variable or a literal; the filter gets its value as the type of the
    parameter.  A literal is passed by reference. *)
Definition c_arg (source : str) (st : stack) (ty : arg_ty) (a : base_expr) : eff S arg_val :=
  let! c := match a with BVar v => x_lookup_var ev st source v | BLit x _ => eret (Ok (Borrowed x)) end in
  eret match (match c with Borrowed x => from_value_ref ty x | Owned x => from_value ty x end) with
       | inl av => Ok av
       | inr e => let* sp := base_span a in err_expected_arg e source sp
       end.
Fixpoint c_args (source : str) (st : stack) (l : list (arg_ty * base_expr)) : eff S (list arg_val) :=
  match l with
  | [] => eret (Ok [])
  | (ty, a) :: l' =>
    let! v := c_arg source st ty a in
    let! vs := c_args source st l' in
    eret (Ok (v :: vs))
  end.
(** A call: the number of arguments and the receiver are looked at before the arguments
    are evaluated. *)
Definition c_call (f : filter) (nm : str) (source : str) (name : ident) (st : stack) (c : cow) (l : list base_expr) : eff S value :=
  if length l =? length (fl_args f) then
    match from_cow_mut (fl_recv f) c with
    | inl v =>
      let! vs := c_args source st (combine (fl_args f) l) in
      eask (fun s => ev_filter ev s nm v vs) (fun msg => Err (mk_filter_error msg))
    | inr e => eret (err_expected_val e source (id_span name))
    end
  else eret (err_render (s2b "filter expected " ++ show_nat (length (fl_args f)) ++ s2b " arguments") source (id_span name)).
Definition c_apply (source : str) (st : stack) (name : ident) (args : list base_expr) (c : cow) : eff S value :=
  let! nm := eret (index_span source (id_span name)) in
  match map_get nm (en_functions (ri_engine inner)) with
  | Some (EFilter f) =>
    ecatch (fun e => err_enrich e source (id_span name)) (c_call f nm source name st c args)
  | Some (EFormatter _) => eret (err_render (s2b "expected filter, found formatter") source (id_span name))
  | None => eret (err_render (s2b "unknown filter") source (id_span name))
  end.

Fixpoint c_expr (source : str) (st : stack) (e : expr) : eff S cow :=
  match e with
  | EBase (BVar v) => x_lookup_var ev st source v
  | EBase (BLit v _) => eret (Ok (Owned v))
  | ECall name a recv _ =>
    let! c := c_expr source st recv in
    let! v := c_apply source st name (arg_list a) c in
    eret (Ok (Owned v))
  end.

(** [{{ e }}]: the value is given to the formatter named last, or to the default one. *)
Definition c_format (which : option str) (v : value) (source : str) (sp : span) : eff S unit :=
  eask (fun s => ev_format ev s which v) (fun m => err_format m source sp).
Definition c_inline (source : str) (st : stack) (e : expr) : eff S unit :=
  match e with
  | ECall name None recv sp =>
    let! c := c_expr source st recv in
    let! nm := eret (index_span source (id_span name)) in
    match map_get nm (en_functions (ri_engine inner)) with
    | Some (EFilter f) =>
      let! v := c_apply source st name [] c in
      c_format None v source sp
    | Some (EFormatter f) => c_format (Some nm) (cow_val c) source (id_span name)
    | None => eret (err_render (s2b "unknown filter or formatter") source (id_span name))
    end
  | _ =>
    let! c := c_expr source st e in
    let! sp := eret (expr_span e) in
    c_format None (cow_val c) source sp
  end.

Definition c_find (source : str) (name : ast_string) : eff S template :=
  match ri_template_fn inner with
  | Some _ => eask (fun s => ev_template ev s (as_name name)) (fun reason => err_render reason source (as_span name))
  | None =>
    match map_get (as_name name) (en_templates (ri_engine inner)) with
    | Some t => eret (Ok t)
    | None => eret (err_render (s2b "unknown template") source (as_span name))
    end
  end.

Definition c_rend := template -> option str -> stack -> eff S unit.

Fixpoint c_each (body : stack -> eff S unit) (st : stack) (frs : list frame) : eff S unit :=
  match frs with
  | [] => eret (Ok tt)
  | fr :: frs' => let! _ := body (fr :: st) in c_each body st frs'
  end.

Section Statements.
Variable inc : option c_rend.
Variable source : str.
Variable tname : option str.

(** Errors of this template carry its name. *)
Definition c_here {A} (x : eff S A) : eff S A :=
  ecatch (fun e => Err (match tname with Some s => with_template_name e s | None => e end)) x.

Fixpoint c_stmt (s : stmt) (st : stack) {struct s} : eff S unit :=
  let c_scope := fix c_scope (l : list stmt) (st : stack) {struct l} : eff S unit :=
    match l with
    | [] => eret (Ok tt)
    | s :: l' => let! _ := c_stmt s st in c_scope l' st
    end in
  match s with
  | SRaw sp =>
    let! raw := c_here (eret (index_span source sp)) in
    c_here (eask (fun s => ev_write ev s raw) (fun _ => Err mk_fmt_error))
  | SInline e _ => c_here (c_inline source st e)
  | SInclude name w =>
    let! st' := match w with
                | None => eret (Ok st)
                | Some e => let! c := c_here (c_expr source st e) in eret (Ok (FrScope c :: FrBoundary :: st))
                end in
    let! t := c_here (c_find source name) in
    match inc with
    | None => eret (err_max_include_depth (max_include_depth inner))
    | Some run => run t (Some (as_name name)) st'
    end
  | SIf neg c thn els =>
    let! v := c_here (c_expr source st c) in
    if xorb neg (as_bool (cow_val v)) then c_scope thn st
    else match els with Some l => c_scope l st | None => eret (Ok tt) end
  | SFor vars e body =>
    let! c := c_here (c_expr source st e) in
    let! sp := c_here (eret (expr_span e)) in
    let! frs := c_here (eret (s_loop source vars c sp)) in
    c_each (c_scope body) st frs
  | SWith e name body =>
    let! c := c_here (c_expr source st e) in
    c_scope body (FrVar name c :: st)
  end.
Fixpoint c_scope (l : list stmt) (st : stack) {struct l} : eff S unit :=
  match l with
  | [] => eret (Ok tt)
  | s :: l' => let! _ := c_stmt s st in c_scope l' st
  end.
End Statements.

(** [c_template d]: at most [d] nested includes below this template. *)
Fixpoint c_template (d : nat) (t : template) (tname : option str) (st : stack) : eff S unit :=
  c_scope (match d with 0 => None | Datatypes.S d' => Some (c_template d') end) (t_source t) tname (ast_of t) st.
Definition c_render (st : stack) : eff S unit :=
  c_template (N.to_nat (max_include_depth inner) - 1) (ri_template inner) (ri_template_name inner) st.
End Interp.

(** Everything an include can name, in whatever state the environment is. *)
Definition c_named {S} (ev : env S) (inner : renderer_inner) (t : template) : Prop :=
  (ri_template_fn inner <> None /\ exists s s' n, ev_template ev s n = (s', Ok t)) \/
  (ri_template_fn inner = None /\ exists n, map_get n (en_templates (ri_engine inner)) = Some t).
