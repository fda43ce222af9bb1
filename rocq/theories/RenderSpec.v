(** Specification of rendering: a direct interpreter of template structure.

    It follows the syntax tree, not the instructions: blocks extend the variables
    for their body only, loops are a walk over the list of items, an include is a
    recursive call whose depth is bounded by a counter.  Nothing here mentions
    program counters, jumps, the expression register, the activation stack or
    fuel.  What a variable, a filter call or a formatter means is shared with the
    model (Stack.v, Filters.v, Fmt.v) and specified separately. *)
From Verif Require Import Base Utf8 Ext Errors Syntax Value Ast Fmt Stack LookupSpec Filters Render.

Section Interp.
Context `{X : Ext}.
Variable inner : renderer_inner.
(** The statements of each template. *)
Variable ast_of : template -> scope.

(** ** Expressions *)

(** Applying the function [name] inside a pipeline: it has to be a filter. *)
Definition s_apply (source : str) (st : stack) (name : ident) (args : list base_expr) (c : cow) : res value :=
  let* nm := index_span source (id_span name) in
  match map_get nm (en_functions (ri_engine inner)) with
  | Some (EFilter f) =>
    match call_filter f source name st c args with
    | Err e => err_enrich e source (id_span name)
    | r => r
    end
  | Some (EFormatter _) => err_render (s2b "expected filter, found formatter") source (id_span name)
  | None => err_render (s2b "unknown filter") source (id_span name)
  end.

Definition arg_list (a : option args) : list base_expr :=
  match a with Some a => a_values a | None => [] end.

Fixpoint s_expr (source : str) (st : stack) (e : expr) : res cow :=
  match e with
  | EBase (BVar v) => lookup_var st source v
  | EBase (BLit v _) => Ok (Owned v)
  | ECall name a recv _ =>
    let* c := s_expr source st recv in
    let* v := s_apply source st name (arg_list a) c in
    Ok (Owned v)
  end.

Definition s_default (source : str) (v : value) (sp : span) : rt unit :=
  run_fmt (en_default_formatter (ri_engine inner) v) (fun m => err_format m source sp).

(** [{{ e }}]: the last function of a pipeline, if it has no arguments, may be a
    formatter. *)
Definition s_inline (source : str) (st : stack) (e : expr) : rt unit :=
  match e with
  | ECall name None recv sp =>
    let% c := lift (s_expr source st recv) in
    let% nm := lift (index_span source (id_span name)) in
    match map_get nm (en_functions (ri_engine inner)) with
    | Some (EFilter f) =>
      let% v := lift (s_apply source st name [] c) in
      s_default source v sp
    | Some (EFormatter f) =>
      run_fmt (f (cow_val c)) (fun m => err_format m source (id_span name))
    | None => lift (err_render (s2b "unknown filter or formatter") source (id_span name))
    end
  | _ =>
    let% c := lift (s_expr source st e) in
    let% sp := lift (expr_span e) in
    s_default source (cow_val c) sp
  end.

(** ** Loops *)

(** One frame of loop variables for each item: the item, its index, and the items
    left (which decide [loop.last]). *)
Fixpoint list_frames (o : bool) (i : str) (k : nat) (l : list value) : list frame :=
  match l with
  | [] => []
  | x :: l' => FrLoop (LList o i (S k) l' (Some (k, x))) :: list_frames o i (S k) l'
  end.
Fixpoint map_frames (o : bool) (kn vn : str) (k : nat) (l : list (str * value)) : list frame :=
  match l with
  | [] => []
  | x :: l' => FrLoop (LMap o kn vn (S k) l' (Some (k, x))) :: map_frames o kn vn (S k) l'
  end.
Definition s_loop (source : str) (vars : loop_vars) (c : cow) (sp : span) : res (list frame) :=
  match cow_val c, vars with
  | VList l, LVItem item =>
    let* i := index_span source (id_span item) in Ok (list_frames (is_owned c) i 0 l)
  | VMap m, LVKeyValue key value _ =>
    let* k := index_span source (id_span key) in
    let* v := index_span source (id_span value) in Ok (map_frames (is_owned c) k v 0 m)
  | VList _, LVKeyValue _ _ sp =>
    err_render (s2b "cannot unpack list item into two variables") source sp
  | VMap _, LVItem item =>
    err_render (s2b "cannot unpack map item into one variable") source (id_span item)
  | v, _ => err_render (s2b "expected iterable, but expression evaluated to " ++ kind_word v) source sp
  end.

(** ** Included templates *)

(** The template for a name, and the names the template function was asked for. *)
Definition s_find (source : str) (name : ast_string) (hist : list str) : res (template * list str) :=
  match ri_template_fn inner with
  | Some f =>
    match f hist (as_name name) with
    | inl t => Ok (t, as_name name :: hist)
    | inr reason => err_render reason source (as_span name)
    end
  | None =>
    match map_get (as_name name) (en_templates (ri_engine inner)) with
    | Some t => Ok (t, hist)
    | None => err_render (s2b "unknown template") source (as_span name)
    end
  end.

(** ** Statements *)

(** How to render a template, by its name, in given variables, after the
    template function was asked for given names; yields the names asked for. *)
Definition rend := template -> option str -> stack -> list str -> rt (list str).

(** For every frame, in order, render the body with the frame added. *)
Fixpoint s_each (body : stack -> list str -> rt (list str)) (st : stack) (frs : list frame) (hist : list str)
  : rt (list str) :=
  match frs with
  | [] => RRet (Ok hist)
  | fr :: frs' => let% hist := body (fr :: st) hist in s_each body st frs' hist
  end.

Section Statements.
(** How to render an included template; [None] if no more includes are allowed. *)
Variable inc : option rend.
Variable source : str.
Variable tname : option str.

(** Errors of this template carry its name. *)
Definition here {A} (x : res A) : rt A := name_err tname (lift x).

Fixpoint s_stmt (s : stmt) (st : stack) (hist : list str) {struct s} : rt (list str) :=
  let s_scope := fix s_scope (l : list stmt) (st : stack) (hist : list str) {struct l} : rt (list str) :=
    match l with
    | [] => RRet (Ok hist)
    | s :: l' => let% hist := s_stmt s st hist in s_scope l' st hist
    end in
  match s with
  | SRaw sp =>
    let% raw := here (index_span source sp) in
    RWrite raw (RRet (Ok hist)) (here (Err mk_fmt_error))
  | SInline e _ =>
    let% _ := name_err tname (s_inline source st e) in
    RRet (Ok hist)
  | SInclude name w =>
    let% st' := match w with
                | None => RRet (Ok st)
                | Some e => let% c := here (s_expr source st e) in RRet (Ok (FrScope c :: FrBoundary :: st))
                end in
    let% (t, hist) := here (s_find source name hist) in
    match inc with
    | None => lift (err_max_include_depth (max_include_depth inner))
    | Some run => run t (Some (as_name name)) st' hist
    end
  | SIf neg c thn els =>
    let% v := here (s_expr source st c) in
    if xorb neg (as_bool (cow_val v)) then s_scope thn st hist
    else match els with Some l => s_scope l st hist | None => RRet (Ok hist) end
  | SFor vars e body =>
    let% c := here (s_expr source st e) in
    let% sp := here (expr_span e) in
    let% frs := here (s_loop source vars c sp) in
    s_each (s_scope body) st frs hist
  | SWith e name body =>
    let% c := here (s_expr source st e) in
    s_scope body (FrVar name c :: st) hist
  end.
Fixpoint s_scope (l : list stmt) (st : stack) (hist : list str) {struct l} : rt (list str) :=
  match l with
  | [] => RRet (Ok hist)
  | s :: l' => let% hist := s_stmt s st hist in s_scope l' st hist
  end.
End Statements.

(** [s_template d]: at most [d] nested includes below this template. *)
Fixpoint s_template (d : nat) (t : template) (tname : option str) (st : stack) (hist : list str) : rt (list str) :=
  s_scope (match d with 0 => None | S d' => Some (s_template d') end) (t_source t) tname (ast_of t) st hist.

(** A rendering from given variables: the root template is always allowed. *)
Definition s_render (st : stack) : rt unit :=
  let% _ := s_template (N.to_nat (max_include_depth inner) - 1) (ri_template inner) (ri_template_name inner) st [] in
  RRet (Ok tt).

End Interp.

(** ** Templates a renderer can reach *)

(** Everything an include can name. *)
Definition named (inner : renderer_inner) (t : template) : Prop :=
  (exists f h n, ri_template_fn inner = Some f /\ f h n = inl t) \/
  (ri_template_fn inner = None /\ exists n, map_get n (en_templates (ri_engine inner)) = Some t).
(** The root, and everything an include can name. *)
Definition provided (inner : renderer_inner) (t : template) : Prop :=
  t = ri_template inner \/ named inner t.
