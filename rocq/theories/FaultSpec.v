(** Specification for C58: what must be true when a rendering fails with a given
    kind and reason.

    The rules look at the templates, the functions of the engine and the context:
    they say which statement of which template is to blame, in which variables, and
    what is wrong with it there. *)
From Verif Require Import Base Ext Errors Value Ast Fmt Stack Filters Render LookupSpec FilterSpec Meaning.

(** ** Variables *)

(** What a block binds a name to. *)
Inductive bound :=
| Named (v : value)            (* [with .. as name] *)
| Item (v : value)             (* the item of a round of a loop *)
| Key (k : str)                (* the key of a round of a loop over a map *)
| Round (i rem : nat).         (* [loop], after [i] rounds and with [rem] to come *)
(** The variables of the blocks around, innermost first. *)
Definition vars := list (str * bound).

(** [sees rest x vs b]: [x] is bound to [b] by the innermost block that binds it, where
    items of loops do not count if [x.rest] is missing an optional member (this is
    how the code does it, see C20). *)
Inductive sees (rest : list pstep) (x : str) : vars -> option bound -> Prop :=
| se_none : sees rest x [] None
| se_here b vs : (forall v, b = Item v -> follow v rest <> Absent) -> sees rest x ((x, b) :: vs) (Some b)
| se_outer y b vs r : y <> x -> sees rest x vs r -> sees rest x ((y, b) :: vs) r
| se_skip v vs r : follow v rest = Absent -> sees rest x vs r -> sees rest x ((x, Item v) :: vs) r.

(** The context. *)
Definition context_entry (g : globals) (x : str) : option value :=
  match g with GOwned (Ok v) | GBorrowed v => entry v x | _ => None end.
Definition is_function (g : globals) : bool := match g with GFn _ => true | _ => false end.

(** [x.rest] has the value [v]. *)
Inductive var_value (g : globals) (vs : vars) (x : str) (rest : list pstep) : value -> Prop :=
| vv_block b u v : sees rest x vs (Some b) -> b = Named u \/ b = Item u -> follow u rest = Found v -> var_value g vs x rest v
| vv_skipped u : sees rest x vs (Some (Named u)) -> follow u rest = Absent -> var_value g vs x rest VNone
| vv_key k : sees rest x vs (Some (Key k)) -> rest = [] -> var_value g vs x rest (VStr k)
| vv_loop i rem c : sees rest x vs (Some (Round i rem)) -> loop_path i rem rest = inl c -> var_value g vs x rest (cow_val c)
| vv_context u v : sees rest x vs None -> context_entry g x = Some u -> follow u rest = Found v -> var_value g vs x rest v
| vv_context_skipped u : sees rest x vs None -> context_entry g x = Some u -> follow u rest = Absent -> var_value g vs x rest VNone
| vv_function f v : sees rest x vs None -> g = GFn f -> f (mkvmember Direct (VAKey x) :: map vstep rest) = inl v -> var_value g vs x rest v.

(** Something is wrong with [x.rest]. *)
Inductive var_fault (g : globals) (vs : vars) (x : str) (rest : list pstep) : str -> Prop :=
(* no block binds it and the context does not have it *)
| vf_nowhere : sees rest x vs None -> is_function g = false -> context_entry g x = None -> var_fault g vs x rest (s2b "not found in this scope")
(* a member on the way is missing, or there is a value without members on the way *)
| vf_context u r : sees rest x vs None -> context_entry g x = Some u -> follow u rest = Stuck r -> var_fault g vs x rest r
| vf_block b u r : sees rest x vs (Some b) -> b = Named u \/ b = Item u -> follow u rest = Stuck r -> var_fault g vs x rest r
| vf_loop i rem r : sees rest x vs (Some (Round i rem)) -> loop_path i rem rest = inr r -> var_fault g vs x rest r
| vf_key k : sees rest x vs (Some (Key k)) -> rest <> [] -> var_fault g vs x rest (s2b "cannot index into string")
(* the function that stands for the context refuses *)
| vf_function f r : sees rest x vs None -> g = GFn f -> f (mkvmember Direct (VAKey x) :: map vstep rest) = inr r -> var_fault g vs x rest r.

Section Faults.
Context `{X : Ext}.
Variable w : world.

(** ** Expressions *)

(** The value of an argument; whether it is borrowed is left open for variables. *)
Inductive atom_value (g : globals) (vs : vars) : patom -> cow -> Prop :=
| av_lit v : atom_value g vs (PLit v) (Borrowed v)
| av_var x rest c : var_value g vs x rest (cow_val c) -> atom_value g vs (PVar x rest) c.
Inductive args_value (g : globals) (vs : vars) : list arg_ty -> list patom -> list arg_val -> Prop :=
| as_nil : args_value g vs [] [] []
| as_cons t tys a l c v avs : atom_value g vs a c -> passes t c v -> args_value g vs tys l avs -> args_value g vs (t :: tys) (a :: l) (v :: avs).
Definition args_of (a : option (list patom)) : list patom := match a with Some l => l | None => [] end.
Inductive has_value (g : globals) (vs : vars) : pexpr -> value -> Prop :=
| hv_lit v : has_value g vs (PAtom (PLit v)) v
| hv_var x rest v : var_value g vs x rest v -> has_value g vs (PAtom (PVar x rest)) v
| hv_call e f a fl u av avs v : has_value g vs e u -> w_function w f = Some (EFilter fl) -> fits (fl_recv fl) u av ->
    args_value g vs (fl_args fl) (args_of a) avs -> fl_run fl av avs = inl v -> has_value g vs (PCall e f a) v.

(** Something is wrong with an expression: the kind of the error and its reason. *)
Inductive call_fault (g : globals) (vs : vars) (e : pexpr) (f : filter) (l : list patom) : ekind -> str -> Prop :=
| cf_number : length l <> length (fl_args f) ->
    call_fault g vs e f l KRender (s2b "filter expected " ++ show_nat (length (fl_args f)) ++ s2b " arguments")
| cf_receiver v r : has_value g vs e v -> unfit (s2b "value") (fl_recv f) v r -> call_fault g vs e f l KRender r
| cf_missing x rest r : In (PVar x rest) l -> var_fault g vs x rest r -> call_fault g vs e f l KRender r
| cf_argument i a t c r : nth_error l i = Some a -> nth_error (fl_args f) i = Some t -> atom_value g vs a c -> refused t c r ->
    call_fault g vs e f l KRender r
(* the filter itself says so *)
| cf_filter v a avs r : has_value g vs e v -> fits (fl_recv f) v a -> args_value g vs (fl_args f) l avs -> fl_run f a avs = inr r ->
    call_fault g vs e f l KFilter r.
Inductive expr_fault (g : globals) (vs : vars) : pexpr -> ekind -> str -> Prop :=
| ef_var x rest r : var_fault g vs x rest r -> expr_fault g vs (PAtom (PVar x rest)) KRender r
| ef_receiver e f a k r : expr_fault g vs e k r -> expr_fault g vs (PCall e f a) k r
| ef_unknown e f a : w_function w f = None -> expr_fault g vs (PCall e f a) KRender (s2b "unknown filter")
| ef_formatter e f a fm : w_function w f = Some (EFormatter fm) -> expr_fault g vs (PCall e f a) KRender (s2b "expected filter, found formatter")
| ef_call e f a fl k r : w_function w f = Some (EFilter fl) -> call_fault g vs e fl (args_of a) k r -> expr_fault g vs (PCall e f a) k r.

(** ** Statements *)

(** [refuses p m]: a formatter that does [p] fails with the message [m] although no
    write fails. *)
Inductive refuses : fmt_prog -> option str -> Prop :=
| rf_fail m : refuses (FFail m) m
| rf_write s ok err m : refuses ok m -> refuses (FWrite s ok err) m.

Inductive stmt_fault (g : globals) (vs : vars) : pstmt -> ekind -> option str -> Prop :=
| sf_show e k r : expr_fault g vs e k r -> stmt_fault g vs (PShow e) k (Some r)
| sf_unknown e f : w_function w f = None -> stmt_fault g vs (PShow (PCall e f None)) KRender (Some (s2b "unknown filter or formatter"))
| sf_default e v m : has_value g vs e v -> refuses (w_default w v) m -> stmt_fault g vs (PShow e) KFormat m
| sf_formatter e f fm v m : has_value g vs e v -> w_function w f = Some (EFormatter fm) -> refuses (fm v) m ->
    stmt_fault g vs (PShow (PCall e f None)) KFormat m
| sf_argument n e k r : expr_fault g vs e k r -> stmt_fault g vs (PInclude n (Some e)) k (Some r)
| sf_no_template n a asked r : w_find w asked n = inr r -> stmt_fault g vs (PInclude n a) KRender (Some r)
| sf_if n c thn els k r : expr_fault g vs c k r -> stmt_fault g vs (PIf n c thn els) k (Some r)
| sf_for x e b k r : expr_fault g vs e k r -> stmt_fault g vs (PFor x e b) k (Some r)
| sf_not_list x e b v : has_value g vs e v -> (forall l, v <> VList l) -> stmt_fault g vs (PFor x e b) KRender (Some (no_iteration v))
| sf_entries kn vn e b k r : expr_fault g vs e k r -> stmt_fault g vs (PForEntries kn vn e b) k (Some r)
| sf_not_map kn vn e b v : has_value g vs e v -> (forall m, v <> VMap m) -> stmt_fault g vs (PForEntries kn vn e b) KRender (Some (no_iteration v))
| sf_with e x b k r : expr_fault g vs e k r -> stmt_fault g vs (PWith e x b) k (Some r).

(** [within g l vs s vs']: with the variables [vs] for the statements [l], the statement
    [s] in a block of [l] can have the variables [vs']. *)
Inductive within (g : globals) : list pstmt -> vars -> pstmt -> vars -> Prop :=
| wi_here l vs s : In s l -> within g l vs s vs
| wi_then l vs n c thn els v s vs' : In (PIf n c thn els) l -> has_value g vs c v -> xorb n (as_bool v) = true ->
    within g thn vs s vs' -> within g l vs s vs'
| wi_else l vs n c thn els v s vs' : In (PIf n c thn (Some els)) l -> has_value g vs c v -> xorb n (as_bool v) = false ->
    within g els vs s vs' -> within g l vs s vs'
| wi_for l vs x e body items i v s vs' : In (PFor x e body) l -> has_value g vs e (VList items) -> nth_error items i = Some v ->
    within g body ((s2b "loop", Round i (length items - S i)) :: (x, Item v) :: vs) s vs' -> within g l vs s vs'
| wi_entries l vs kn vn e body m i k v s vs' : In (PForEntries kn vn e body) l -> has_value g vs e (VMap m) -> nth_error m i = Some (k, v) ->
    within g body ((s2b "loop", Round i (length m - S i)) :: (kn, Key k) :: (vn, Item v) :: vs) s vs' -> within g l vs s vs'
| wi_with l vs e x body v s vs' : In (PWith e x body) l -> has_value g vs e v -> within g body ((x, Named v) :: vs) s vs' -> within g l vs s vs'.

(** [reached c root rname n l g vs depth]: rendering [root], named [rname], with the
    context [c] can come to the statements [l] of the template [n] by [depth] nested
    includes, with the context [g] and the variables [vs]. *)
Inductive reached (c : globals) (root : list pstmt) (rname : option str) : option str -> list pstmt -> globals -> vars -> nat -> Prop :=
| re_root : reached c root rname rname root c [] 0
| re_include n l g vs depth m vs' asked l' asked' :
    reached c root rname n l g vs depth -> within g l vs (PInclude m None) vs' ->
    w_find w asked m = inl (l', asked') -> reached c root rname (Some m) l' g vs' (S depth)
| re_include_with n l g vs depth m e v vs' asked l' asked' :
    reached c root rname n l g vs depth -> within g l vs (PInclude m (Some e)) vs' -> has_value g vs' e v ->
    w_find w asked m = inl (l', asked') -> reached c root rname (Some m) l' (GBorrowed v) [] (S depth).

(** [blames c root rname e]: the error [e] of rendering [root] with the context [c] is due to a
    fault of a statement of the template that the error names; or includes nest too
    deep. *)
Inductive blames (c : globals) (root : list pstmt) (rname : option str) (e : error) : Prop :=
| bl_fault n l g vs depth s vs' :
    reached c root rname n l g vs depth -> within g l vs s vs' -> stmt_fault g vs' s (e_kind e) (e_reason e) ->
    e_name e = n -> blames c root rname e
| bl_deep n l g vs depth m a vs' :
    reached c root rname n l g vs depth -> within g l vs (PInclude m a) vs' ->
    N.of_nat (S depth) = N.max 1 (w_limit w) ->
    e_kind e = KRender -> e_reason e = Some (s2b "reached maximum include depth (" ++ show_N (w_limit w) ++ s2b ")") ->
    e_name e = None -> blames c root rname e.
End Faults.
