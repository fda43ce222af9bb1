(** Specification for C59: where the error of a rendering points.

    Like FaultSpec.v, with places: the rules say which part of which statement of
    which template is at fault, in which variables. *)
From Verif Require Import Base Ext Errors Value Ast Fmt Stack Filters Render LookupSpec FilterSpec FaultSpec.

Section Places.
Context `{X : Ext}.
Variable inner : renderer_inner.
(** The statements of each template. *)
Variable ast_of : template -> scope.
Notation functions := (en_functions (ri_engine inner)).
Notation default := (en_default_formatter (ri_engine inner)).

(** The expression a statement evaluates first. *)
Definition header (s : stmt) : option expr :=
  match s with
  | SIf _ e _ _ | SFor _ e _ | SWith e _ _ | SInclude _ (Some e) => Some e
  | _ => None
  end.

(** What an include of a name finds. *)
Definition finds (asked : list str) (name : str) (r : template + str) : Prop :=
  match ri_template_fn inner with
  | Some f => f asked name = r
  | None => match map_get name (en_templates (ri_engine inner)) with Some t => r = inl t | None => r = inr (s2b "unknown template") end
  end.

(** [at_fault source st s k r sp]: in a template with the given source, in the variables
    [st], what [s] says at [sp] is wrong: kind and reason. *)
Inductive at_fault (source : str) (st : stack) : stmt -> ekind -> option str -> span -> Prop :=
(* the expression of [{{ .. }}]; see FilterSpec.v for the part of it *)
| af_show e sp k r esp : emits source functions default st e (EmError k r esp) -> at_fault source st (SInline e sp) k (Some r) esp
(* the formatter, where there is one, or the expression *)
| af_format e sp f v fsp m : emits source functions default st e (EmFormat f v fsp) -> refuses (f v) m -> at_fault source st (SInline e sp) KFormat m fsp
(* the expression of another statement *)
| af_header s e k r esp : header s = Some e -> evaluates source functions st e (EvError k r esp) -> at_fault source st s k (Some r) esp
(* the variables of a loop *)
| af_two_variables k v vsp e b c l : evaluates source functions st e (EvValue c) -> cow_val c = VList l ->
    at_fault source st (SFor (LVKeyValue k v vsp) e b) KRender (Some (s2b "cannot unpack list item into two variables")) vsp
| af_one_variable i e b c m : evaluates source functions st e (EvValue c) -> cow_val c = VMap m ->
    at_fault source st (SFor (LVItem i) e b) KRender (Some (s2b "cannot unpack map item into one variable")) (id_span i)
(* what is iterated over *)
| af_iterated vs e b c : evaluates source functions st e (EvValue c) -> (forall l, cow_val c <> VList l) -> (forall m, cow_val c <> VMap m) ->
    at_fault source st (SFor vs e b) KRender (Some (s2b "expected iterable, but expression evaluated to " ++ kind_word (cow_val c))) (expr_place e)
(* the name of an included template *)
| af_template name w asked r : finds asked (as_name name) (inr r) -> at_fault source st (SInclude name w) KRender (Some r) (as_span name).

(** [inside source l st s st']: with the variables [st] for the statements [l], the statement [s]
    in a block of [l] can have the variables [st']. *)
Inductive inside (source : str) : list stmt -> stack -> stmt -> stack -> Prop :=
| in_here l st s : In s l -> inside source l st s st
| in_then l st n c thn els v s st' : In (SIf n c thn els) l -> evaluates source functions st c (EvValue v) -> xorb n (as_bool (cow_val v)) = true ->
    inside source thn st s st' -> inside source l st s st'
| in_else l st n c thn els v s st' : In (SIf n c thn (Some els)) l -> evaluates source functions st c (EvValue v) -> xorb n (as_bool (cow_val v)) = false ->
    inside source els st s st' -> inside source l st s st'
| in_for l st i e body c items k x name s st' : In (SFor (LVItem i) e body) l -> evaluates source functions st e (EvValue c) ->
    cow_val c = VList items -> nth_error items k = Some x -> @index_span error source (id_span i) = Ok name ->
    inside source body (FrLoop (LList (is_owned c) name (S k) (skipn (S k) items) (Some (k, x))) :: st) s st' -> inside source l st s st'
| in_entries l st ki vi vsp e body c m k x kn vn s st' : In (SFor (LVKeyValue ki vi vsp) e body) l -> evaluates source functions st e (EvValue c) ->
    cow_val c = VMap m -> nth_error m k = Some x -> @index_span error source (id_span ki) = Ok kn -> @index_span error source (id_span vi) = Ok vn ->
    inside source body (FrLoop (LMap (is_owned c) kn vn (S k) (skipn (S k) m) (Some (k, x))) :: st) s st' -> inside source l st s st'
| in_with l st e x body c s st' : In (SWith e x body) l -> evaluates source functions st e (EvValue c) ->
    inside source body (FrVar x c :: st) s st' -> inside source l st s st'.

(** [gets_to st0 t n st depth]: rendering with the context [st0] can come to the template [t], under the
    name [n], with the variables [st], by [depth] nested includes. *)
Inductive gets_to (st0 : stack) : template -> option str -> stack -> nat -> Prop :=
| gt_root : gets_to st0 (ri_template inner) (ri_template_name inner) st0 0
| gt_include t n st depth name st' asked t' :
    gets_to st0 t n st depth -> inside (t_source t) (ast_of t) st (SInclude name None) st' ->
    finds asked (as_name name) (inl t') -> gets_to st0 t' (Some (as_name name)) st' (S depth)
| gt_include_with t n st depth name e c st' asked t' :
    gets_to st0 t n st depth -> inside (t_source t) (ast_of t) st (SInclude name (Some e)) st' ->
    evaluates (t_source t) functions st' e (EvValue c) ->
    finds asked (as_name name) (inl t') -> gets_to st0 t' (Some (as_name name)) (FrScope c :: FrBoundary :: st') (S depth).

(** [points st0 e sp t n]: the error [e] marks [sp] in the source of [t], named [n], and what is
    written there is at fault. *)
Definition points (st0 : stack) (e : error) (sp : span) (t : template) (n : option str) : Prop :=
  exists k r p st depth s st',
    gets_to st0 t n st depth /\ inside (t_source t) (ast_of t) st s st' /\ at_fault (t_source t) st' s k r sp /\
    build_pretty (t_source t) sp = Ok p /\ e = mkerror k n r (Some p).
(** An include at the depth limit. *)
Definition too_deep (st0 : stack) (e : error) : Prop :=
  exists t n st depth name w st',
    gets_to st0 t n st depth /\ inside (t_source t) (ast_of t) st (SInclude name w) st' /\
    N.of_nat (S depth) = N.max 1 (max_include_depth inner) /\
    e = mkerror KRender None (Some (s2b "reached maximum include depth (" ++ show_N (max_include_depth inner) ++ s2b ")")) None.
End Places.
