(** Specification for C57: what a template needs, and when a context has it.

    A shape says something about a value.  The rules say which shape an expression
    has when the variables have given shapes, and when a template suits given
    shapes: everything it asks for is there. *)
From Verif Require Import Base Ext Errors Value Fmt Stack Filters Render LookupSpec FilterSpec OriginSpec Meaning.

(** ** Shapes *)
Inductive shape :=
| Anything
| Printable                              (* none, a boolean, a number or a string *)
| Truth | Whole | Text
| ListOf (s : shape)                     (* a list of such values *)
| Items (l : list shape)                 (* a list that begins with such values *)
| MapOf (s : shape)                      (* a map to such values *)
| Fields (l : list (str * shape))        (* a map with at least these members *)
| Maybe (s : shape).                     (* none, or such a value *)

Fixpoint has (v : value) (s : shape) {struct s} : Prop :=
  match s with
  | Anything => True
  | Printable => match v with VList _ | VMap _ => False | _ => True end
  | Truth => exists b, v = VBool b
  | Whole => exists z, v = VInt z
  | Text => exists t, v = VStr t
  | ListOf s => exists l, v = VList l /\ Forall (fun x => has x s) l
  | Items ss => exists l, v = VList l /\
      (fix begins (ss : list shape) (l : list value) : Prop :=
        match ss, l with
        | [], _ => True
        | s :: ss', x :: l' => has x s /\ begins ss' l'
        | _ :: _, [] => False
        end) ss l
  | MapOf s => exists m, v = VMap m /\ forall k x, In (k, x) m -> has x s
  | Fields fs => exists m, v = VMap m /\
      (fix all (fs : list (str * shape)) : Prop :=
        match fs with
        | [] => True
        | (k, s) :: fs' => (exists x, map_get k m = Some x /\ has x s) /\ all fs'
        end) fs
  | Maybe s => v = VNone \/ has v s
  end.

(** [walk s path s']: from every value of shape [s] the path leads to one of shape
    [s'].  [may_walk]: or an optional member on the way is missing. *)
Inductive walk : shape -> list pstep -> shape -> Prop :=
| wk_end s : walk s [] s
| wk_field fs k s o path s' : map_get k fs = Some s -> walk s path s' -> walk (Fields fs) (mkpstep o (KName k) :: path) s'
| wk_item ss i s o path s' : nth_error ss (N.to_nat i) = Some s -> walk s path s' -> walk (Items ss) (mkpstep o (KIndex i) :: path) s'.
Inductive may_walk : shape -> list pstep -> shape -> Prop :=
| mk_end s : may_walk s [] s
| mk_field fs k s o path s' : map_get k fs = Some s -> may_walk s path s' -> may_walk (Fields fs) (mkpstep o (KName k) :: path) s'
| mk_item ss i s o path s' : nth_error ss (N.to_nat i) = Some s -> may_walk s path s' -> may_walk (Items ss) (mkpstep o (KIndex i) :: path) s'
| mk_any_key s k path s' : may_walk s path s' -> may_walk (MapOf s) (mkpstep true (KName k) :: path) s'
| mk_any_index s i path s' : may_walk s path s' -> may_walk (ListOf s) (mkpstep true (KIndex i) :: path) s'
| mk_other_key fs k : map_get k fs = None -> may_walk (Fields fs) [mkpstep true (KName k)] Anything.

(** ** Promises *)

(** The variables in sight, innermost first, and their shapes; the mark says that
    it is a variable of a loop, for which a missing optional member is searched for
    outside of the loop (C20). *)
Record known := mkknown { kn_loop : bool; kn_shape : shape }.
Definition scope_shape := list (str * known).
(** [provides sc need]: the variables [need] are among [sc], with at least those shapes. *)
Definition at_least (s s' : shape) : Prop := forall v, has v s -> has v s'.
Definition provides (sc need : scope_shape) : Prop :=
  forall x k', map_get x need = Some k' ->
    exists k, map_get x sc = Some k /\ (kn_loop k = true -> kn_loop k' = true) /\ at_least (kn_shape k) (kn_shape k').
(** The members of a value as variables. *)
Definition members (fs : list (str * shape)) : scope_shape := map (fun f => (fst f, mkknown false (snd f))) fs.

(** What is promised about an engine: filters give, for a value and arguments of
    given shapes, a value of a given shape; formatters can format values of given
    shapes; templates need given variables and nest includes at most so deep. *)
Record promises := mkpromises {
  p_filters : list (str * (shape * list shape * shape));
  p_formatters : list (str * shape);
  p_default : shape;
  p_templates : list (str * (scope_shape * nat)) }.

(** ** Rules *)
Section Rules.
Variable P : promises.

Inductive atom_has (sc : scope_shape) : patom -> shape -> Prop :=
| ah_lit v s : has v s -> atom_has sc (PLit v) s
| ah_var x k path s : map_get x sc = Some k -> walk (kn_shape k) path s -> atom_has sc (PVar x path) s
| ah_optional x k path s : map_get x sc = Some k -> kn_loop k = false -> may_walk (kn_shape k) path s -> atom_has sc (PVar x path) (Maybe s)
| ah_less a s s' : atom_has sc a s -> at_least s s' -> atom_has sc a s'.
Inductive expr_has (sc : scope_shape) : pexpr -> shape -> Prop :=
| eh_atom a s : atom_has sc a s -> expr_has sc (PAtom a) s
| eh_call e r f l args s : expr_has sc e r -> In (f, (r, args, s)) (p_filters P) -> Forall2 (atom_has sc) l args ->
    expr_has sc (PCall e f (Some l)) s
| eh_call_none e r f s : expr_has sc e r -> In (f, (r, [], s)) (p_filters P) -> expr_has sc (PCall e f None) s
| eh_less e s s' : expr_has sc e s -> at_least s s' -> expr_has sc e s'.

Definition loop_shape : shape := Fields [(s2b "first", Truth); (s2b "index", Whole); (s2b "last", Truth)].

(** [suits depth sc s]: the statement can be rendered where the variables [sc] are in
    sight, with at most [depth] nested includes. *)
Variable depth : nat.
Fixpoint suits (sc : scope_shape) (s : pstmt) {struct s} : Prop :=
  let all := fix all (sc : scope_shape) (l : list pstmt) : Prop :=
    match l with [] => True | s :: l' => suits sc s /\ all sc l' end in
  match s with
  | PText _ => True
  | PShow e =>
    expr_has sc e (p_default P) \/
    exists e' f s, e = PCall e' f None /\ In (f, s) (p_formatters P) /\ expr_has sc e' s
  | PInclude n None => exists need d, In (n, (need, d)) (p_templates P) /\ d < depth /\ provides sc need
  | PInclude n (Some e) => exists need d fs, In (n, (need, d)) (p_templates P) /\ d < depth /\
      expr_has sc e (Fields fs) /\ provides (members fs) need
  | PIf _ c thn els => (exists s, expr_has sc c s) /\ all sc thn /\ match els with Some l => all sc l | None => True end
  | PFor x e body => exists s, expr_has sc e (ListOf s) /\
      all ((s2b "loop", mkknown true loop_shape) :: (x, mkknown true s) :: sc) body
  | PForEntries kn vn e body => exists s, expr_has sc e (MapOf s) /\
      all ((s2b "loop", mkknown true loop_shape) :: (kn, mkknown true Text) :: (vn, mkknown true s) :: sc) body
  | PWith e x body => exists s, expr_has sc e s /\ all ((x, mkknown false s) :: sc) body
  end.
Fixpoint suits_all (sc : scope_shape) (l : list pstmt) : Prop :=
  match l with [] => True | s :: l' => suits sc s /\ suits_all sc l' end.
End Rules.

(** ** The promises are kept *)

(** The arguments as the types of the parameters. *)
Inductive passed `{X : Ext} : list arg_ty -> list cow -> list arg_val -> Prop :=
| pd_nil : passed [] [] []
| pd_cons t c a ts cs l : passes t c a -> passed ts cs l -> passed (t :: ts) (c :: cs) (a :: l).
(** A filter takes a value and arguments (owned or borrowed) of the given shapes and
    gives a value of the given shape. *)
Definition filter_keeps `{X : Ext} (f : filter) (r : shape) (args : list shape) (s : shape) : Prop :=
  length (fl_args f) = length args /\
  forall v cs, has v r -> Forall2 (fun c a => has (cow_val c) a) cs args ->
    exists a avs v', fits (fl_recv f) v a /\ passed (fl_args f) cs avs /\ fl_run f a avs = inl v' /\ has v' s.
(** A formatter formats values of the given shape without an error of its own. *)
Definition formatter_keeps (f : formatter) (s : shape) : Prop := forall v, has v s -> exists out, says (f v) out.
