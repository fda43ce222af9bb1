(** src/render/{stack,iter,value}.rs *)
From Verif Require Import Base Utf8 Ext Errors Value Ast Fmt.
From Coq Require Import Floats.SpecFloat.

(** lib.rs 280-310 [ValueMember], [ValueAccess], [ValueAccessOp] *)
Inductive vaccess := VAIndex (i : N) | VAKey (k : str).
Record vmember := mkvmember { vm_op : access_op; vm_access : vaccess }.

(** lib.rs 284 [ValueFn]: a user function from paths to values or error
    messages; assumed to be a function of the path (no interior mutability). *)
Definition value_fn := list vmember -> value + str.

(** render/iter.rs 14-50 [LoopState]: [owned] distinguishes the *Owned from the
    *Borrowed variants; [next] is the counter of [enumerate]; [iter] the items not
    yet yielded; [cur] the last item yielded with its index. *)
Inductive loop_state :=
| LList (owned : bool) (i : str) (next : nat) (iter : list value) (cur : option (nat * value))
| LMap (owned : bool) (k v : str) (next : nat) (iter : list (str * value))
       (cur : option (nat * (str * value))).

(** render/stack.rs 12-27 [State] *)
Inductive frame :=
| FrValueFn (f : value_fn)
| FrScope (c : cow)
| FrVar (name : ident) (c : cow)
| FrLoop (l : loop_state)
| FrBoundary.

(** render/stack.rs 7-10 [Stack]; the head is the top *)
Definition stack := list frame.

(** render/value.rs 6-15 [as_bool] *)
Definition as_bool (v : value) : bool :=
  match v with
  | VNone | VBool false | VInt 0 => false
  | VFloat (S754_zero _) => false
  | VStr [] => false
  | VList [] => false
  | VMap [] => false
  | _ => true
  end.

Section Stack.
Context `{X : Ext}.

(** [list.get(i)] with a [usize] index *)
Definition list_get {A} (l : list A) (i : N) : option A :=
  if (i <? N.of_nat (length l))%N then nth_error l (N.to_nat i) else None.

(** render/value.rs 95-137 [lookup] *)
Definition lookup (source : str) (v : value) (m : member) : res (option value) :=
  match v, mb_access m with
  | VList l, AIndex i _ =>
    match list_get l i, mb_op m with
    | Some x, _ => Ok (Some x)
    | None, Optional => Ok None
    | None, Direct =>
      err_render (s2b "index out of bounds, the length is " ++ show_nat (length l)) source (mb_span m)
    end
  | VMap mp, AKey id =>
    let* k := index_span source (id_span id) in
    match map_get k mp, mb_op m with
    | Some x, _ => Ok (Some x)
    | None, Optional => Ok None
    | None, Direct => err_render (s2b "not found in map") source (mb_span m)
    end
  | v, AIndex _ _ =>
    err_render (human v ++ s2b " does not support integer-based access") source (mb_span m)
  | v, AKey _ =>
    err_render (human v ++ s2b " does not support key-based access") source (mb_span m)
  end.

(** render/value.rs 33-59 [lookup_path]; the missing optional value is
    [Borrowed(&Value::None)] in both cases *)
Fixpoint lookup_path_loop (source : str) (owned : bool) (v : value) (path : list member) : res cow :=
  match path with
  | [] => Ok (if owned then Owned v else Borrowed v)
  | p :: path' =>
    let* r := lookup source v p in
    match r with
    | Some v' => lookup_path_loop source owned v' path'
    | None => Ok (Borrowed VNone)
    end
  end.
Definition is_owned (c : cow) : bool := match c with Owned _ => true | Borrowed _ => false end.
Definition lookup_path (source : str) (c : cow) (path : list member) : res cow :=
  lookup_path_loop source (is_owned c) (cow_val c) path.

(** render/value.rs 62-92 [lookup_path_maybe]; [first] is "i == 0" *)
Fixpoint lookup_path_maybe_loop (source : str) (owned : bool) (v : value) (path : list member)
    (first : bool) : res (option cow) :=
  match path with
  | [] => Ok (Some (if owned then Owned v else Borrowed v))
  | p :: path' =>
    match lookup source v p with
    | Ok (Some v') => lookup_path_maybe_loop source owned v' path' false
    | Ok None => if first then Ok None else Ok (Some (Borrowed VNone))
    | Err e => if first then Ok None else Err e
    | Panic => Panic
    | OutOfFuel => OutOfFuel
    end
  end.
Definition lookup_path_maybe (source : str) (c : cow) (path : list member) : res (option cow) :=
  lookup_path_maybe_loop source (is_owned c) (cow_val c) path true.

(** render/iter.rs 54-131 [LoopState::new] *)
Definition loop_new (source : str) (vars : loop_vars) (iterable : cow) (sp : span) : res loop_state :=
  let owned := is_owned iterable in
  match cow_val iterable with
  | VList l =>
    match vars with
    | LVItem item =>
      let* i := index_span source (id_span item) in
      Ok (LList owned i 0 l None)
    | LVKeyValue _ _ kvsp =>
      err_render (s2b "cannot unpack list item into two variables") source kvsp
    end
  | VMap m =>
    match vars with
    | LVItem item =>
      err_render (s2b "cannot unpack map item into one variable") source (id_span item)
    | LVKeyValue key value _ =>
      let* k := index_span source (id_span key) in
      let* v := index_span source (id_span value) in
      Ok (LMap owned k v 0 m None)
    end
  | v => err_render (s2b "expected iterable, but expression evaluated to " ++ human v) source sp
  end.

(** render/iter.rs 134-150 [iterate]; [None] when the iterator is exhausted *)
Definition iterate (l : loop_state) : option loop_state :=
  match l with
  | LList o i n iter _ =>
    match iter with
    | [] => None
    | x :: iter' => Some (LList o i (S n) iter' (Some (n, x)))
    end
  | LMap o k v n iter _ =>
    match iter with
    | [] => None
    | x :: iter' => Some (LMap o k v (S n) iter' (Some (n, x)))
    end
  end.

(** render/iter.rs 288-312 [current_index_and_rem] *)
Definition current_index_and_rem (l : loop_state) : option (nat * nat) :=
  match l with
  | LList _ _ _ iter (Some (i, _)) => Some (i, length iter)
  | LMap _ _ _ _ iter (Some (i, _)) => Some (i, length iter)
  | _ => None
  end.

(** render/iter.rs 240-286 [lookup_loop]; [i as i64] does not wrap because a Rust
    collection has fewer than 2^63 elements *)
Definition lookup_loop (l : loop_state) (source : str) (path : list member) : res (option cow) :=
  match current_index_and_rem l with
  | None => Ok None
  | Some (i, rem) =>
    match path with
    | [_] =>
      Ok (Some (Owned (VMap (map_of_list [(s2b "index", VInt (Z.of_nat i));
                                         (s2b "first", VBool (i =? 0));
                                         (s2b "last", VBool (rem =? 0))]))))
    | _ :: m :: rest =>
      match mb_access m with
      | AIndex _ _ => err_render (s2b "cannot index into map with integer") source (mb_span m)
      | AKey id =>
        let* name := index_span source (id_span id) in
        let* v :=
          (if str_eqb name (s2b "index") then Ok (VInt (Z.of_nat i))
           else if str_eqb name (s2b "first") then Ok (VBool (i =? 0))
           else if str_eqb name (s2b "last") then Ok (VBool (rem =? 0))
           else match mb_op m with
                | Optional => Ok VNone
                | Direct => err_render (s2b "not found in map") source (mb_span m)
                end) in
        match rest with
        | m2 :: _ => err_render (s2b "cannot index into " ++ human v) source (mb_span m2)
        | [] => Ok (Some (Owned v))
        end
      end
    | [] => Panic
    end
  end.

(** render/iter.rs 162-173: the macro [resolve!]; [None] = "return Ok(None)" *)
Fixpoint resolve (source : str) (v : value) (rest : list member) : res (option value) :=
  match rest with
  | [] => Ok (Some v)
  | m :: rest' =>
    let* r := lookup source v m in
    match r with
    | Some v' => resolve source v' rest'
    | None => Ok None
    end
  end.

Definition mk_cow (owned : bool) (v : value) : cow := if owned then Owned v else Borrowed v.

(** render/iter.rs 152-238 [LoopState::lookup_var] *)
Definition loop_lookup_var (l : loop_state) (source : str) (v : var) : res (option cow) :=
  let* first := var_first v in
  match mb_access first with
  | AIndex _ _ => Ok None
  | AKey id =>
    let* name := index_span source (id_span id) in
    if str_eqb name (s2b "loop") then lookup_loop l source v
    else
      match l with
      | LList o i _ _ (Some (_, value)) =>
        if str_eqb name i then
          let* r := resolve source value (var_rest v) in
          Ok (option_map (mk_cow o) r)
        else Ok None
      | LMap o k vn _ _ (Some (_, (key, value))) =>
        if str_eqb name k then
          match var_rest v with
          | m :: _ => err_render (s2b "cannot index into string") source (mb_span m)
          | [] => Ok (Some (Owned (VStr key)))
          end
        else if str_eqb name vn then
          let* r := resolve source value (var_rest v) in
          Ok (option_map (mk_cow o) r)
        else Ok None
      | _ => Ok None
      end
  end.

(** render/stack.rs 60-76: the path given to a [ValueFn] *)
Fixpoint value_path (source : str) (path : list member) : res (list vmember) :=
  match path with
  | [] => Ok []
  | m :: path' =>
    let* a := match mb_access m with
              | AIndex i _ => Ok (VAIndex i)
              | AKey id => let* k := index_span source (id_span id) in Ok (VAKey k)
              end in
    let* rest := value_path source path' in
    Ok (mkvmember (mb_op m) a :: rest)
  end.

(** render/stack.rs 106-110 *)
Definition err_not_found {A} (source : str) (v : var) : res A :=
  let* first := var_first v in
  err_render (s2b "not found in this scope") source (mb_span first).

(** render/stack.rs 56-111 [Stack::lookup_var] *)
Fixpoint lookup_var (st : stack) (source : str) (v : var) : res cow :=
  match st with
  | [] => err_not_found source v
  | FrValueFn f :: _ =>
    let* path := value_path source v in
    match f path with
    | inl x => Ok (Owned x)
    | inr reason => let* sp := var_span v in err_render reason source sp
    end
  | FrScope c :: st' =>
    let* r := lookup_path_maybe source c v in
    match r with
    | Some x => Ok x
    | None => lookup_var st' source v
    end
  | FrVar name c :: st' =>
    let* first := var_first v in
    let* a := index_span source (access_span (mb_access first)) in
    let* b := index_span source (id_span name) in
    if str_eqb a b then lookup_path source c (var_rest v) else lookup_var st' source v
  | FrLoop l :: st' =>
    let* r := loop_lookup_var l source v in
    match r with
    | Some x => Ok x
    | None => lookup_var st' source v
    end
  | FrBoundary :: _ => err_not_found source v
  end.

End Stack.

(** render/stack.rs 117-147: the pop operations; panics when the top is not the
    expected kind of frame *)
Definition pop_scope (st : stack) : res stack :=
  match st with FrScope _ :: st' => Ok st' | _ => Panic end.
Definition pop_var (st : stack) : res stack :=
  match st with FrVar _ _ :: st' => Ok st' | _ => Panic end.
Definition pop_loop_state (st : stack) : res stack :=
  match st with FrLoop _ :: st' => Ok st' | _ => Panic end.
Definition pop_boundary (st : stack) : res stack :=
  match st with FrBoundary :: st' => Ok st' | _ => Panic end.
(** render/stack.rs 117-122 [last_loop_state_mut] *)
Definition last_loop_state (st : stack) : res loop_state :=
  match st with FrLoop l :: _ => Ok l | _ => Panic end.
