(** How much a rendering can have to do: its steps, the sizes of the lists and maps that can be looped over,
    and how deep loops are nested in templates. *)
From Verif Require Import Base Errors Value Ext Ast Fmt Stack Filters Render.

(** Every list and every map in the value, at any depth, has at most [n] items. *)
Inductive small (n : nat) : value -> Prop :=
| sm_none : small n VNone
| sm_bool b : small n (VBool b)
| sm_int z : small n (VInt z)
| sm_float f : small n (VFloat f)
| sm_str s : small n (VStr s)
| sm_list l : length l <= n -> Forall (small n) l -> small n (VList l)
| sm_map m : length m <= n -> Forall (fun kv => small n (snd kv)) m -> small n (VMap m).

(** The same of an argument of a filter. *)
Definition small_arg (n : nat) (a : arg_val) : Prop :=
  match a with
  | AvList l => small n (VList l)
  | AvMap m => small n (VMap m)
  | AvValue v => small n v
  | _ => True
  end.
(** A filter that makes no larger lists and maps of such arguments. *)
Definition modest (n : nat) (f : filter) : Prop :=
  forall r args v, small_arg n r -> Forall (small_arg n) args -> fl_run f r args = inl v -> small n v.
(** The same of a context. *)
Definition small_globals (n : nat) (g : globals) : Prop :=
  match g with
  | GOwned (Ok v) => small n v
  | GOwned _ => True
  | GBorrowed v => small n v
  | GFn f => forall path v, f path = inl v -> small n v
  end.

(** How deep loops are nested. *)
Fixpoint loop_depth (s : stmt) : nat :=
  match s with
  | SIf _ _ thn els => Nat.max (list_max (map loop_depth thn)) (match els with Some l => list_max (map loop_depth l) | None => 0 end)
  | SFor _ _ body => S (list_max (map loop_depth body))
  | SWith _ _ body => list_max (map loop_depth body)
  | _ => 0
  end.
Definition depth_of_loops (l : scope) : nat := list_max (map loop_depth l).
(** No [include], at any depth. *)
Fixpoint self_contained (s : stmt) : Prop :=
  let all := fix all (l : list stmt) : Prop := match l with [] => True | s :: l' => self_contained s /\ all l' end in
  match s with
  | SInclude _ _ => False
  | SIf _ _ thn els => all thn /\ match els with Some l => all l | None => True end
  | SFor _ _ body => all body
  | SWith _ _ body => all body
  | _ => True
  end.
Fixpoint all_self_contained (l : scope) : Prop := match l with [] => True | s :: l' => self_contained s /\ all_self_contained l' end.

(** ** Steps *)
Section Steps.
Context `{X : Ext}.
Variable inner : renderer_inner.
(** The rendering of Render.v as a machine that makes one step at a time: an instruction
    (render/core.rs 97-269), or the end of a template (render/core.rs 57-64); [steps] is how many
    it may make, those of included templates among them.  In Render.v [fuel] bounds the nesting of
    calls of the model's two loops, not the steps. *)
Fixpoint work (steps : nat) (ts : list activation) (st : stack) (ex : option cow) (hist : list str) : rt unit :=
  match ts with
  | [] => RRet (Ok tt)
  | mkact t tname pc hs :: rest =>
    match steps with
    | 0 => RRet OutOfFuel
    | S steps =>
      let% nx := name_err tname
        match nth_error (t_instrs t) pc with
        | Some i => exec_instr inner t i pc st ex
        | None => if pc =? length (t_instrs t) then RRet (Ok (NStop RsDone pc st)) else RRet Panic
        end in
      match nx with
      | NGo pc st ex => work steps (mkact t tname pc hs :: rest) st ex hist
      | NStop rs pc st =>
        let a := mkact t tname pc hs in
        let% (ts, st, hist) :=
          match rs with
          | RsDone =>
            if hs then
              let% st := lift (pop_scope st) in
              let% st := lift (pop_boundary st) in
              RRet (Ok (rest, st, hist))
            else RRet (Ok (rest, st, hist))
          | RsInclude name =>
            let% (t', hist) := name_err tname (lift (get_template inner (t_source t) name hist)) in
            RRet (Ok (mkact t' (Some (as_name name)) 0 false :: a :: rest, st, hist))
          | RsIncludeWith name globals =>
            let% (t', hist) := name_err tname (lift (get_template inner (t_source t) name hist)) in
            RRet (Ok (mkact t' (Some (as_name name)) 0 true :: a :: rest, FrScope globals :: FrBoundary :: st, hist))
          end in
        if (max_include_depth inner <? N.of_nat (length ts))%N
        then lift (err_max_include_depth (max_include_depth inner))
        else work steps ts st None hist
      end
    end
  end.
Definition whole (steps : nat) (st : stack) : rt unit :=
  work steps [mkact (ri_template inner) (ri_template_name inner) 0 false] st None [].
(** [to_string] and [to_writer] in at most so many steps. *)
Definition string_in (steps : nat) (g : globals) : res str :=
  let* st := initial_stack g in
  match run_string [] (whole steps st) with
  | (s, Ok tt) => Ok s
  | (_, Err e) => Err e
  | (_, Panic) => Panic
  | (_, OutOfFuel) => OutOfFuel
  end.
Definition writer_in (steps : nat) (g : globals) (k : sink) (w : sk_state k) : sk_state k * res unit :=
  match initial_stack g with
  | Ok st =>
    match run k w None (whole steps st) with
    | (w', Some code, Err _) => (w', Err (mk_io_error code))
    | (w', _, r) => (w', r)
    end
  | Err e => (w, Err e)
  | Panic => (w, Panic)
  | OutOfFuel => (w, OutOfFuel)
  end.
End Steps.
