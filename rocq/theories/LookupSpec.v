(** Specification of variable lookup, as rules. *)
From Verif Require Import Base Utf8 Ext Errors Value Ast Fmt Stack.

(** ** Following a path into a value *)

Inductive walked :=
| WFound (v : value)                     (* the value at the end of the path *)
| WAbsent                                (* an optional member is missing *)
| WStuck (reason : str) (sp : span).     (* an error, and the member it is about *)

(** What a kind of value is called in messages. *)
Definition kind_word (v : value) : str :=
  match v with
  | VNone => s2b "none" | VBool _ => s2b "bool" | VInt _ => s2b "integer" | VFloat _ => s2b "float"
  | VStr _ => s2b "string" | VList _ => s2b "list" | VMap _ => s2b "map"
  end.

Section Lookup.
Variable source : str.

(** [names m k]: the member [m] is written with the key [k] in the source. *)
Definition names (m : member) (k : str) : Prop := exists id, mb_access m = AKey id /\ @index_span error source (id_span id) = Ok k.
Definition indexes (m : member) (i : N) : Prop := exists sp, mb_access m = AIndex i sp.

(** The form in which a member is passed to a value function. *)
Definition reads (m : member) (vm : vmember) : Prop :=
  (exists k, names m k /\ vm = mkvmember (mb_op m) (VAKey k)) \/
  (exists i, indexes m i /\ vm = mkvmember (mb_op m) (VAIndex i)).

Inductive walks : value -> list member -> walked -> Prop :=
| w_end v : walks v [] (WFound v)
| w_index l m ms i x r : indexes m i -> nth_error l (N.to_nat i) = Some x -> walks x ms r -> walks (VList l) (m :: ms) r
| w_key mp m ms k x r : names m k -> map_get k mp = Some x -> walks x ms r -> walks (VMap mp) (m :: ms) r
| w_no_index l m ms i : indexes m i -> nth_error l (N.to_nat i) = None -> mb_op m = Direct ->
    walks (VList l) (m :: ms) (WStuck (s2b "index out of bounds, the length is " ++ show_nat (length l)) (mb_span m))
| w_no_index_opt l m ms i : indexes m i -> nth_error l (N.to_nat i) = None -> mb_op m = Optional ->
    walks (VList l) (m :: ms) WAbsent
| w_no_key mp m ms k : names m k -> map_get k mp = None -> mb_op m = Direct ->
    walks (VMap mp) (m :: ms) (WStuck (s2b "not found in map") (mb_span m))
| w_no_key_opt mp m ms k : names m k -> map_get k mp = None -> mb_op m = Optional ->
    walks (VMap mp) (m :: ms) WAbsent
| w_not_list v m ms i : indexes m i -> (forall l, v <> VList l) ->
    walks v (m :: ms) (WStuck (kind_word v ++ s2b " does not support integer-based access") (mb_span m))
| w_not_map v m ms k : names m k -> (forall mp, v <> VMap mp) ->
    walks v (m :: ms) (WStuck (kind_word v ++ s2b " does not support key-based access") (mb_span m)).

(** ** Finding the variable *)

Inductive answer :=
| AnValue (c : cow)
| AnError (reason : str) (sp : span).

(** The answer for a value that is owned or borrowed. *)
Inductive answers (o : bool) : walked -> answer -> Prop :=
| an_found v : answers o (WFound v) (AnValue (mk_cow o v))
| an_absent : answers o WAbsent (AnValue (Borrowed VNone))
| an_stuck r sp : answers o (WStuck r sp) (AnError r sp).

(** The value stored under a name in a scope. *)
Definition entry (v : value) (name : str) : option value := match v with VMap m => map_get name m | _ => None end.

(** The fields of [loop] in iteration [i] when [rem] items are left. *)
Definition loop_field (i rem : nat) (k : str) : option value :=
  if str_eqb k (s2b "index") then Some (VInt (Z.of_nat i))
  else if str_eqb k (s2b "first") then Some (VBool (i =? 0))
  else if str_eqb k (s2b "last") then Some (VBool (rem =? 0))
  else None.
Inductive loop_answers (i rem : nat) : list member -> answer -> Prop :=
| la_whole : loop_answers i rem [] (AnValue (Owned (VMap [(s2b "first", VBool (i =? 0)); (s2b "index", VInt (Z.of_nat i)); (s2b "last", VBool (rem =? 0))])))
| la_field m k v : names m k -> loop_field i rem k = Some v -> loop_answers i rem [m] (AnValue (Owned v))
| la_unknown_opt m k : names m k -> loop_field i rem k = None -> mb_op m = Optional -> loop_answers i rem [m] (AnValue (Owned VNone))
| la_unknown m ms k : names m k -> loop_field i rem k = None -> mb_op m = Direct ->
    loop_answers i rem (m :: ms) (AnError (s2b "not found in map") (mb_span m))
| la_index m ms n : indexes m n -> loop_answers i rem (m :: ms) (AnError (s2b "cannot index into map with integer") (mb_span m))
| la_field_more m m2 ms k v : names m k -> loop_field i rem k = Some v ->
    loop_answers i rem (m :: m2 :: ms) (AnError (s2b "cannot index into " ++ kind_word v) (mb_span m2))
| la_unknown_more m m2 ms k : names m k -> loop_field i rem k = None -> mb_op m = Optional ->
    loop_answers i rem (m :: m2 :: ms) (AnError (s2b "cannot index into none") (mb_span m2)).

(** The variable of a loop frame with the given name, in its current iteration. *)
Definition loop_item (l : loop_state) (name : str) : option (bool * value) :=
  match l with
  | LList o i _ _ (Some (_, x)) => if str_eqb name i then Some (o, x) else None
  | LMap o k v _ _ (Some (_, (_, x))) => if str_eqb name k then None else if str_eqb name v then Some (o, x) else None
  | _ => None
  end.
Definition loop_key (l : loop_state) (name : str) : option str :=
  match l with LMap _ k _ _ _ (Some (_, (key, _))) => if str_eqb name k then Some key else None | _ => None end.
Definition loop_position (l : loop_state) : option (nat * nat) :=
  match l with
  | LList _ _ _ items (Some (i, _)) => Some (i, length items)
  | LMap _ _ _ _ items (Some (i, _)) => Some (i, length items)
  | _ => None
  end.

(** [looks st first rest a]: in the variables [st] the path [first.rest] means [a].
    The innermost frame that has the name decides. *)
Inductive looks (first : member) (name : str) (rest : list member) : stack -> answer -> Prop :=
| lk_nothing : looks first name rest [] (AnError (s2b "not found in this scope") (mb_span first))
| lk_boundary st : looks first name rest (FrBoundary :: st) (AnError (s2b "not found in this scope") (mb_span first))
(* a [with] variable *)
| lk_with id c st w a : @index_span error source (id_span id) = Ok name -> walks (cow_val c) rest w -> answers (is_owned c) w a ->
    looks first name rest (FrVar id c :: st) a
| lk_with_other id c st n a : @index_span error source (id_span id) = Ok n -> n <> name -> looks first name rest st a ->
    looks first name rest (FrVar id c :: st) a
(* the fields of a value *)
| lk_scope c st x w a : entry (cow_val c) name = Some x -> walks x rest w -> answers (is_owned c) w a ->
    looks first name rest (FrScope c :: st) a
| lk_scope_other c st a : entry (cow_val c) name = None -> looks first name rest st a ->
    looks first name rest (FrScope c :: st) a
(* loop variables *)
| lk_loop l st i rem a : name = s2b "loop" -> loop_position l = Some (i, rem) -> loop_answers i rem rest a ->
    looks first name rest (FrLoop l :: st) a
| lk_item l st o x w a : name <> s2b "loop" -> loop_item l name = Some (o, x) -> walks x rest w -> w <> WAbsent -> answers o w a ->
    looks first name rest (FrLoop l :: st) a
(* in the code, a missing optional member of a loop variable continues the search
   outside the loop (see C20) *)
| lk_item_absent l st o x a : name <> s2b "loop" -> loop_item l name = Some (o, x) -> walks x rest WAbsent -> looks first name rest st a ->
    looks first name rest (FrLoop l :: st) a
| lk_key l st k : name <> s2b "loop" -> loop_key l name = Some k -> rest = [] ->
    looks first name rest (FrLoop l :: st) (AnValue (Owned (VStr k)))
| lk_key_more l st k m ms : name <> s2b "loop" -> loop_key l name = Some k -> rest = m :: ms ->
    looks first name rest (FrLoop l :: st) (AnError (s2b "cannot index into string") (mb_span m))
| lk_loop_other l st a : (if str_eqb name (s2b "loop") then loop_position l = None else loop_item l name = None /\ loop_key l name = None) ->
    looks first name rest st a -> looks first name rest (FrLoop l :: st) a
(* a value function *)
| lk_fn f st path v : Forall2 reads (first :: rest) path -> f path = inl v -> looks first name rest (FrValueFn f :: st) (AnValue (Owned v))
| lk_fn_error f st path r : Forall2 reads (first :: rest) path -> f path = inr r ->
    looks first name rest (FrValueFn f :: st) (AnError r (combine_span (mb_span first) (mb_span (last rest first)))).
End Lookup.

(** What the code returns for an answer. *)
Definition answer_result `{X : Ext} (source : str) (a : answer) : res cow :=
  match a with AnValue c => Ok c | AnError r sp => err_render r source sp end.
