(** Where the values of a rendering can come from. *)
From Verif Require Import Base Ext Errors Value Ast Fmt Stack Filters Render RenderSpec.

Section From.
Context `{X : Ext}.
(** [P] is any property of values; a value is [good] if it and everything in it has the property,
    the keys of maps (as strings) too. *)
Variable P : value -> Prop.
Inductive good : value -> Prop :=
| good_none : P VNone -> good VNone
| good_bool b : P (VBool b) -> good (VBool b)
| good_int z : P (VInt z) -> good (VInt z)
| good_float f : P (VFloat f) -> good (VFloat f)
| good_str s : P (VStr s) -> good (VStr s)
| good_list l : P (VList l) -> Forall good l -> good (VList l)
| good_map m : P (VMap m) -> Forall (fun kv => P (VStr (fst kv)) /\ good (snd kv)) m -> good (VMap m).
(** The same of an argument of a filter, which has been taken from a value (filters/args.rs). *)
Definition good_arg (a : arg_val) : Prop := exists t v, good v /\ from_value_ref t v = inl a.
Definition good_answer (r : value + str) : Prop := match r with inl v => good v | inr _ => True end.
(** The same of a context. *)
Definition good_globals (g : globals) : Prop :=
  match g with
  | GOwned (Ok v) => good v
  | GOwned _ => True
  | GBorrowed v => good v
  | GFn f => forall path, good_answer (f path)
  end.
(** What the renderer makes itself: none for what [?.] does not find, and [loop] in a loop over a
    list or a map, with an index below its length. *)
Definition good_loop (i : nat) : Prop :=
  forall first last, good (VMap [(s2b "first", VBool first); (s2b "index", VInt (Z.of_nat i)); (s2b "last", VBool last)]).
Definition good_made : Prop :=
  good VNone /\
  (forall l i, good (VList l) -> i < length l -> good_loop i) /\
  (forall m i, good (VMap m) -> i < length m -> good_loop i).
(** A filter that makes good values of good values. *)
Definition good_filter (f : filter) : Prop := forall r args, good_arg r -> Forall good_arg args -> good_answer (fl_run f r args).

(** The same function, as far as good values can tell. *)
Definition alike_fn (f f' : engine_fn) : Prop :=
  match f, f' with
  | EFilter f, EFilter f' =>
    fl_recv f' = fl_recv f /\ fl_args f' = fl_args f /\
    forall r args, good_arg r -> Forall good_arg args -> fl_run f' r args = fl_run f r args
  | EFormatter f, EFormatter f' => forall v, good v -> f' v = f v
  | _, _ => False
  end.
(** The same engine, as far as good values can tell. *)
Definition alike (e e' : engine) : Prop :=
  en_templates e' = en_templates e /\ en_max_include_depth e' = en_max_include_depth e /\
  (forall v, good v -> en_default_formatter e' v = en_default_formatter e v) /\
  forall name, match map_get name (en_functions e), map_get name (en_functions e') with
               | Some f, Some f' => alike_fn f f'
               | None, None => True
               | _, _ => False
               end.

(** Every run of the formatter, whichever writes succeed, writes at most [n] bytes. *)
Fixpoint writes_at_most (n : nat) (p : fmt_prog) : Prop :=
  match p with
  | FDone | FFail _ => True
  | FWrite s ok err => length s <= n /\ writes_at_most (n - length s) ok /\ writes_at_most (n - length s) err
  end.
(** No formatter writes more than [M] bytes for a good value. *)
Definition brief (M : nat) (e : engine) : Prop :=
  (forall v, good v -> writes_at_most M (en_default_formatter e v)) /\
  forall name f, map_get name (en_functions e) = Some (EFormatter f) -> forall v, good v -> writes_at_most M (f v).
End From.

(** The literals of a template. *)
Definition literals_of_base (b : base_expr) : list value := match b with BLit v _ => [v] | BVar _ => [] end.
Fixpoint literals_of_expr (e : expr) : list value :=
  match e with
  | EBase b => literals_of_base b
  | ECall _ a recv _ => literals_of_expr recv ++ match a with Some a => flat_map literals_of_base (a_values a) | None => [] end
  end.
Fixpoint literals_of (s : stmt) : list value :=
  match s with
  | SRaw _ => []
  | SInline e _ => literals_of_expr e
  | SInclude _ g => match g with Some e => literals_of_expr e | None => [] end
  | SIf _ c thn els =>
    literals_of_expr c ++ flat_map literals_of thn ++ match els with Some l => flat_map literals_of l | None => [] end
  | SFor _ e b => literals_of_expr e ++ flat_map literals_of b
  | SWith e _ b => literals_of_expr e ++ flat_map literals_of b
  end.
Definition literals (l : scope) : list value := flat_map literals_of l.

(** What must be good for every value of a rendering to be: what the renderer makes, the literals of
    the templates, and what the filters make of good values. *)
Definition keeps_good `{X : Ext} (P : value -> Prop) (inner : renderer_inner) (ast_of : template -> scope) : Prop :=
  good_made P /\
  (forall t v, provided inner t -> In v (literals (ast_of t)) -> good P v) /\
  forall name f, map_get name (en_functions (ri_engine inner)) = Some (EFilter f) -> good_filter P f.
