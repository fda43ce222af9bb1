(** When a renderer and its context offer at least what others do (C49). *)
From Verif Require Import Base Ext Value Ast Fmt Stack Filters Render Engine.

(** Every entry of [m1] is an entry of [m2]. *)
Definition has_all {V} (m1 m2 : list (str * V)) : Prop := forall k v, map_get k m1 = Some v -> map_get k m2 = Some v.

(** A context with at least the variables of another: more keys of the map, more
    paths answered by the function, or anything instead of a value without members. *)
Inductive value_extends : value -> value -> Prop :=
| ve_same v : value_extends v v
| ve_map m1 m2 : has_all m1 m2 -> value_extends (VMap m1) (VMap m2)
| ve_scalar v1 v2 : (forall l, v1 <> VList l) -> (forall m, v1 <> VMap m) -> value_extends v1 v2.
Inductive given : globals -> value -> Prop :=
| gv_borrowed v : given (GBorrowed v) v
| gv_owned v : given (GOwned (Ok v)) v.
Inductive context_extends : globals -> globals -> Prop :=
| ce_value g1 g2 v1 v2 : given g1 v1 -> given g2 v2 -> value_extends v1 v2 -> context_extends g1 g2
| ce_fn f1 f2 : (forall path v, f1 path = inl v -> f2 path = inl v) -> context_extends (GFn f1) (GFn f2).

(** What an include of [name] gets, when the names [hist] were asked for before. *)
Definition offers (inner : renderer_inner) (hist : list str) (name : str) (t : template) : Prop :=
  match ri_template_fn inner with
  | Some f => f hist name = inl t
  | None => map_get name (en_templates (ri_engine inner)) = Some t
  end.
(** The same template is rendered, with the same default formatter, and with at
    least the same functions, templates and include depth. *)
Record renderer_extends `{X : Ext} (inner1 inner2 : renderer_inner) : Prop := mkextends {
  ext_root : ri_template inner1 = ri_template inner2;
  ext_formatter : en_default_formatter (ri_engine inner1) = en_default_formatter (ri_engine inner2);
  ext_functions : has_all (en_functions (ri_engine inner1)) (en_functions (ri_engine inner2));
  ext_templates : forall h1 h2 name t,
    (ri_template_fn inner1 <> None -> ri_template_fn inner2 <> None -> h1 = h2) ->
    offers inner1 h1 name t -> offers inner2 h2 name t;
  ext_depth : (max_include_depth inner1 <= max_include_depth inner2)%N
}.

(** What was not there before is added to an engine, or its include limit is raised. *)
Inductive adds_new `{X : Ext} : engine -> engine -> Prop :=
| an_nothing e : adds_new e e
| an_template e name source e' : engine_get_template name e = None -> add_template name source e = (e', Ok tt) -> adds_new e e'
| an_filter e name f e' : add_filter name f e = (e', None) -> adds_new e e'
| an_formatter e name f e' : add_formatter name f e = (e', None) -> adds_new e e'
| an_depth e n : (en_max_include_depth e <= n)%N -> adds_new e (set_max_include_depth n e)
| an_more e1 e2 e3 : adds_new e1 e2 -> adds_new e2 e3 -> adds_new e1 e3.
