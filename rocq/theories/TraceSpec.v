(** The includes carried out by a rendering, in order. *)
From Verif Require Import Base Utf8 Ext Errors Syntax Value Ast Fmt Stack Filters Render DepthSpec.

Section Trace.
Context `{X : Ext}.
Variable inner : renderer_inner.

(** [journey m l m']: from the moment [m] to the moment [m'] exactly the includes
    [l] (name and template) were carried out, in this order. *)
Inductive journey : moment -> list (str * template) -> moment -> Prop :=
| jo_stay m : journey m [] m
| jo_leave m m1 l m2 : follows inner m m1 -> length (mo_active m1) < length (mo_active m) -> journey m1 l m2 -> journey m l m2
| jo_enter m m1 a rest n l m2 : follows inner m m1 -> mo_active m1 = a :: rest -> length (mo_active m) < length (mo_active m1) ->
    ac_name a = Some n -> journey m1 l m2 -> journey m ((n, ac_template a) :: l) m2.
End Trace.

(** The same engine with other templates. *)
Definition with_templates (ts : list (str * template)) (inner : renderer_inner) : renderer_inner :=
  mkinner (mkengine (en_searcher (ri_engine inner)) (en_default_formatter (ri_engine inner)) (en_functions (ri_engine inner)) ts
             (en_max_include_depth (ri_engine inner)))
    (ri_template inner) (ri_template_name inner) (ri_max_include_depth inner) (ri_template_fn inner).
