(** Renderers and errors that differ in the name of the template (C50). *)
From Verif Require Import Base Ext Errors Value Ast Fmt Stack Filters Render Engine.

(** The renderer [inner] with the name of its template replaced. *)
Definition called (n : option str) (inner : renderer_inner) : renderer_inner :=
  mkinner (ri_engine inner) (ri_template inner) n (ri_max_include_depth inner) (ri_template_fn inner).

(** The same error, except that one carries the name [n1] and the other the name [n2]. *)
Record renamed (n1 n2 : option str) (e1 e2 : error) : Prop := mkrenamed {
  rn_kind : e_kind e1 = e_kind e2;
  rn_reason : e_reason e1 = e_reason e2;
  rn_pretty : e_pretty e1 = e_pretty e2;
  rn_name : e_name e1 = n1 /\ e_name e2 = n2
}.
(** Results that are equal or differ so. *)
Inductive same_up_to_name {A} (n1 n2 : option str) : res A -> res A -> Prop :=
| su_same r : same_up_to_name n1 n2 r r
| su_err e1 e2 : renamed n1 n2 e1 e2 -> same_up_to_name n1 n2 (Err e1) (Err e2).
