(** Specification of value functions that look into a value. *)
From Verif Require Import Base Utf8 Ext Errors Value Ast Fmt Stack.

(** [at_path v path x]: [x] is the value at the path in [v]; a missing optional
    member makes it [None]. *)
Inductive at_path : value -> list vmember -> value -> Prop :=
| ap_end v : at_path v [] v
| ap_key m op k x p r : map_get k m = Some x -> at_path x p r -> at_path (VMap m) (mkvmember op (VAKey k) :: p) r
| ap_index l op i x p r : nth_error l (N.to_nat i) = Some x -> at_path x p r -> at_path (VList l) (mkvmember op (VAIndex i) :: p) r
| ap_no_key m k p : map_get k m = None -> at_path (VMap m) (mkvmember Optional (VAKey k) :: p) VNone
| ap_no_index l i p : nth_error l (N.to_nat i) = None -> at_path (VList l) (mkvmember Optional (VAIndex i) :: p) VNone.

(** [looks_into f v]: whatever the function [f] answers is what is in [v]; it may
    fail in any way. *)
Definition looks_into (f : value_fn) (v : value) : Prop := forall path x, f path = inl x -> at_path v path x.

(** Such a function. *)
Fixpoint look (v : value) (path : list vmember) : value + str :=
  match path with
  | [] => inl v
  | m :: path' =>
    match v, vm_access m with
    | VMap mp, VAKey k =>
      match map_get k mp, vm_op m with
      | Some x, _ => look x path'
      | None, Optional => inl VNone
      | None, Direct => inr (s2b "no such key")
      end
    | VList l, VAIndex i =>
      match nth_error l (N.to_nat i), vm_op m with
      | Some x, _ => look x path'
      | None, Optional => inl VNone
      | None, Direct => inr (s2b "no such index")
      end
    | _, _ => inr (s2b "no such member")
    end
  end.
Lemma look_looks v : looks_into (look v) v.
Proof.
  intros path. revert v. induction path as [|[op a] path IH]; intros v x E; cbn [look vm_access vm_op] in E.
  - injection E as <-. constructor.
  - destruct v as [| | | | |l|mp], a as [i|k]; try discriminate E.
    + destruct (nth_error l (N.to_nat i)) as [y|] eqn:En; [econstructor; eauto|].
      destruct op; [discriminate E|]. injection E as <-. now constructor.
    + destruct (map_get k mp) as [y|] eqn:En; [econstructor; eauto|].
      destruct op; [discriminate E|]. injection E as <-. now constructor.
Qed.
