(** The errors a rendering makes: their kinds, and which parts they have. *)
From Verif Require Import Base Errors.

(** The error has a text saying why. *)
Definition explained (e : error) : Prop := e_reason e <> None.
(** The error marks a place of a template. *)
Definition placed (e : error) : Prop := e_pretty e <> None.

(** - A render error says why, and marks a place unless it is that of the depth limit;
    - an error of a filter says why and marks a place;
    - an error of a formatter marks a place (a formatter need not say why);
    - there is no other error: no syntax, serialization or io error. *)
Definition depth_reached (limit : N) (e : error) : Prop :=
  e_kind e = KRender /\ e_reason e = Some (s2b "reached maximum include depth (" ++ show_N limit ++ s2b ")") /\ e_pretty e = None.
Definition rendering_error (limit : N) (e : error) : Prop :=
  match e_kind e with
  | KRender => explained e /\ (placed e \/ depth_reached limit e)
  | KFilter => explained e /\ placed e
  | KFormat => placed e
  | KSyntax | KSerialize | KIo _ => False
  end.
