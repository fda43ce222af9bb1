(** Where the bytes of the output may come from. *)
From Verif Require Import Base Utf8 Ext Errors Value Ast Fmt Filters Render RenderSpec.

(** [part_of l s]: the statement [s] is in the block [l], at any depth. *)
Inductive part_of : list stmt -> stmt -> Prop :=
| po_here l s : In s l -> part_of l s
| po_then l n c thn els s : In (SIf n c thn els) l -> part_of thn s -> part_of l s
| po_else l n c thn els s : In (SIf n c thn (Some els)) l -> part_of els s -> part_of l s
| po_for l vars e body s : In (SFor vars e body) l -> part_of body s -> part_of l s
| po_with l e name body s : In (SWith e name body) l -> part_of body s -> part_of l s.

(** [says p s]: a formatter that does [p] succeeds if no write fails, having
    written [s] in total. *)
Inductive says : fmt_prog -> str -> Prop :=
| sy_done : says FDone []
| sy_write s ok err t : says ok t -> says (FWrite s ok err) (s ++ t).
(** [may_write p s]: [s] is one of the texts [p] may hand to the writer. *)
Inductive may_write : fmt_prog -> str -> Prop :=
| mw_here s ok err : may_write (FWrite s ok err) s
| mw_ok s ok err t : may_write ok t -> may_write (FWrite s ok err) t
| mw_err s ok err t : may_write err t -> may_write (FWrite s ok err) t.

Section Origin.
Variable inner : renderer_inner.
Variable ast_of : template -> scope.
(** Raw text of a template that can be rendered. *)
Definition raw_text (s : str) : Prop :=
  exists t sp, provided inner t /\ part_of (ast_of t) (SRaw sp) /\ index_span (t_source t) sp = @Ok error _ s.
(** The default formatter of the engine, or a registered formatter named at the
    end of an [{{ … | name }}] of a template that can be rendered. *)
Inductive a_formatter : formatter -> Prop :=
| af_default : a_formatter (en_default_formatter (ri_engine inner))
| af_registered t recv id sp sp' name f :
    provided inner t -> part_of (ast_of t) (SInline (ECall id None recv sp) sp') ->
    index_span (t_source t) (id_span id) = @Ok error _ name ->
    map_get name (en_functions (ri_engine inner)) = Some (EFormatter f) -> a_formatter f.
(** What such a formatter says about some value; one write of such a formatter. *)
Definition formatted_text (s : str) : Prop := exists f v, a_formatter f /\ says (f v) s.
Definition formatter_write (s : str) : Prop := exists f v, a_formatter f /\ may_write (f v) s.
End Origin.
