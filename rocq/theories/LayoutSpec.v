(** What is significant in the text of a template. *)
From Verif Require Import Base Utf8 Ext Errors Syntax Value Ast Lexer LexSpec GrammarSpec.

(** The text of a delimiter does not matter. *)
Definition is_delimiter (t : token) : bool :=
  match t with
  | TBeginExpr | TEndExpr | TBeginBlock | TEndBlock | TBeginComment | TEndComment => true
  | _ => false
  end.
Definition sense (source : str) (t : tok) : token * str :=
  (fst t, if is_delimiter (fst t) then [] else txt source (snd t)).
(** [significant sx source l]: the tokens of the source, without white space in tags
    and without comments, are [l]. *)
Definition significant `{X : Ext} (sx : syntax) (source : str) (l : list (token * str)) : Prop :=
  exists ts ts', tiling sx source true 0 (MText false) ts /\ without_comments (nonspace ts) ts' /\ l = map (sense source) ts'.
(** Two texts (in two syntaxes) that differ only in layout. *)
Definition alike `{X : Ext} (sx1 : syntax) (source1 : str) (sx2 : syntax) (source2 : str) : Prop :=
  exists l, significant sx1 source1 l /\ significant sx2 source2 l.
