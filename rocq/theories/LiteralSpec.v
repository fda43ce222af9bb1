(** The documented spelling of string literals (SYNTAX.md, "Literals"). *)
From Verif Require Import Base Utf8 Value Ast Stack Render.

(** [spells cs s]: the characters [cs] between double quotes stand for [s]: a
    character other than a quote, a backslash or a line break stands for itself;
    the escape sequences are a backslash and one of n, r, t, a backslash, a quote. *)
Inductive spells : list N -> str -> Prop :=
| sp_nil : spells [] []
| sp_char c cs s : scalar c -> ~ In c [10; 13; 34; 92]%N -> spells cs s -> spells (c :: cs) (encode c ++ s)
| sp_newline cs s : spells cs s -> spells (92 :: 110 :: cs)%N (x0a :: s)
| sp_return cs s : spells cs s -> spells (92 :: 114 :: cs)%N (x0d :: s)
| sp_tab cs s : spells cs s -> spells (92 :: 116 :: cs)%N (x09 :: s)
| sp_backslash cs s : spells cs s -> spells (92 :: 92 :: cs)%N (x5c :: s)
| sp_quote cs s : spells cs s -> spells (92 :: 34 :: cs)%N (x22 :: s).
(** The literal: the characters between double quotes. *)
Definition quoted (cs : list N) : str := x22 :: flat_map encode cs ++ [x22].

(** The item with index [n] of the list called [name] in a context. *)
Definition item (name : str) (n : N) (g : globals) : option value :=
  match g with
  | GBorrowed (VMap m) | GOwned (Ok (VMap m)) => match map_get name m with Some (VList l) => nth_error l (N.to_nat n) | _ => None end
  | GFn f => match f [mkvmember Direct (VAKey name); mkvmember Direct (VAIndex n)] with inl v => Some v | inr _ => None end
  | _ => None
  end.
