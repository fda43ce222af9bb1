(** What an invocation of [value!] means. *)
From Verif Require Import Base Utf8 Ext Errors Value Serde DecimalSpec SerdeSpec Macros.

(** A literal of the macro's little language: [None], the value of an expression, a
    list, a map. *)
Inductive lit :=
| LNone
| LOf (d : sdata)
| LList (l : list lit)
| LMap (l : list (str * lit)).

Section Reads.
Variable env : str -> sdata.   (* the data of the variables *)
(** The notation: elements and entries are separated by commas, with an optional
    comma at the end.  A list may also begin with commas. *)
Inductive reads : tt -> lit -> Prop :=
| rd_none : reads (MtWord (s2b "None")) LNone
| rd_word w : w <> s2b "None" -> reads (MtWord w) (LOf (env w))
| rd_expr d : reads (MtExpr d) (LOf d)
| rd_list n ts l : separated ts l -> reads (MtList (repeat MtComma n ++ ts)) (LList l)
| rd_map ts l : entries ts l -> reads (MtMap ts) (LMap l)
with separated : list tt -> list lit -> Prop :=
| sp_nil : separated [] []
| sp_last t x : reads t x -> separated [t] [x]
| sp_more t x ts l : reads t x -> separated ts l -> separated (t :: MtComma :: ts) (x :: l)
with entries : list tt -> list (str * lit) -> Prop :=
| en_nil : entries [] []
| en_last k t x : reads t x -> entries [MtWord k; MtColon; t] [(k, x)]
| en_more k t x ts l : reads t x -> entries ts l -> entries (MtWord k :: MtColon :: t :: MtComma :: ts) ((k, x) :: l).
End Reads.

(** The value: of several entries with one key, the last counts. *)
Inductive denotes : lit -> value -> Prop :=
| de_none : denotes LNone VNone
| de_of d v : converts d (inl v) -> denotes (LOf d) v
| de_list l vs : Forall2 denotes l vs -> denotes (LList l) (VList vs)
| de_map l es m : Forall2 (fun kx kv => fst kx = fst kv /\ denotes (snd kx) (snd kv)) l es -> map_with es m -> denotes (LMap l) (VMap m).

(** The expressions in a literal. *)
Inductive occurs (d : sdata) : lit -> Prop :=
| oc_here : occurs d (LOf d)
| oc_list x l : In x l -> occurs d x -> occurs d (LList l)
| oc_map k x l : In (k, x) l -> occurs d x -> occurs d (LMap l).
