(** Specification of the template language: which token sequences are templates
    and what syntax tree each of them has.  Nothing here refers to the parser. *)
From Verif Require Import Base Utf8 Ext Errors Syntax Value Ast Lexer LexSpec.
From Coq Require Import Floats.SpecFloat.

Notation tok := (token * span)%type.

(** White space tokens inside tags are not significant. *)
Definition is_space (t : tok) : bool := match fst t with TWhitespace => true | _ => false end.
Definition nonspace (ts : list tok) : list tok := filter (fun t => negb (is_space t)) ts.

(** From the start of the first token to the end of the last. *)
Definition span_of (ts : list tok) : span :=
  match ts, rev ts with
  | (_, a) :: _, (_, b) :: _ => mkspan (sp_m a) (sp_n b)
  | _, _ => mkspan 0 0
  end.

(** ** Literals *)

(** [digit c d]: byte [c] is the digit with value [d]. *)
Definition digit (c : byte) (d : Z) : Prop :=
  (Z.of_N (byte_N c) = 48 + d /\ 0 <= d <= 9)%Z \/
  (Z.of_N (byte_N c) = 97 + (d - 10) /\ 10 <= d <= 35)%Z \/
  (Z.of_N (byte_N c) = 65 + (d - 10) /\ 10 <= d <= 35)%Z.

(** [numeral radix s v]: [s] is a sequence of digits and underscores denoting [v]. *)
Inductive numeral (radix : Z) : str -> Z -> Prop :=
| nu_nil : numeral radix [] 0
| nu_us s v : numeral radix s v -> numeral radix (s ++ [x5f]) v
| nu_digit s v c d : numeral radix s v -> digit c d -> (d < radix)%Z ->
    numeral radix (s ++ [c]) (v * radix + d).

Definition negated (neg : bool) (z : Z) : Z := if neg then (- z)%Z else z.

(** [int_lit s neg z]: the literal [s] with the sign [neg] is the 64-bit integer
    [z]. *)
Definition int_lit (s : str) (neg : bool) (z : Z) : Prop :=
  (i64_min <= z <= i64_max)%Z /\
  ((exists b v, s = x30 :: x62 :: b /\ numeral 2 b v /\ z = negated neg v) \/
   (exists b v, s = x30 :: x6f :: b /\ numeral 8 b v /\ z = negated neg v) \/
   (exists b v, s = x30 :: x78 :: b /\ numeral 16 b v /\ z = negated neg v) \/
   (exists v, ~ (exists b, s = x30 :: x62 :: b \/ s = x30 :: x6f :: b \/ s = x30 :: x78 :: b) /\
              numeral 10 s v /\ z = negated neg v)).

(** A number literal is an integer if it can be, otherwise a float (as read by the
    Rust standard library). *)
Inductive number_lit `{X : Ext} (s : str) (neg : bool) : value -> Prop :=
| nl_int z : int_lit s neg z -> number_lit s neg (VInt z)
| nl_float f : (forall z, ~ int_lit s neg z) -> f64_parse s = Some f ->
    number_lit s neg (VFloat (if neg then SFopp f else f)).

(** [index_lit s v]: digits denoting an unsigned 64-bit number. *)
Definition index_lit (s : str) (v : N) : Prop :=
  s <> [] /\ ~ In x5f s /\ numeral 10 s (Z.of_N v) /\ (Z.of_N v <= u64_max)%Z.

(** [unescaped cs out]: the characters between the quotes and the text they stand
    for.  A quote that is not part of an escape sequence (the lexer lets one
    through only right after [\\]) stands for nothing. *)
Inductive unescaped : list N -> str -> Prop :=
| ue_nil : unescaped [] []
| ue_char c cs out : c <> 34%N -> c <> 92%N -> unescaped cs out ->
    unescaped (c :: cs) (encode c ++ out)
| ue_n cs out : unescaped cs out -> unescaped (92 :: 110 :: cs)%N (x0a :: out)
| ue_r cs out : unescaped cs out -> unescaped (92 :: 114 :: cs)%N (x0d :: out)
| ue_t cs out : unescaped cs out -> unescaped (92 :: 116 :: cs)%N (x09 :: out)
| ue_bs cs out : unescaped cs out -> unescaped (92 :: 92 :: cs)%N (x5c :: out)
| ue_quote cs out : unescaped cs out -> unescaped (92 :: 34 :: cs)%N (x22 :: out)
| ue_bare cs out : unescaped cs out -> unescaped (34 :: cs)%N out.

Definition string_lit (s out : str) : Prop :=
  exists body, chars s = (34 :: body ++ [34])%N /\ unescaped body out.

Section Grammar.
Context `{X : Ext}.
Variable source : str.

(** The text of a token. *)
Definition txt (sp : span) : str := sub source (sp_m sp) (sp_n sp).

(** ** Expressions *)

Inductive g_access : list tok -> access -> Prop :=
| ga_index sp v : index_lit (txt sp) v -> g_access [(TIndex, sp)] (AIndex v sp)
| ga_key sp : g_access [(TIdent, sp)] (AKey (mkident sp)).

Inductive g_members : list tok -> list member -> Prop :=
| gm_nil : g_members [] []
| gm_dot sp ts a ts' ms : g_access ts a -> g_members ts' ms ->
    g_members ((TDot, sp) :: ts ++ ts')
              (mkmember Direct a (span_of ((TDot, sp) :: ts)) :: ms)
| gm_question sp ts a ts' ms : g_access ts a -> g_members ts' ms ->
    g_members ((TQuestionDot, sp) :: ts ++ ts')
              (mkmember Optional a (span_of ((TQuestionDot, sp) :: ts)) :: ms).

Inductive g_base : list tok -> base_expr -> Prop :=
| gb_var sp ts ms : g_members ts ms ->
    g_base ((TIdent, sp) :: ts) (BVar (mkmember Direct (AKey (mkident sp)) sp :: ms))
| gb_true sp : txt sp = s2b "true" -> g_base [(TKeyword, sp)] (BLit (VBool true) sp)
| gb_false sp : txt sp = s2b "false" -> g_base [(TKeyword, sp)] (BLit (VBool false) sp)
| gb_num sp v : number_lit (txt sp) false v -> g_base [(TNumber, sp)] (BLit v sp)
| gb_plus s1 sp v : number_lit (txt sp) false v ->
    g_base [(TPlus, s1); (TNumber, sp)] (BLit v (span_of [(TPlus, s1); (TNumber, sp)]))
| gb_minus s1 sp v : number_lit (txt sp) true v ->
    g_base [(TMinus, s1); (TNumber, sp)] (BLit v (span_of [(TMinus, s1); (TNumber, sp)]))
| gb_str sp s : string_lit (txt sp) s -> g_base [(TString, sp)] (BLit (VStr s) sp).

Inductive g_args : list tok -> list base_expr -> Prop :=
| gr_one ts b : g_base ts b -> g_args ts [b]
| gr_more ts b c ts' bs : g_base ts b -> g_args ts' bs ->
    g_args (ts ++ (TComma, c) :: ts') (b :: bs).

Inductive g_expr : list tok -> expr -> Prop :=
| ge_base ts b : g_base ts b -> g_expr ts (EBase b)
| ge_call ts e p n : g_expr ts e ->
    g_expr (ts ++ [(TPipe, p); (TIdent, n)])
           (ECall (mkident n) None e (span_of (ts ++ [(TPipe, p); (TIdent, n)])))
| ge_call_args ts e p n c ts' bs : g_expr ts e -> g_args ts' bs ->
    g_expr (ts ++ (TPipe, p) :: (TIdent, n) :: (TColon, c) :: ts')
           (ECall (mkident n) (Some (mkargs bs (span_of ((TColon, c) :: ts')))) e
              (span_of (ts ++ (TPipe, p) :: (TIdent, n) :: (TColon, c) :: ts'))).

(** ** Tags *)

Definition kw (s : string) (ts : list tok) : Prop :=
  exists sp, ts = [(TKeyword, sp)] /\ txt sp = s2b s.

Inductive g_cond : list tok -> bool -> expr -> Prop :=
| gc_if ts e : g_expr ts e -> g_cond ts false e
| gc_not k ts e : kw "not" k -> g_expr ts e -> g_cond (k ++ ts) true e.

Inductive g_vars : list tok -> loop_vars -> Prop :=
| gv_item sp : g_vars [(TIdent, sp)] (LVItem (mkident sp))
| gv_kv k c v : g_vars [(TIdent, k); (TComma, c); (TIdent, v)]
    (LVKeyValue (mkident k) (mkident v) (span_of [(TIdent, k); (TComma, c); (TIdent, v)])).

Definition tag_block (inner ts : list tok) : Prop :=
  exists b e, ts = (TBeginBlock, b) :: inner ++ [(TEndBlock, e)].

(** ** Statements *)

Inductive g_stmt : list tok -> stmt -> Prop :=
| gs_raw sp : g_stmt [(TRaw, sp)] (SRaw sp)
| gs_inline b ts e en : g_expr ts e ->
    g_stmt ((TBeginExpr, b) :: ts ++ [(TEndExpr, en)])
           (SInline e (span_of ((TBeginExpr, b) :: ts ++ [(TEndExpr, en)])))
| gs_include t k sp s : kw "include" k -> string_lit (txt sp) s ->
    tag_block (k ++ [(TString, sp)]) t ->
    g_stmt t (SInclude (mkaststr s sp) None)
| gs_include_with t k sp s w ts e : kw "include" k -> string_lit (txt sp) s -> kw "with" w ->
    g_expr ts e -> tag_block (k ++ (TString, sp) :: w ++ ts) t ->
    g_stmt t (SInclude (mkaststr s sp) (Some e))
| gs_if t k ts n c body thn rest els : kw "if" k -> g_cond ts n c -> tag_block (k ++ ts) t ->
    g_scope body thn -> g_else rest els ->
    g_stmt (t ++ body ++ rest) (SIf n c thn els)
| gs_for t k vs vars i ts e body l t' k' : kw "for" k -> g_vars vs vars -> kw "in" i -> g_expr ts e ->
    tag_block (k ++ vs ++ i ++ ts) t -> g_scope body l -> kw "endfor" k' -> tag_block k' t' ->
    g_stmt (t ++ body ++ t') (SFor vars e l)
| gs_with t k ts e a n body l t' k' : kw "with" k -> g_expr ts e -> kw "as" a ->
    tag_block (k ++ ts ++ a ++ [(TIdent, n)]) t -> g_scope body l -> kw "endwith" k' -> tag_block k' t' ->
    g_stmt (t ++ body ++ t') (SWith e (mkident n) l)

(** A sequence of statements and comments. *)
with g_scope : list tok -> list stmt -> Prop :=
| gsc_nil : g_scope [] []
| gsc_comment b r e ts l : g_scope ts l ->
    g_scope ((TBeginComment, b) :: (TRaw, r) :: (TEndComment, e) :: ts) l
| gsc_stmt ts s ts' l : g_stmt ts s -> g_scope ts' l -> g_scope (ts ++ ts') (s :: l)

(** What follows the first branch of an [if]. *)
with g_else : list tok -> option (list stmt) -> Prop :=
| gel_endif t k : kw "endif" k -> tag_block k t -> g_else t None
| gel_else t k body l t' k' : kw "else" k -> tag_block k t -> g_scope body l ->
    kw "endif" k' -> tag_block k' t' ->
    g_else (t ++ body ++ t') (Some l)
| gel_elseif t k i ts n c body thn rest els : kw "else" k -> kw "if" i -> g_cond ts n c ->
    tag_block (k ++ i ++ ts) t -> g_scope body thn -> g_else rest els ->
    g_else (t ++ body ++ rest) (Some [SIf n c thn els]).

End Grammar.

(** ** Templates *)

(** [derives sx source s]: the source is cut into tokens, and the tokens other than
    white space derive the statements [s]. *)
Definition derives `{X : Ext} (sx : syntax) (source : str) (s : scope) : Prop :=
  exists ts, tiling sx source true 0 (MText false) ts /\ g_scope source (nonspace ts) s.

(** [without_comments ts ts']: [ts'] is [ts] without its comments. *)
Inductive without_comments : list tok -> list tok -> Prop :=
| wc_nil : without_comments [] []
| wc_comment b r e ts ts' : without_comments ts ts' ->
    without_comments ((TBeginComment, b) :: (TRaw, r) :: (TEndComment, e) :: ts) ts'
| wc_other t ts ts' : fst t <> TBeginComment -> without_comments ts ts' ->
    without_comments (t :: ts) (t :: ts').
