(** Specification of tokenization: which token lists a template source has. *)
From Verif Require Import Base Utf8 Ext Errors Syntax SearchSpec Lexer.

(** ** White space *)

Definition white (s : str) : Prop :=
  exists cs, Forall (fun c => scalar c /\ is_white_space c = true) cs /\ s = flat_map encode cs.
Definition starts_white (s : str) : Prop :=
  exists c t, scalar c /\ is_white_space c = true /\ s = encode c ++ t.
Definition ends_white (s : str) : Prop :=
  exists c t, scalar c /\ is_white_space c = true /\ s = t ++ encode c.

(** ** Delimiters *)

(** The token a delimiter stands for. *)
Definition tag_token (k : kind) : token :=
  match k with
  | BeginExprK | BeginExprTrimK => TBeginExpr
  | EndExprK | EndExprTrimK => TEndExpr
  | BeginBlockK | BeginBlockTrimK => TBeginBlock
  | EndBlockK | EndBlockTrimK => TEndBlock
  | BeginCommentK | BeginCommentTrimK => TBeginComment
  | EndCommentK | EndCommentTrimK => TEndComment
  end.
(** Is it an opening delimiter? *)
Definition opening (k : kind) : bool :=
  match k with
  | BeginExprK | BeginExprTrimK | BeginBlockK | BeginBlockTrimK
  | BeginCommentK | BeginCommentTrimK => true
  | _ => false
  end.
(** Is it a hyphenated (white space trimming) delimiter? *)
Definition hyphenated (k : kind) : bool :=
  match k with
  | BeginExprTrimK | EndExprTrimK | BeginBlockTrimK | EndBlockTrimK
  | BeginCommentTrimK | EndCommentTrimK => true
  | _ => false
  end.
(** The closing token matching an opening token. *)
Definition closing_of (t : token) : token :=
  match t with
  | TBeginExpr => TEndExpr
  | TBeginBlock => TEndBlock
  | TBeginComment => TEndComment
  | t => t
  end.

(** No closing delimiter ends in white space. *)
Definition closers_ok (sx : syntax) : Prop :=
  forall k p, In (k, p) sx -> opening k = false -> ~ ends_white p.

(** Delimiter [k] is the one (longest, first configured) at [m..n]. *)
Definition tag_at (sx : syntax) (source : str) (k : kind) (m n : nat) : Prop :=
  best sx source m k m n.

(** The source has no place where a closing delimiter that ends in white space is followed
    by white space and then by a hyphenated opening delimiter. *)
Definition trims_ok (sx : syntax) (source : str) : Prop :=
  forall k m i k' j n, tag_at sx source k m i -> opening k = false -> ends_white (sub source m i) ->
    best sx source i k' j n -> opening k' = true -> hyphenated k' = true -> i < j -> ~ white (sub source i j).

(** ** Tokens inside tags *)

(** A blank: tab or space. *)
Definition blank (c : N) : bool := ((c =? 9) || (c =? 32))%N.
(** What may follow the first digit of a number: letters, digits and [_ - + .] *)
Definition number_char (c : N) : bool :=
  (ascii_digit c || ascii_letter c || (c =? 95) || (c =? 45) || (c =? 43) || (c =? 46))%N.
(** An identifier begins with an underscore or a character with the property
    XID_Start, and goes on with characters with the property XID_Continue. *)
Definition word_start `{X : Ext} (c : N) : bool := (c =? 95)%N || xid_start c.
Definition word_char `{X : Ext} (c : N) : bool := xid_continue c.
(** The reserved words. *)
Definition reserved : list str :=
  [s2b "if"; s2b "not"; s2b "else"; s2b "endif"; s2b "for"; s2b "in"; s2b "endfor"; s2b "with"; s2b "as"; s2b "endwith"; s2b "include";
   s2b "true"; s2b "false"].

Definition str_char_ok (prev c : N) : Prop :=
  c <> 10%N /\ c <> 13%N /\ (c = 34%N -> prev = 92%N).

(** [body] (with the character before it) contains no line break, and a quote only
    right after a backslash. *)
Fixpoint str_body_ok (prev : N) (body : list N) : Prop :=
  match body with
  | [] => prev <> 92%N
  | c :: body' => str_char_ok prev c /\ str_body_ok c body'
  end.

(** The first character of an identifier: not a digit, blank or operator. *)
Definition ident_first `{X : Ext} (c : N) : Prop :=
  word_start c = true /\ ascii_digit c = false /\ blank c = false /\
  ~ In c [46; 124; 44; 58; 43; 45; 63; 34]%N.

Definition ident_shape `{X : Ext} (s : str) : Prop :=
  exists c cs, chars s = c :: cs /\ ident_first c /\ Forall (fun c => word_char c = true) cs.

(** [lexeme path t s]: [s] is the text of a token [t].  [path] says whether the
    token comes after an identifier in the same tag, with no pipe, comma or colon
    in between: there digits are an index, elsewhere they start a number. *)
Definition lexeme `{X : Ext} (path : bool) (t : token) (s : str) : Prop :=
  match t with
  | TDot => s = s2b "."
  | TQuestionDot => s = s2b "?."
  | TPipe => s = s2b "|"
  | TComma => s = s2b ","
  | TColon => s = s2b ":"
  | TPlus => s = s2b "+"
  | TMinus => s = s2b "-"
  | TWhitespace => s <> [] /\ Forall (fun c => blank c = true) (chars s)
  | TKeyword => In s reserved /\ ident_shape s
  | TIdent => ~ In s reserved /\ ident_shape s
  | TIndex => path = true /\ s <> [] /\ Forall (fun c => ascii_digit c = true) (chars s)
  | TNumber => path = false /\ exists c cs, chars s = c :: cs /\ ascii_digit c = true /\
               Forall (fun c => number_char c = true) cs
  | TString => exists body, chars s = 34%N :: body ++ [34%N] /\ str_body_ok 34%N body
  | _ => False
  end.

Definition after_tok (path : bool) (t : token) : bool :=
  match t with TIdent => true | TPipe | TComma | TColon => false | _ => path end.

(** The character after a token of variable length cannot continue it. *)
Definition stops (pred : N -> bool) (rest : str) : Prop :=
  match chars rest with [] => True | c :: _ => pred c = false end.
Definition maximal `{X : Ext} (t : token) (rest : str) : Prop :=
  match t with
  | TWhitespace => stops blank rest
  | TKeyword | TIdent => stops word_char rest
  | TIndex => stops ascii_digit rest
  | TNumber => stops number_char rest
  | _ => True
  end.

(** ** Token lists *)

(** Where the next token is: outside tags (and whether the tag just closed was
    hyphenated), inside an expression or block tag (whether in a path), inside a
    comment. *)
Inductive mode := MText (trim : bool) | MTag (close : token) (path : bool) | MComment.

Definition after_open (t : token) : mode :=
  match t with TBeginComment => MComment | t => MTag (closing_of t) false end.

(** The next token is a hyphenated opening tag. *)
Definition next_trims (sx : syntax) (source : str) (ts : list (token * span)) : Prop :=
  match ts with
  | (t, sp) :: _ => exists k, tag_at sx source k (sp_m sp) (sp_n sp) /\ t = tag_token k /\
                    opening k = true /\ hyphenated k = true
  | [] => False
  end.

(** [tiling sx source full at md ts]: from offset [at], in mode [md], the source
    consists of the tokens [ts], up to its end if [full].

    A raw token covers a non-empty stretch [at..at') of text up to the next
    delimiter or the end of the source.  Its span [m..n] is that stretch without
    its trailing white space if the tag after it is a hyphenated opening tag, and
    then without its leading white space if the tag before it was a hyphenated
    closing tag. *)
Inductive tiling `{X : Ext} (sx : syntax) (source : str) (full : bool)
  : nat -> mode -> list (token * span) -> Prop :=
| ti_end at_ md : (full = true -> at_ = length source) -> tiling sx source full at_ md []
| ti_raw at_ md m n at' ts :
    at_ < at' -> at_ <= m -> m <= n -> n <= at' -> at' <= length source ->
    boundary source m = true -> boundary source n = true ->
    (forall e b, md <> MTag e b) ->
    (forall k p i, In (k, p) sx -> at_ <= i -> i < at' -> ~ occurs_at p source i) ->
    (at' = length source \/ exists k p, In (k, p) sx /\ occurs_at p source at') ->
    ((next_trims sx source ts /\ white (sub source n at') /\ ~ ends_white (sub source at_ n)) \/
     (~ next_trims sx source ts /\ n = at')) ->
    (if match md with MText true => true | _ => false end
     then white (sub source at_ m) /\ ~ starts_white (sub source m n)
     else m = at_) ->
    tiling sx source full at' (match md with MText _ => MText false | md => md end) ts ->
    tiling sx source full at_ md ((TRaw, mkspan m n) :: ts)
| ti_open m n k b ts :
    opening k = true -> tag_at sx source k m n ->
    tiling sx source full n (after_open (tag_token k)) ts ->
    tiling sx source full m (MText b) ((tag_token k, mkspan m n) :: ts)
| ti_close m n k md ts :
    opening k = false -> tag_at sx source k m n ->
    (exists b, md = MTag (tag_token k) b) \/ (md = MComment /\ tag_token k = TEndComment) ->
    tiling sx source full n (MText (hyphenated k)) ts ->
    tiling sx source full m md ((tag_token k, mkspan m n) :: ts)
| ti_tok m n t e path ts :
    m < n -> n <= length source -> boundary source m = true -> boundary source n = true ->
    (forall k p, In (k, p) sx -> ~ occurs_at p source m) ->
    lexeme path t (sub source m n) -> maximal t (skipn n source) ->
    tiling sx source full n (MTag e (after_tok path t)) ts ->
    tiling sx source full m (MTag e path) ((t, mkspan m n) :: ts).
