(** src/compile/lex.rs *)
From Verif Require Import Base Utf8 Ext Errors Syntax AhoCorasick.

(** lex.rs 76-119 [Token] *)
Inductive token :=
| TRaw | TBeginExpr | TEndExpr | TBeginBlock | TEndBlock | TBeginComment | TEndComment
| TDot | TQuestionDot | TPipe | TComma | TColon | TPlus | TMinus | TWhitespace
| TKeyword | TIdent | TIndex | TNumber | TString.

(** lex.rs 76: derived [PartialEq] *)
Definition token_eq_dec (a b : token) : {a = b} + {a <> b}.
Proof. decide equality. Defined.
Definition token_eqb (a b : token) : bool := if token_eq_dec a b then true else false.

(** lex.rs 458-481 [Token::human] *)
Definition token_human (t : token) : str :=
  match t with
  | TRaw => s2b "raw template"
  | TBeginExpr => s2b "begin expression"
  | TEndExpr => s2b "end expression"
  | TBeginBlock => s2b "begin block"
  | TEndBlock => s2b "end block"
  | TBeginComment => s2b "begin comment"
  | TEndComment => s2b "end comment"
  | TDot => s2b "member access operator"
  | TQuestionDot => s2b "optional member access operator"
  | TPipe => s2b "pipe"
  | TComma => s2b "comma"
  | TColon => s2b "colon"
  | TMinus => s2b "minus"
  | TPlus => s2b "plus"
  | TWhitespace => s2b "whitespace"
  | TKeyword => s2b "keyword"
  | TIdent => s2b "identifier"
  | TIndex => s2b "index"
  | TString => s2b "string"
  | TNumber => s2b "number"
  end.

(** lex.rs 484-494 [Token::pair]; panics for a token that is not a tag *)
Definition token_pair (t : token) : res token :=
  match t with
  | TBeginExpr => Ok TEndExpr
  | TEndExpr => Ok TBeginExpr
  | TBeginBlock => Ok TEndBlock
  | TEndBlock => Ok TBeginBlock
  | TBeginComment => Ok TEndComment
  | TEndComment => Ok TBeginComment
  | _ => Panic
  end.

(** lex.rs 496-501 *)
Definition is_begin_tag (t : token) : bool :=
  match t with TBeginExpr | TBeginBlock | TBeginComment => true | _ => false end.

(** lex.rs 511-526 [Token::from_kind] *)
Definition from_kind (k : kind) : token * bool :=
  match k with
  | BeginExprK => (TBeginExpr, false)
  | EndExprK => (TEndExpr, false)
  | BeginExprTrimK => (TBeginExpr, true)
  | EndExprTrimK => (TEndExpr, true)
  | BeginBlockK => (TBeginBlock, false)
  | EndBlockK => (TEndBlock, false)
  | BeginBlockTrimK => (TBeginBlock, true)
  | EndBlockTrimK => (TEndBlock, true)
  | BeginCommentK => (TBeginComment, false)
  | EndCommentK => (TEndComment, false)
  | BeginCommentTrimK => (TBeginComment, true)
  | EndCommentTrimK => (TEndComment, true)
  end.

(** lex.rs 39-66 [State] *)
Inductive lstate :=
| LTemplate
| LBlock (begin_ : span) (end_ : token)
| LBlockPath (begin_ : span) (end_ : token)
| LComment (begin_ : span) (end_ : token).

(** lex.rs 70-73 [BlockState] *)
Inductive block_state := BUnknown | BPath.

(** lex.rs 13-31 [Lexer]; the engine's searcher and the source are parameters. *)
Record lexer := mklexer {
  lx_cursor : nat;
  lx_state : lstate;
  lx_left_trim : bool;
  lx_next : option (token * span)
}.

(** lex.rs 529-531 [is_whitespace] *)
Definition is_ws (c : N) : bool := ((c =? 9) || (c =? 32))%N.
(** lex.rs 553-555 [is_index]; [char::is_ascii_digit] *)
Definition is_index (c : N) : bool := ascii_digit c.
(** lex.rs 557-559 [is_number] *)
Definition is_number (c : N) : bool :=
  (ascii_digit c || ascii_letter c || (c =? 95) || (c =? 45) || (c =? 43) || (c =? 46))%N.

(** parse.rs 861-866 [Keyword::all] *)
Definition keyword_all : list str :=
  [s2b "if"; s2b "not"; s2b "else"; s2b "endif"; s2b "for"; s2b "in"; s2b "endfor"; s2b "with";
   s2b "as"; s2b "endwith"; s2b "include"; s2b "true"; s2b "false"].

Section Lexer.
Context `{X : Ext}.
Variable sr : searcher.
Variable source : str.

(** lex.rs 534-536 / 544-546 [is_ident_start].  (In the non-"unicode" build the
    oracle [xid_start] already contains the underscore.) *)
Definition is_ident_start (c : N) : bool := (c =? 95)%N || xid_start c.
(** lex.rs 539-541 / 549-551 [is_ident] *)
Definition is_ident (c : N) : bool := xid_continue c.

(** lex.rs 122-132 [Lexer::new] *)
Definition lexer_new : lexer := mklexer 0 LTemplate false None.

(** lex.rs 438-441 *)
Definition err_unclosed {A} (begin_ : span) (end_ : token) : res A :=
  let* e := token_pair end_ in
  err_syntax (s2b "unclosed " ++ token_human e) source begin_.
(** lex.rs 443-446 *)
Definition lex_err_unexpected_token {A} (tk : token) (sp : span) : res A :=
  err_syntax (s2b "unexpected " ++ token_human tk) source sp.
(** lex.rs 448-450 *)
Definition err_unexpected_character {A} (sp : span) : res A :=
  err_syntax (s2b "unexpected character") source sp.
(** lex.rs 452-454 *)
Definition err_undelimited_string {A} (sp : span) : res A :=
  err_syntax (s2b "undelimited string") source sp.

(** lex.rs 176-186: the closure [trim_raw_token]; returns the raw token's span and
    the new [left_trim] *)
Definition trim_raw_token (left_trim : bool) (i j : nat) (right_trim : bool) : res (span * bool) :=
  let* j := (if right_trim then
               let* s := slice source 0 j in Ok (length (trim_end s))
             else Ok j) in
  if left_trim then
    let* s := slice source i j in
    Ok (mkspan (i + (length s - length (trim_start s))) j, false)
  else Ok (mkspan i j, left_trim).

Definition lexout := (option (token * span) * lexer)%type.

(** lex.rs 164-224 [lex_template] *)
Definition lex_template (lx : lexer) (i : nat) : res lexout :=
  let* m := find_at sr source i in
  match m with
  | Some (k, j, n) =>
    let '(tk, trim) := from_kind k in
    if negb (is_begin_tag tk) then lex_err_unexpected_token tk (mkspan j n)
    else
      let begin_ := mkspan j n in
      let* end_ := token_pair tk in
      let st := match tk with TBeginComment => LComment begin_ end_ | _ => LBlock begin_ end_ end in
      if i =? j then
        Ok (Some (tk, begin_), mklexer n st (lx_left_trim lx) (lx_next lx))
      else
        let* (sp, lt) := trim_raw_token (lx_left_trim lx) i j trim in
        Ok (Some (TRaw, sp), mklexer n st lt (Some (tk, begin_)))
  | None =>
    let j := length source in
    let* (sp, lt) := trim_raw_token (lx_left_trim lx) i j false in
    Ok (Some (TRaw, sp), mklexer j (lx_state lx) lt (lx_next lx))
  end.

(** lex.rs 422-436 [lex_while]; the iterator is the list of the remaining
    (index, char) pairs *)
Fixpoint lex_while (iter : list (nat * N)) (pred : N -> bool) : nat :=
  match iter with
  | [] => length source
  | (j, c) :: iter' => if pred c then lex_while iter' pred else j
  end.

(** lex.rs 355-364 [lex_question_dot] *)
Definition lex_question_dot (iter : list (nat * N)) (i : nat) : res (token * nat) :=
  match iter with
  | (j, c) :: _ =>
    if (c =? 46)%N then Ok (TQuestionDot, i + 2)
    else err_unexpected_character (mkspan i (j + len_utf8 c))
  | [] => err_unexpected_character (mkspan i (length source))
  end.

(** lex.rs 366-387 [lex_string] *)
Fixpoint lex_string_loop (iter : list (nat * N)) (i : nat) (curr : N) : res (token * nat) :=
  match iter with
  | [] => err_undelimited_string (mkspan i (length source))
  | (j, c) :: iter' =>
    if ((c =? 13) || (c =? 10))%N then err_undelimited_string (mkspan i j)
    else if ((c =? 34) && negb (curr =? 92))%N then Ok (TString, j + 1)
    else lex_string_loop iter' i c
  end.
Definition lex_string (iter : list (nat * N)) (i : nat) : res (token * nat) :=
  lex_string_loop iter i 34%N.

(** lex.rs 410-420 [lex_ident_or_keyword] *)
Definition lex_ident_or_keyword (iter : list (nat * N)) (i : nat) : res (token * nat) :=
  let j := lex_while iter is_ident in
  let* s := slice source i j in
  Ok (if existsb (str_eqb s) keyword_all then TKeyword else TIdent, j).

(** lex.rs 263-290: the [match c] of [lex_block] *)
Definition lex_block_char (bs : block_state) (iter : list (nat * N)) (i : nat) (c : N)
  : res (token * nat) :=
  if (c =? 46)%N then Ok (TDot, i + 1)
  else if (c =? 124)%N then Ok (TPipe, i + 1)
  else if (c =? 44)%N then Ok (TComma, i + 1)
  else if (c =? 58)%N then Ok (TColon, i + 1)
  else if (c =? 43)%N then Ok (TPlus, i + 1)
  else if (c =? 45)%N then Ok (TMinus, i + 1)
  else if (c =? 63)%N then lex_question_dot iter i
  else if (c =? 34)%N then lex_string iter i
  else if ascii_digit c then
    match bs with
    | BPath => Ok (TIndex, lex_while iter is_index)      (* lex.rs 396-401 *)
    | BUnknown => Ok (TNumber, lex_while iter is_number) (* lex.rs 389-394 *)
    end
  else if is_ws c then Ok (TWhitespace, lex_while iter is_ws) (* lex.rs 403-408 *)
  else if is_ident_start c then lex_ident_or_keyword iter i
  else err_unexpected_character (mkspan i (i + len_utf8 c)).

(** lex.rs 226-305 [lex_block] *)
Definition lex_block (lx : lexer) (bs : block_state) (begin_ : span) (end_ : token) (i : nat)
  : res lexout :=
  let* m := starts_with sr source i in
  let* (tk, j, st, lt) :=
    match m with
    | Some (k, j) =>
      let '(tk, trim) := from_kind k in
      if is_begin_tag tk then err_unclosed begin_ end_
      else if negb (token_eqb tk end_) then lex_err_unexpected_token tk (mkspan i j)
      else Ok (tk, j, LTemplate, trim)
    | None =>
      let* rest := slice_from source i in
      match char_indices i rest with
      | [] => Panic
      | (i, c) :: iter =>
        let* (tk, j) := lex_block_char bs iter i c in
        Ok (tk, j, lx_state lx, lx_left_trim lx)
      end
    end in
  let st :=
    match bs, tk with
    | BUnknown, TIdent => LBlockPath begin_ end_
    | BPath, (TPipe | TComma | TColon) => LBlock begin_ end_
    | _, _ => st
    end in
  Ok (Some (tk, mkspan i j), mklexer j st lt (lx_next lx)).

(** lex.rs 307-353 [lex_comment] *)
Definition lex_comment (lx : lexer) (begin_ : span) (end_ : token) (i : nat) : res lexout :=
  let* m := find_at sr source i in
  match m with
  | Some (k, j, n) =>
    let '(tk, trim) := from_kind k in
    if is_begin_tag tk then err_unclosed begin_ end_
    else if negb (token_eqb tk end_) then lex_err_unexpected_token tk (mkspan j n)
    else if i =? j then
      Ok (Some (tk, mkspan j n), mklexer n LTemplate trim (lx_next lx))
    else
      Ok (Some (TRaw, mkspan i j), mklexer n LTemplate trim (Some (tk, mkspan j n)))
  | None =>
    let j := length source in
    Ok (Some (TRaw, mkspan i j), mklexer j (lx_state lx) (lx_left_trim lx) (lx_next lx))
  end.

(** lex.rs 145-162 [lex] *)
Definition lex (lx : lexer) : res lexout :=
  match lx_next lx with
  | Some t => Ok (Some t, mklexer (lx_cursor lx) (lx_state lx) (lx_left_trim lx) None)
  | None =>
    let i := lx_cursor lx in
    let* rest := slice_from source i in
    match rest with
    | [] => Ok (None, lx)
    | _ =>
      match lx_state lx with
      | LTemplate => lex_template lx i
      | LBlock b e => lex_block lx BUnknown b e i
      | LBlockPath b e => lex_block lx BPath b e i
      | LComment b e => lex_comment lx b e i
      end
    end
  end.

(** lex.rs 134-142 [Lexer::next]: skip whitespace tokens *)
Fixpoint lexer_next_loop (fuel : nat) (lx : lexer) : res lexout :=
  match fuel with
  | 0 => OutOfFuel
  | S fuel' =>
    let* (t, lx') := lex lx in
    match t with
    | Some (TWhitespace, _) => lexer_next_loop fuel' lx'
    | _ => Ok (t, lx')
    end
  end.
Definition lexer_next (lx : lexer) : res lexout := lexer_next_loop (S (length source)) lx.

(** The whole token sequence (what calling [next] until [None] yields, as the
    unit tests' helper [lex] does, lex.rs 871-884).  Model only: used to state
    properties of the tokenizer. *)
Fixpoint lex_all_loop (fuel : nat) (lx : lexer) : res (list (token * span)) :=
  match fuel with
  | 0 => OutOfFuel
  | S fuel' =>
    let* (t, lx') := lexer_next lx in
    match t with
    | None => Ok []
    | Some t => let* ts := lex_all_loop fuel' lx' in Ok (t :: ts)
    end
  end.
Definition lex_all : res (list (token * span)) := lex_all_loop (2 * length source + 2) lexer_new.

End Lexer.
