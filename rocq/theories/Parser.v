(** src/compile/parse.rs *)
From Verif Require Import Base Utf8 Ext Errors Syntax AhoCorasick Value Ast Lexer.
From Coq Require Import Floats.SpecFloat.

(** parse.rs 72-88 [Keyword] *)
Inductive keyword :=
| KwIf | KwNot | KwElse | KwEndIf | KwFor | KwIn | KwEndFor | KwWith | KwAs | KwEndWith
| KwInclude | KwTrue | KwFalse.

Definition keyword_eq_dec (a b : keyword) : {a = b} + {a <> b}.
Proof. decide equality. Defined.
Definition keyword_eqb (a b : keyword) : bool := if keyword_eq_dec a b then true else false.

(** parse.rs 868-884 [Keyword::human] *)
Definition keyword_human (k : keyword) : str :=
  match k with
  | KwIf => s2b "if" | KwNot => s2b "not" | KwElse => s2b "else" | KwEndIf => s2b "endif"
  | KwFor => s2b "for" | KwIn => s2b "in" | KwEndFor => s2b "endfor" | KwWith => s2b "with"
  | KwAs => s2b "as" | KwEndWith => s2b "endwith" | KwInclude => s2b "include"
  | KwTrue => s2b "true" | KwFalse => s2b "false"
  end.

Definition all_keywords : list keyword :=
  [KwIf; KwNot; KwElse; KwEndIf; KwFor; KwIn; KwEndFor; KwWith; KwAs; KwEndWith; KwInclude;
   KwTrue; KwFalse].

(** parse.rs 886-903 [Keyword::from_str]; anything else is unreachable! *)
Definition keyword_from_str (s : str) : res keyword :=
  unwrap (find (fun k => str_eqb s (keyword_human k)) all_keywords).

(** parse.rs 90-94 [Sign] *)
Inductive sign := Neg | Pos.

(** parse.rs 22-56 [State] *)
Inductive bstate :=
| StIf (is_else_if not : bool) (cond : expr) (sp : span) (has_else : bool)
| StFor (vars : loop_vars) (iterable : expr) (sp : span)
| StWith (e : expr) (name : ident) (sp : span).

(** parse.rs 59-69 [Block] *)
Inductive block :=
| BIf (not : bool) (e : expr)
| BElse
| BElseIf (not : bool) (e : expr)
| BEndIf
| BFor (vars : loop_vars) (e : expr)
| BEndFor
| BWith (e : expr) (name : ident)
| BEndWith
| BInclude (name : ast_string) (globals : option expr).

(** parse.rs 13-19 [Parser] (lexer and peeked buffer) *)
Record parser := mkparser {
  ps_lexer : lexer;
  ps_peeked : option (option (token * span))
}.

(** [char::to_digit(radix)] on an ASCII byte *)
Definition to_digit (radix : Z) (d : byte) : option Z :=
  let n := Z.of_N (byte_N d) in
  let v :=
    (if (48 <=? n) && (n <=? 57) then Some (n - 48)
     else if (97 <=? n) && (n <=? 122) then Some (n - 97 + 10)
     else if (65 <=? n) && (n <=? 90) then Some (n - 65 + 10)
     else None)%Z in
  match v with
  | Some x => if (x <? radix)%Z then Some x else None
  | None => None
  end.

(** [i64::checked_mul], [checked_add], [checked_sub]: the result if in range *)
Definition checked_i64 (z : Z) : option Z := if in_i64 z then Some z else None.

(** [str::parse::<usize>] on 64-bit, for a string of ASCII digits *)
Fixpoint parse_usize_loop (s : str) (acc : Z) : option Z :=
  match s with
  | [] => Some acc
  | d :: s' =>
    match to_digit 10 d with
    | None => None
    | Some x => let acc' := (acc * 10 + x)%Z in
                if (acc' <=? u64_max)%Z then parse_usize_loop s' acc' else None
    end
  end.
Definition parse_usize (s : str) : option N :=
  match s with [] => None | _ => option_map Z.to_N (parse_usize_loop s 0) end.

Section Parser.
Context `{X : Ext}.
Variable sr : searcher.
Variable source : str.

(** Bound on the number of iterations of every token-consuming loop of the
    parser: each iteration consumes a token and there are at most
    [2 * length source] tokens.  C02 proves it is never exhausted. *)
Definition pfuel : nat := 2 * length source + 2.

(** parse.rs 98-103 [Parser::new] *)
Definition parser_new : parser := mkparser lexer_new None.

(** parse.rs 845-848 *)
Definition err_unexpected_eof {A} (exp : str) : res A :=
  err_syntax (s2b "expected " ++ exp ++ s2b ", found EOF") source
    (mkspan (length source) (length source)).
(** parse.rs 850-853 *)
Definition err_unexpected_token {A} (exp : str) (got : token) (sp : span) : res A :=
  err_syntax (s2b "expected " ++ exp ++ s2b ", found " ++ token_human got) source sp.
(** parse.rs 855-857 *)
Definition err_unexpected_keyword {A} (kw : str) (sp : span) : res A :=
  err_syntax (s2b "unexpected keyword `" ++ kw ++ s2b "`") source sp.

(** parse.rs 834-839 [next] *)
Definition p_next (p : parser) : res (option (token * span) * parser) :=
  match ps_peeked p with
  | Some v => Ok (v, mkparser (ps_lexer p) None)
  | None => let* (t, lx) := lexer_next sr source (ps_lexer p) in Ok (t, mkparser lx None)
  end.

(** parse.rs 826-831 [peek] *)
Definition p_peek (p : parser) : res (option (token * span) * parser) :=
  match ps_peeked p with
  | Some v => Ok (v, p)
  | None => let* (t, lx) := lexer_next sr source (ps_lexer p) in Ok (t, mkparser lx (Some t))
  end.

(** parse.rs 820-822 [is_next] *)
Definition is_next (p : parser) (tk : token) : res (bool * parser) :=
  let* (t, p) := p_peek p in
  Ok (match t with Some (tk', _) => token_eqb tk' tk | None => false end, p).

(** parse.rs 812-817 [is_next_keyword] *)
Definition is_next_keyword (p : parser) (exp : keyword) : res (bool * parser) :=
  let* (t, p) := p_peek p in
  match t with
  | Some (TKeyword, sp) =>
    let* s := index_span source sp in
    let* k := keyword_from_str s in
    Ok (keyword_eqb k exp, p)
  | _ => Ok (false, p)
  end.

(** parse.rs 803-809 [expect] *)
Definition expect (p : parser) (exp : token) : res (span * parser) :=
  let* (t, p) := p_next p in
  match t with
  | Some (tk, sp) =>
    if token_eqb tk exp then Ok (sp, p) else err_unexpected_token (token_human exp) tk sp
  | None => err_unexpected_eof (token_human exp)
  end.

(** parse.rs 795-800 [parse] *)
Definition parse_any (p : parser) : res (token * span * parser) :=
  let* (t, p) := p_next p in
  match t with
  | Some (tk, sp) => Ok (tk, sp, p)
  | None => err_unexpected_eof (s2b "token")
  end.

(** parse.rs 789-792 [parse_ident] *)
Definition parse_ident (p : parser) : res (ident * parser) :=
  let* (sp, p) := expect p TIdent in Ok (mkident sp, p).

(** parse.rs 782-786 [parse_keyword] *)
Definition parse_keyword (p : parser) : res (keyword * span * parser) :=
  let* (sp, p) := expect p TKeyword in
  let* s := index_span source sp in
  let* k := keyword_from_str s in
  Ok (k, sp, p).

(** parse.rs 767-779 [expect_keyword] *)
Definition expect_keyword (p : parser) (exp : keyword) : res (span * parser) :=
  let* (k, sp, p) := parse_keyword p in
  if keyword_eqb k exp then Ok (sp, p)
  else err_syntax (s2b "expected keyword `" ++ keyword_human exp ++ s2b "`, found keyword `"
                   ++ keyword_human k ++ s2b "`") source sp.

(** parse.rs 735-757: the escape loop of [parse_string]; [iter] is the remaining
    (index, char) list, [acc] the string built so far *)
Fixpoint unescape (iter : list (nat * N)) (acc : str) : res str :=
  match iter with
  | [] => Ok acc
  | (_, c) :: iter' =>
    if (c =? 34)%N then unescape iter' acc
    else if (c =? 92)%N then
      match iter' with
      | [] => Panic
      | (i, esc) :: iter'' =>
        if (esc =? 110)%N then unescape iter'' (acc ++ [x0a])
        else if (esc =? 114)%N then unescape iter'' (acc ++ [x0d])
        else if (esc =? 116)%N then unescape iter'' (acc ++ [x09])
        else if (esc =? 92)%N then unescape iter'' (acc ++ [x5c])
        else if (esc =? 34)%N then unescape iter'' (acc ++ [x22])
        else match iter'' with
             | [] => Panic
             | (j, _) :: _ => err_syntax (s2b "unknown escape character") source (mkspan i j)
             end
      end
    else unescape iter' (acc ++ encode c)
  end.

(** parse.rs 729-764 [parse_string] *)
Definition parse_string (sp : span) : res str :=
  let* raw := index_span source sp in
  if containsb x5c raw then unescape (char_indices (sp_m sp) raw) []
  else
    let* n := usub (length raw) 1 in
    slice raw 1 n.

(** parse.rs 711-720 [parse_literal_float] *)
Definition parse_literal_float (raw : str) (sp : span) (sg : sign) : res value :=
  match f64_parse raw with
  | None => err_syntax (s2b "invalid float literal") source sp
  | Some f => Ok (VFloat (match sg with Neg => SFopp f | Pos => f end))
  end.

(** parse.rs 683-705: the [try_fold] of [parse_literal_integer]; [j] is the
    position in [digits[i..]] *)
Fixpoint int_fold (radix : Z) (i : nat) (sp : span) (sg : sign) (digits : str) (j : nat) (acc : Z)
  : res Z :=
  match digits with
  | [] => Ok acc
  | d :: ds =>
    if Byte.eqb d x5f then int_fold radix i sp sg ds (S j) acc
    else
      match to_digit radix d with
      | None =>
        let m := sp_m sp + i + j in
        err_syntax (s2b "invalid digit for base " ++ show_Z radix ++ s2b " literal") source
          (mkspan m (m + 1))
      | Some x =>
        let err := err_syntax (s2b "base " ++ show_Z radix
                                 ++ s2b " literal out of range for 64-bit integer") source sp in
        match checked_i64 (acc * radix) with
        | None => err
        | Some v =>
          match checked_i64 (match sg with Pos => v + x | Neg => v - x end) with
          | None => err
          | Some v' => int_fold radix i sp sg ds (S j) v'
          end
        end
      end
  end.

(** parse.rs 673-680: the radix prefix *)
Definition int_radix (digits : str) : nat * Z :=
  match digits with
  | x30 :: x62 :: _ => (2, 2%Z)
  | x30 :: x6f :: _ => (2, 8%Z)
  | x30 :: x78 :: _ => (2, 16%Z)
  | _ => (0, 10%Z)
  end.

(** parse.rs 671-708 [parse_literal_integer] *)
Definition parse_literal_integer (raw : str) (sp : span) (sg : sign) : res value :=
  let '(i, radix) := int_radix raw in
  let* z := int_fold radix i sp sg (skipn i raw) 0 0%Z in
  Ok (VInt z).

(** parse.rs 649-668 [parse_literal_number] *)
Definition parse_literal_number (raw : str) (sp : span) (sg : sign) : res value :=
  match parse_literal_integer raw sp sg with
  | Err e =>
    match parse_literal_float raw sp sg with
    | Err e2 =>
      if containsb x2e raw || containsb x2d raw || containsb x2b raw then Err e2 else Err e
    | r => r
    end
  | r => r
  end.

(** parse.rs 636-646 [parse_literal_bool] *)
Definition parse_literal_bool (sp : span) : res value :=
  let* s := index_span source sp in
  if str_eqb s (s2b "false") then Ok (VBool false)
  else if str_eqb s (s2b "true") then Ok (VBool true)
  else err_unexpected_keyword s sp.

(** parse.rs 573-593 [parse_access] *)
Definition parse_access (p : parser) : res (access * parser) :=
  let* (tk, sp, p) := parse_any p in
  match tk with
  | TIndex =>
    let* s := index_span source sp in
    match parse_usize s with
    | Some v => Ok (AIndex v sp, p)
    | None => err_syntax (s2b "base 10 literal out of range for unsigned 64-bit integer") source sp
    end
  | TIdent => Ok (AKey (mkident sp), p)
  | _ => err_unexpected_token (s2b "identifier or index") tk sp
  end.

(** parse.rs 534-561 [parse_var]; [path] is in order *)
Fixpoint parse_var_loop (fuel : nat) (p : parser) (path : var) : res (var * parser) :=
  match fuel with
  | 0 => OutOfFuel
  | S fuel' =>
    let* (t, p) := p_peek p in
    match t with
    | Some (TDot, sp) =>
      let* (_, p) := expect p TDot in
      let* (a, p) := parse_access p in
      parse_var_loop fuel' p (path ++ [mkmember Direct a (combine_span sp (access_span a))])
    | Some (TQuestionDot, sp) =>
      let* (_, p) := expect p TQuestionDot in
      let* (a, p) := parse_access p in
      parse_var_loop fuel' p (path ++ [mkmember Optional a (combine_span sp (access_span a))])
    | _ => Ok (path, p)
    end
  end.
Definition parse_var (p : parser) (first : member) : res (var * parser) :=
  parse_var_loop pfuel p [first].

(** parse.rs 479-523 [parse_base_expr] *)
Definition parse_base_expr (p : parser) : res (base_expr * parser) :=
  let* (tk, sp, p) := parse_any p in
  match tk with
  | TKeyword => let* v := parse_literal_bool sp in Ok (BLit v sp, p)
  | TMinus =>
    let* (nsp, p) := expect p TNumber in
    let* raw := index_span source nsp in
    let span := combine_span sp nsp in
    let* v := parse_literal_number raw span Neg in
    Ok (BLit v span, p)
  | TPlus =>
    let* (nsp, p) := expect p TNumber in
    let* raw := index_span source nsp in
    let span := combine_span sp nsp in
    let* v := parse_literal_number raw span Pos in
    Ok (BLit v span, p)
  | TNumber =>
    let* raw := index_span source sp in
    let* v := parse_literal_number raw sp Pos in
    Ok (BLit v sp, p)
  | TString =>
    (* parse.rs 723-726 [parse_literal_string] *)
    let* s := parse_string sp in
    Ok (BLit (VStr s) sp, p)
  | TIdent =>
    let* (v, p) := parse_var p (mkmember Direct (AKey (mkident sp)) sp) in
    Ok (BVar v, p)
  | _ => err_unexpected_token (s2b "expression") tk sp
  end.

(** parse.rs 602-613 [parse_args]; [values] in order *)
Fixpoint parse_args_loop (fuel : nat) (p : parser) (values : list base_expr)
  : res (list base_expr * parser) :=
  match fuel with
  | 0 => OutOfFuel
  | S fuel' =>
    let* (b, p) := parse_base_expr p in
    let values := values ++ [b] in
    let* (c, p) := is_next p TComma in
    if c then
      let* (_, p) := expect p TComma in
      parse_args_loop fuel' p values
    else Ok (values, p)
  end.
Definition parse_args (p : parser) (sp : span) : res (args * parser) :=
  let* (values, p) := parse_args_loop pfuel p [] in
  let* last := unwrap (hd_error (rev values)) in
  let* lsp := base_span last in
  Ok (mkargs values (combine_span sp lsp), p).

(** parse.rs 444-466 [parse_expr] *)
Fixpoint parse_expr_loop (fuel : nat) (p : parser) (e : expr) : res (expr * parser) :=
  match fuel with
  | 0 => OutOfFuel
  | S fuel' =>
    let* (b, p) := is_next p TPipe in
    if b then
      let* (_, p) := expect p TPipe in
      let* (name, p) := parse_ident p in
      let* (c, p) := is_next p TColon in
      if c then
        let* (sp, p) := expect p TColon in
        let* (a, p) := parse_args p sp in
        let* esp := expr_span e in
        parse_expr_loop fuel' p (ECall name (Some a) e (combine_span esp (a_span a)))
      else
        let* esp := expr_span e in
        parse_expr_loop fuel' p (ECall name None e (combine_span esp (id_span name)))
    else Ok (e, p)
  end.
Definition parse_expr (p : parser) : res (expr * parser) :=
  let* (b, p) := parse_base_expr p in
  parse_expr_loop pfuel p (EBase b).

(** parse.rs 624-633 [parse_loop_vars] *)
Definition parse_loop_vars (p : parser) : res (loop_vars * parser) :=
  let* (key, p) := parse_ident p in
  let* (c, p) := is_next p TComma in
  if c then
    let* (_, p) := expect p TComma in
    let* (value, p) := parse_ident p in
    Ok (LVKeyValue key value (combine_span (id_span key) (id_span value)), p)
  else Ok (LVItem key, p).

(** parse.rs 427-436 [parse_if_cond] *)
Definition parse_if_cond (p : parser) : res (bool * expr * parser) :=
  let* (n, p) := is_next_keyword p KwNot in
  if n then
    let* (_, p) := expect_keyword p KwNot in
    let* (e, p) := parse_expr p in
    Ok (true, e, p)
  else
    let* (e, p) := parse_expr p in
    Ok (false, e, p).

(** parse.rs 374-420 [parse_block] *)
Definition parse_block (p : parser) : res (block * parser) :=
  let* (kw, sp, p) := parse_keyword p in
  match kw with
  | KwIf => let* (n, e, p) := parse_if_cond p in Ok (BIf n e, p)
  | KwElse =>
    let* (b, p) := is_next_keyword p KwIf in
    if b then
      let* (_, p) := expect_keyword p KwIf in
      let* (n, e, p) := parse_if_cond p in
      Ok (BElseIf n e, p)
    else Ok (BElse, p)
  | KwEndIf => Ok (BEndIf, p)
  | KwFor =>
    let* (vars, p) := parse_loop_vars p in
    let* (_, p) := expect_keyword p KwIn in
    let* (e, p) := parse_expr p in
    Ok (BFor vars e, p)
  | KwEndFor => Ok (BEndFor, p)
  | KwWith =>
    let* (e, p) := parse_expr p in
    let* (_, p) := expect_keyword p KwAs in
    let* (name, p) := parse_ident p in
    Ok (BWith e name, p)
  | KwEndWith => Ok (BEndWith, p)
  | KwInclude =>
    let* (ssp, p) := expect p TString in
    let* name := parse_string ssp in
    let* (b, p) := is_next_keyword p KwWith in
    if b then
      let* (_, p) := expect_keyword p KwWith in
      let* (e, p) := parse_expr p in
      Ok (BInclude (mkaststr name ssp) (Some e), p)
    else Ok (BInclude (mkaststr name ssp) None, p)
  | kw => err_unexpected_keyword (keyword_human kw) sp
  end.

(** The two stacks of [parse_template]; the head of the list is the top. *)
Definition blocks := list bstate.
Definition scopes := list scope.

(** parse.rs 331: scopes.last_mut().unwrap().stmts.push(stmt) *)
Definition push_stmt (st : stmt) (sc : scopes) : res scopes :=
  match sc with
  | [] => Panic
  | s :: sc' => Ok ((s ++ [st]) :: sc')
  end.

(** parse.rs 215-247: the loop for [Block::EndIf] *)
Fixpoint end_if_loop (bl : blocks) (sc : scopes) (sp : span) : res (stmt * blocks * scopes) :=
  let err := err_syntax (s2b "unexpected `endif` block") source sp in
  match bl with
  | [] => err
  | StIf is_else_if not_ cond _ has_else :: bl' =>
    let* (else_branch, sc) :=
      (if has_else : bool then
         match sc with [] => Panic | s :: sc' => Ok (Some s, sc') end
       else Ok (None, sc)) in
    match sc with
    | [] => Panic
    | then_branch :: sc' =>
      let st := SIf not_ cond then_branch else_branch in
      if negb is_else_if then Ok (st, bl', sc')
      else
        let* sc'' := push_stmt st sc' in
        end_if_loop bl' sc'' sp
    end
  | _ => err
  end.

(** parse.rs 170-179, 195-204: set [has_else] on the top block *)
Definition set_has_else (bl : blocks) (msg : str) (sp : span) : res blocks :=
  match bl with
  | StIf ei n c s false :: bl' => Ok (StIf ei n c s true :: bl')
  | _ => err_syntax msg source sp
  end.

(** parse.rs 135-330: handling of one parsed block; [None] = "continue" *)
Definition handle_block (b : block) (sp : span) (bl : blocks) (sc : scopes)
  : res (option stmt * blocks * scopes) :=
  match b with
  | BIf n c => Ok (None, StIf false n c sp false :: bl, [] :: sc)
  | BElseIf n c =>
    let* bl := set_has_else bl (s2b "unexpected `else if` block") sp in
    Ok (None, StIf true n c sp false :: bl, [] :: [] :: sc)
  | BElse =>
    let* bl := set_has_else bl (s2b "unexpected `else` block") sp in
    Ok (None, bl, [] :: sc)
  | BEndIf => let* (st, bl, sc) := end_if_loop bl sc sp in Ok (Some st, bl, sc)
  | BFor vars e => Ok (None, StFor vars e sp :: bl, [] :: sc)
  | BEndFor =>
    match bl with
    | StFor vars e _ :: bl' =>
      match sc with
      | [] => Panic
      | body :: sc' => Ok (Some (SFor vars e body), bl', sc')
      end
    | _ => err_syntax (s2b "unexpected `endfor` block") source sp
    end
  | BWith e name => Ok (None, StWith e name sp :: bl, [] :: sc)
  | BEndWith =>
    match bl with
    | StWith e name _ :: bl' =>
      match sc with
      | [] => Panic
      | body :: sc' => Ok (Some (SWith e name body), bl', sc')
      end
    | _ => err_syntax (s2b "unexpected `endwith` block") source sp
    end
  | BInclude name g => Ok (Some (SInclude name g), bl, sc)
  end.

(** parse.rs 113-330: one token at statement level; [None] = "continue" *)
Definition parse_stmt (tk : token) (begin_ : span) (p : parser) (bl : blocks) (sc : scopes)
  : res (option stmt * blocks * scopes * parser) :=
  match tk with
  | TRaw => Ok (Some (SRaw begin_), bl, sc, p)
  | TBeginComment =>
    let* (_, p) := expect p TRaw in
    let* (_, p) := expect p TEndComment in
    Ok (None, bl, sc, p)
  | TBeginExpr =>
    let* (e, p) := parse_expr p in
    let* (end_, p) := expect p TEndExpr in
    Ok (Some (SInline e (combine_span begin_ end_)), bl, sc, p)
  | TBeginBlock =>
    let* (b, p) := parse_block p in
    let* (end_, p) := expect p TEndBlock in
    let* (st, bl, sc) := handle_block b (combine_span begin_ end_) bl sc in
    Ok (st, bl, sc, p)
  | _ => Panic
  end.

Fixpoint parse_template_loop (fuel : nat) (p : parser) (bl : blocks) (sc : scopes)
  : res (blocks * scopes) :=
  match fuel with
  | 0 => OutOfFuel
  | S fuel' =>
    let* (t, p) := p_next p in
    match t with
    | None => Ok (bl, sc)
    | Some (tk, sp) =>
      let* (st, bl, sc, p) := parse_stmt tk sp p bl sc in
      match st with
      | Some st => let* sc := push_stmt st sc in parse_template_loop fuel' p bl sc
      | None => parse_template_loop fuel' p bl sc
      end
    end
  end.

(** parse.rs 109-357 [parse_template]; [blocks.first()] is the bottom of the
    stack *)
Definition parse_template : res scope :=
  let* (bl, sc) := parse_template_loop pfuel parser_new [] [[]] in
  match rev bl with
  | b :: _ =>
    match b with
    | StIf _ _ _ sp _ => err_syntax (s2b "unclosed `if` block") source sp
    | StFor _ _ sp => err_syntax (s2b "unclosed `for` block") source sp
    | StWith _ _ sp => err_syntax (s2b "unclosed `with` block") source sp
    end
  | [] =>
    match sc with
    | [s] => Ok s
    | _ => Panic
    end
  end.

End Parser.
