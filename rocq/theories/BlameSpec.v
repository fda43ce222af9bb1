(** What it means for a syntax error to point at the offending place, and for its
    message to be true.  Nothing here refers to the lexer or the parser. *)
From Verif Require Import Base Utf8 Ext Errors Syntax SearchSpec Value Ast Lexer LexSpec GrammarSpec LayoutSpec.

(** The tokens of a source, without their positions. *)
Definition words (source : str) (ts : list tok) : list (token * str) := map (sense source) ts.

Section Blame.
Context `{X : Ext}.

(** The tokens of some template. *)
Definition sentence (ws : list (token * str)) : Prop :=
  exists source ts l, g_scope source ts l /\ words source ts = ws.
(** Some template begins with these tokens. *)
Definition viable (ws : list (token * str)) : Prop := exists more, sentence (ws ++ more).
(** These tokens occur, next to each other, in some template. *)
Definition possible (ws : list (token * str)) : Prop := exists before more, sentence (before ++ ws ++ more).
(** Some template ends with these tokens. *)
Definition final (ws : list (token * str)) : Prop := exists before, sentence (before ++ ws).

Definition is_opening (t : token) : bool :=
  match t with TBeginExpr | TBeginBlock | TBeginComment => true | _ => false end.

(** The beginning of a tag: an opening delimiter and tokens that are not delimiters. *)
Definition tag_start (ts : list tok) : Prop :=
  exists t b inner, ts = (t, b) :: inner /\ is_opening t = true /\ Forall (fun u => is_delimiter (fst u) = false) inner.
(** A tag: up to the closing delimiter. *)
Definition full_tag (ts : list tok) : Prop :=
  exists t b inner e, ts = (t, b) :: inner ++ [(closing_of t, e)] /\ is_opening t = true /\
    Forall (fun u => is_delimiter (fst u) = false) inner.

(** ** Messages *)

(** What the messages call the tokens. *)
Definition name_of (t : token) : string :=
  match t with
  | TRaw => "raw template"
  | TBeginExpr => "begin expression" | TEndExpr => "end expression"
  | TBeginBlock => "begin block" | TEndBlock => "end block"
  | TBeginComment => "begin comment" | TEndComment => "end comment"
  | TDot => "member access operator" | TQuestionDot => "optional member access operator"
  | TPipe => "pipe" | TComma => "comma" | TColon => "colon" | TMinus => "minus" | TPlus => "plus"
  | TWhitespace => "whitespace" | TKeyword => "keyword" | TIdent => "identifier"
  | TIndex => "index" | TString => "string" | TNumber => "number"
  end.

(** [wanted ws what]: after the tokens [ws] could come [what]. *)
Inductive wanted (ws : list (token * str)) : str -> Prop :=
| wa_token t x : possible (ws ++ [(t, x)]) -> wanted ws (s2b (name_of t))
| wa_expression :
    (forall source ts e, g_base source ts e -> possible (ws ++ words source ts)) -> wanted ws (s2b "expression")
| wa_access : (forall x, possible (ws ++ [(TIdent, x)])) -> (forall x v, index_lit x v -> possible (ws ++ [(TIndex, x)])) ->
    wanted ws (s2b "identifier or index").

(** [complaint source ws t sp why]: the message about the token [t] at [sp], which comes
    after the tokens [ws] but cannot. *)
Inductive complaint (source : str) (ws : list (token * str)) (t : token) (sp : span) : str -> Prop :=
| co_expected what : wanted ws what -> what <> s2b (name_of t) ->
    complaint source ws t sp (s2b "expected " ++ what ++ s2b ", found " ++ s2b (name_of t))
| co_keyword k : t = TKeyword -> possible (ws ++ [(TKeyword, s2b k)]) ->
    complaint source ws t sp (s2b "expected keyword `" ++ s2b k ++ s2b "`, found keyword `" ++ txt source sp ++ s2b "`")
| co_unexpected : t = TKeyword ->
    complaint source ws t sp (s2b "unexpected keyword `" ++ txt source sp ++ s2b "`")
| co_index v : t = TIndex -> numeral 10 (txt source sp) v -> (u64_max < v)%Z ->
    complaint source ws t sp (s2b "base 10 literal out of range for unsigned 64-bit integer").

(** The name of the block of a tag. *)
Inductive block_name : list (token * str) -> str -> Prop :=
| bn_else b e : block_name [b; (TKeyword, s2b "else"); e] (s2b "else")
| bn_else_if b rest : block_name (b :: (TKeyword, s2b "else") :: (TKeyword, s2b "if") :: rest) (s2b "else if")
| bn_other b k rest : k <> s2b "else" -> block_name (b :: (TKeyword, k) :: rest) k.

(** ** Errors of the tokenizer *)
Section Stop.
Variable sx : syntax.
Variable source : str.

(** How far the tokens reach. *)
Definition reached (ts : list tok) : nat := match rev ts with (_, b) :: _ => sp_n b | [] => 0 end.
(** All tags are closed. *)
Definition at_rest (ts : list tok) : Prop :=
  ts = [] \/ exists a t b, ts = a ++ [(t, b)] /\ is_delimiter t = true /\ is_opening t = false.
(** A tag, opened by the delimiter [t] at [b], is not closed. *)
Definition in_tag (ts : list tok) (t : token) (b : span) : Prop :=
  exists a inner, ts = a ++ (t, b) :: inner /\ is_opening t = true /\ Forall (fun u => is_delimiter (fst u) = false) inner.
(** The next delimiter is [k], at [m..n].  In a comment it is the first one in the rest
    of the source; in other tags it comes right after the tokens. *)
Definition next_delimiter (ts : list tok) (k : kind) (m n : nat) : Prop :=
  best sx source (reached ts) k m n /\
  forall t b, in_tag ts t b -> t <> TBeginComment -> m = reached ts.
(** No delimiter comes next. *)
Definition no_delimiter (ts : list tok) : Prop :=
  forall k p, In (k, p) sx -> ~ occurs_at p source (reached ts).
(** Can a token begin with this character? *)
Definition begins_token (c : N) : Prop :=
  blank c = true \/ ascii_digit c = true \/ word_start c = true \/ In c [46; 124; 44; 58; 43; 45; 63; 34]%N.

(** [stop ts sp why]: after the tokens [ts] comes something that is no token, [sp] is
    where the error is, and [why] is its message. *)
Inductive stop (ts : list tok) : span -> str -> Prop :=
(** A tag is opened inside of another, which begins at [b]. *)
| stop_open t b k m n : in_tag ts t b -> next_delimiter ts k m n -> opening k = true ->
    stop ts b (s2b "unclosed " ++ s2b (name_of t))
(** A tag is closed, but none is open. *)
| stop_rest k m n : at_rest ts -> best sx source (reached ts) k m n -> opening k = false ->
    stop ts (mkspan m n) (s2b "unexpected " ++ s2b (name_of (tag_token k)))
(** A tag is closed with the wrong delimiter. *)
| stop_close t b k m n : in_tag ts t b -> next_delimiter ts k m n -> opening k = false -> tag_token k <> closing_of t ->
    stop ts (mkspan m n) (s2b "unexpected " ++ s2b (name_of (tag_token k)))
(** A character that begins no token. *)
| stop_char t b c r : in_tag ts t b -> t <> TBeginComment -> no_delimiter ts -> scalar c ->
    skipn (reached ts) source = encode c ++ r -> ~ begins_token c ->
    stop ts (mkspan (reached ts) (reached ts + length (encode c))) (s2b "unexpected character")
(** A question mark without a dot. *)
| stop_question t b c r : in_tag ts t b -> t <> TBeginComment -> no_delimiter ts -> scalar c ->
    skipn (reached ts) source = s2b "?" ++ encode c ++ r -> c <> 46%N ->
    stop ts (mkspan (reached ts) (reached ts + 1 + length (encode c))) (s2b "unexpected character")
| stop_question_end t b : in_tag ts t b -> t <> TBeginComment -> no_delimiter ts ->
    skipn (reached ts) source = s2b "?" ->
    stop ts (mkspan (reached ts) (length source)) (s2b "unexpected character")
(** A string that is not closed on its line. *)
| stop_string t b body r : in_tag ts t b -> t <> TBeginComment -> no_delimiter ts ->
    skipn (reached ts) source = s2b """" ++ flat_map encode body ++ r -> Forall scalar body ->
    (forall before c after, body = before ++ c :: after ->
       str_char_ok (last before 34%N) c) ->
    (r = [] \/ exists r', r = x0a :: r' \/ r = x0d :: r') ->
    stop ts (mkspan (reached ts) (reached ts + 1 + length (flat_map encode body))) (s2b "undelimited string").
End Stop.

(** ** All errors *)

(** The text of a literal, after the tokens [part], denotes no value. *)
Definition denotes_nothing (source : str) (part : list tok) (t : token) (sp : span) : Prop :=
  match t with
  | TNumber => forall neg v, (neg = true <-> exists before s, part = before ++ [(TMinus, s)]) -> ~ number_lit (txt source sp) neg v
  | TIndex => forall v, ~ index_lit (txt source sp) v
  | TString => forall o, ~ string_lit (txt source sp) o
  | _ => False
  end.

(** The base of an integer literal, its name, and the digits. *)
Inductive radix_of : str -> Z -> string -> str -> Prop :=
| ra_bin b : radix_of (x30 :: x62 :: b) 2 "2" b
| ra_oct b : radix_of (x30 :: x6f :: b) 8 "8" b
| ra_hex b : radix_of (x30 :: x78 :: b) 16 "16" b
| ra_dec s : ~ (exists b, s = x30 :: x62 :: b \/ s = x30 :: x6f :: b \/ s = x30 :: x78 :: b) -> radix_of s 10 "10" s.

(** A character that is not a digit in the base. *)
Definition bad_digit (c : byte) (r : Z) : Prop := c <> x5f /\ forall d, digit c d -> (r <= d)%Z.
(** The number of a literal, and whether it has a minus sign. *)
Definition number_of (lit : list tok) (s : span) (neg : bool) : Prop :=
  (lit = [(TNumber, s)] /\ neg = false) \/
  exists sign s0, lit = [(sign, s0); (TNumber, s)] /\ (sign = TMinus \/ sign = TPlus) /\ (neg = true <-> sign = TMinus).

(** Where in a literal (a token, or a sign and a number) the error is, and the message. *)
Inductive marks (source : str) : list tok -> span -> str -> Prop :=
(** All of it: too large, or at least the digits up to some point are. *)
| mk_range lit s neg r b digits pre post v : number_of lit s neg -> radix_of (txt source s) r b digits ->
    digits = pre ++ post -> numeral r pre v -> ~ (i64_min <= negated neg v <= i64_max)%Z ->
    marks source lit (span_of lit) (s2b "base " ++ s2b b ++ s2b " literal out of range for 64-bit integer")
(** All of it: it looks like a float, but is none. *)
| mk_float lit s neg : number_of lit s neg -> f64_parse (txt source s) = None ->
    (exists c, In c [x2e; x2d; x2b] /\ In c (txt source s)) ->
    marks source lit (span_of lit) (s2b "invalid float literal")
(** A character that is not a digit in its base. *)
| mk_digit s m c r b digits : sp_m s <= m -> m < sp_n s -> txt source (mkspan m (m + 1)) = [c] ->
    radix_of (txt source s) r b digits -> bad_digit c r ->
    marks source [(TNumber, s)] (mkspan m (m + 1)) (s2b "invalid digit for base " ++ s2b b ++ s2b " literal")
(** If there is a sign, the place is counted from it. *)
| mk_signed sign s s' i c r b digits : sp_m s' + i < sp_n s' -> txt source (mkspan (sp_m s' + i) (sp_m s' + i + 1)) = [c] ->
    radix_of (txt source s') r b digits -> bad_digit c r ->
    marks source [(sign, s); (TNumber, s')] (mkspan (sp_m s + i) (sp_m s + i + 1)) (s2b "invalid digit for base " ++ s2b b ++ s2b " literal")
(** The character after a backslash. *)
| mk_escape s m n c : sp_m s < m -> n < sp_n s -> txt source (mkspan (m - 1) m) = s2b "\" -> txt source (mkspan m n) = encode c ->
    scalar c -> ~ In c [110; 114; 116; 92; 34]%N ->
    marks source [(TString, s)] (mkspan m n) (s2b "unknown escape character").

(** [blame sx source sp why]: the place [sp] is to blame, because of [why]. *)
Inductive blame (sx : syntax) (source : str) : span -> str -> Prop :=
(** A token that cannot come next in its tag. *)
| bl_token raw whole part t sp rest why :
    tiling sx source false 0 (MText false) raw -> nonspace raw = whole ++ part ++ (t, sp) :: rest ->
    viable (words source whole) -> tag_start part -> possible (words source part) ->
    ~ possible (words source (part ++ [(t, sp)])) -> complaint source (words source part) t sp why ->
    blame sx source sp why
(** A literal that denotes nothing: the error is in it. *)
| bl_literal raw whole part lit t tsp sp rest why :
    tiling sx source false 0 (MText false) raw -> nonspace raw = whole ++ part ++ (t, tsp) :: rest ->
    viable (words source whole) -> tag_start part -> possible (words source part) ->
    ~ possible (words source (part ++ [(t, tsp)])) -> denotes_nothing source part t tsp ->
    (lit = [(t, tsp)] \/ exists before sign s, part = before ++ [(sign, s)] /\ (sign = TMinus \/ sign = TPlus) /\ lit = [(sign, s); (t, tsp)]) ->
    marks source lit sp why ->
    blame sx source sp why
(** A tag that cannot come next. *)
| bl_tag raw whole tag rest name :
    tiling sx source false 0 (MText false) raw -> nonspace raw = whole ++ tag ++ rest ->
    viable (words source whole) -> full_tag tag -> possible (words source tag) ->
    ~ viable (words source (whole ++ tag)) -> block_name (words source tag) name ->
    blame sx source (span_of tag) (s2b "unexpected `" ++ name ++ s2b "` block")
(** The source ends before the block that a tag opens is closed. *)
| bl_block raw whole tag rest name :
    tiling sx source true 0 (MText false) raw -> nonspace raw = whole ++ tag ++ rest ->
    viable (words source (whole ++ tag ++ rest)) -> sentence (words source whole) -> full_tag tag ->
    (forall body after, rest = body ++ after -> ~ sentence (words source (whole ++ tag ++ body))) ->
    block_name (words source tag) name ->
    blame sx source (span_of tag) (s2b "unclosed `" ++ name ++ s2b "` block")
(** The source ends inside of a tag. *)
| bl_eof raw whole part what :
    tiling sx source true 0 (MText false) raw -> nonspace raw = whole ++ part ->
    viable (words source whole) -> tag_start part -> possible (words source part) -> ~ final (words source part) ->
    wanted (words source part) what \/ what = s2b "token" ->
    blame sx source (mkspan (length source) (length source)) (s2b "expected " ++ what ++ s2b ", found EOF")
(** The source goes on with something that is no token. *)
| bl_stop raw whole part sp why :
    tiling sx source false 0 (MText false) raw -> nonspace raw = whole ++ part ->
    viable (words source whole) -> (part = [] \/ tag_start part) -> possible (words source part) ->
    stop sx source raw sp why ->
    blame sx source sp why.
End Blame.
