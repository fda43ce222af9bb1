(** More validation of the model: the tests of the repository that Tests.v does not
    have (/repo/tests/{compile,lex,render,filters,to_value,macros,engine,render_non_serde}.rs
    and the unit tests of src/compile/lex.rs and src/types/syntax.rs), evaluated in the
    model.  These are tests of the model, not proofs of properties. *)
From Verif Require Import Base Utf8 Ext Errors Syntax AhoCorasick Value Ast Lexer Parser Compiler
  Fmt Stack Filters Render Engine Serde Macros Tests.
From Coq Require Import Floats.SpecFloat.

(** Enough of the "unicode" build for the tests: Cyrillic letters, a wide character, and
    floats that are read and shown. *)
Definition test_ext : Ext := {|
  xid_start := fun c => xid_start (Ext := ascii_ext) c || ((1024 <=? c) && (c <? 1280))%N;
  xid_continue := fun c => xid_continue (Ext := ascii_ext) c || ((1024 <=? c) && (c <? 1280))%N;
  display_width := fun s => list_sum (map (fun c => if (c =? 10024)%N then 2 else 1) (chars s));
  f64_parse := fun s => if existsb (fun b => Byte.eqb b x2e || Byte.eqb b x65) s then Some (S754_finite false 1%positive 0%Z) else None;
  f64_display := fun _ => [s2b "123.4"];
  f64_to_f32 := fun f => f
|}.
Local Existing Instance test_ext.

Definition with_engine_new {A} (d : A) (f : engine -> A) : A := match engine_new with Ok e => f e | _ => d end.
Definition fns (fs : list (string * engine_fn)) (e : engine) : engine :=
  fold_left (fun e nf => match snd nf with
    | EFilter f => fst (add_filter (s2b (fst nf)) f e)
    | EFormatter f => fst (add_formatter (s2b (fst nf)) f e) end) fs e.
Definition shown {A} (r : res A) : outcome str A :=
  match r with Ok a => Ok a | Err e => Err (display_error_alt e) | Panic => Panic | OutOfFuel => OutOfFuel end.
Definition rend2 (fs : list (string * engine_fn)) (ts : list (string * string)) (src : string) (v : value) : outcome str str :=
  with_engine_new OutOfFuel (fun e =>
    let e := fns fs (fold_left (fun e p => fst (add_template (s2b (fst p)) (s2b (snd p)) e)) ts e) in
    shown (let* t := engine_compile (s2b src) e in to_string 1000 (template_renderer t e) (GOwned (Ok v)))).
Definition compiles (src : string) : bool :=
  with_engine_new false (fun e => match engine_compile (s2b src) e with Ok _ => true | _ => false end).
Definition obj (l : list (string * value)) : value := VMap (map_of_list (map (fun p => (s2b (fst p), snd p)) l)).
Definition vs (s : string) : value := VStr (s2b s).

(** ** tests/compile.rs *)
Definition base_exprs : list string :=
  ["nested.path"; """normal"""; """escaped \n \r \t \\ \"""""; "true"; "false"; "123"; "-123"; "+123"; "0x1f"; "0o777"; "0b1010";
   "3."; "+3."; "-3."; "3.14"; "+3.14"; "-3.14"; "3.14e2"; "+3.14e2"; "-3.14e2"; "3.14e+2"; "+3.14e+2"; "-3.14e+2";
   "314e-2"; "+314e-2"; "-314e-2"]%string.
(* compile_inline_expr_filter_with_index, compile_inline_expr_literal, compile_inline_expr_filter_arg, compile_inline_expr_filter_args *)
Example t2_compile : forallb compiles
  (("lorem {{ ipsum | dolor: 0.5, sit.123.amet }}" :: "{{ lorem | ipsum: true, 3.14, -0b1010 }}" ::
    map (fun a => "{{ " ++ a ++ " }}") base_exprs ++ map (fun a => "{{ lorem | ipsum: " ++ a ++ " }}") base_exprs)%string) = true.
Proof. vm_compute. reflexivity. Qed.

(** ** src/compile/lex.rs 561-887 *)
Fixpoint lex_seq (fuel : nat) (sr : searcher) (source : str) (lx : lexer) : outcome error (list (token * str)) :=
  match fuel with
  | 0 => OutOfFuel
  | S fuel' =>
    let* (t, lx') := lex sr source lx in
    match t with
    | None => let* (t1, lx1) := lex sr source lx' in let* (t2, lx2) := lex sr source lx1 in let* (t3, _) := lex sr source lx2 in
              match t1, t2, t3 with None, None, None => Ok [] | _, _, _ => Panic end
    | Some (tk, sp) => let* s := index_span source sp in let* ts := lex_seq fuel' sr source lx' in Ok ((tk, s) :: ts)
    end
  end.
Definition lexs (src : string) : outcome str (list (token * str)) :=
  with_engine_new OutOfFuel (fun e => shown (lex_seq 200 (en_searcher e) (s2b src) lexer_new)).
Definition toks (l : list (token * string)) : outcome str (list (token * str)) := Ok (map (fun p => (fst p, s2b (snd p))) l).
Definition tab : string := String (Ascii.ascii_of_nat 9) EmptyString.
Definition lf : string := String (Ascii.ascii_of_nat 10) EmptyString.
Open Scope string_scope.
(* lex_empty .. lex_comment_trim *)
Example t2_lex :
  map lexs [""; "lorem ipsum"; "lorem ipsum {{"; "lorem ipsum " ++ tab ++ lf ++ "{{-"; "lorem ipsum {{ dolor";
            "lorem ipsum {{ -}} " ++ tab ++ lf ++ "dolor sit amet"; "lorem ipsum {{}}"; "lorem {{ -}}  {{- }} dolor"] =
  map toks [[]; [(TRaw, "lorem ipsum")]; [(TRaw, "lorem ipsum "); (TBeginExpr, "{{")]; [(TRaw, "lorem ipsum"); (TBeginExpr, "{{-")];
    [(TRaw, "lorem ipsum "); (TBeginExpr, "{{"); (TWhitespace, " "); (TIdent, "dolor")];
    [(TRaw, "lorem ipsum "); (TBeginExpr, "{{"); (TWhitespace, " "); (TEndExpr, "-}}"); (TRaw, "dolor sit amet")];
    [(TRaw, "lorem ipsum "); (TBeginExpr, "{{"); (TEndExpr, "}}")];
    [(TRaw, "lorem "); (TBeginExpr, "{{"); (TWhitespace, " "); (TEndExpr, "-}}"); (TRaw, ""); (TBeginExpr, "{{-"); (TWhitespace, " "); (TEndExpr, "}}"); (TRaw, " dolor")]].
Proof. vm_compute. reflexivity. Qed.
Example t2_lex_expr :
  map lexs ["lorem ipsum {{ . ?. |" ++ tab ++ " _aZ_0 привіт :""hello\n"" 0.5 0xffee00 }} dolor sit amet";
            "lorem {{ ipsum.123?.dolor }} sit amet"; "lorem ipsum    {{- .|" ++ tab ++ " aZ_0 -}}    dolor sit amet"] =
  map toks [[(TRaw, "lorem ipsum "); (TBeginExpr, "{{"); (TWhitespace, " "); (TDot, "."); (TWhitespace, " "); (TQuestionDot, "?."); (TWhitespace, " ");
     (TPipe, "|"); (TWhitespace, tab ++ " "); (TIdent, "_aZ_0"); (TWhitespace, " "); (TIdent, "привіт"); (TWhitespace, " "); (TColon, ":");
     (TString, """hello\n"""); (TWhitespace, " "); (TNumber, "0.5"); (TWhitespace, " "); (TNumber, "0xffee00"); (TWhitespace, " "); (TEndExpr, "}}"); (TRaw, " dolor sit amet")];
    [(TRaw, "lorem "); (TBeginExpr, "{{"); (TWhitespace, " "); (TIdent, "ipsum"); (TDot, "."); (TIndex, "123"); (TQuestionDot, "?."); (TIdent, "dolor"); (TWhitespace, " "); (TEndExpr, "}}"); (TRaw, " sit amet")];
    [(TRaw, "lorem ipsum"); (TBeginExpr, "{{-"); (TWhitespace, " "); (TDot, "."); (TPipe, "|"); (TWhitespace, tab ++ " "); (TIdent, "aZ_0"); (TWhitespace, " "); (TEndExpr, "-}}"); (TRaw, "dolor sit amet")]].
Proof. vm_compute. reflexivity. Qed.
Example t2_lex_block :
  map lexs ["lorem ipsum {%"; "lorem ipsum {%%}"; "{% if cond %} lorem ipsum {{ path.segment }} dolor sit amet {% end %}"] =
  map toks [[(TRaw, "lorem ipsum "); (TBeginBlock, "{%")]; [(TRaw, "lorem ipsum "); (TBeginBlock, "{%"); (TEndBlock, "%}")];
    [(TBeginBlock, "{%"); (TWhitespace, " "); (TKeyword, "if"); (TWhitespace, " "); (TIdent, "cond"); (TWhitespace, " "); (TEndBlock, "%}");
     (TRaw, " lorem ipsum "); (TBeginExpr, "{{"); (TWhitespace, " "); (TIdent, "path"); (TDot, "."); (TIdent, "segment"); (TWhitespace, " "); (TEndExpr, "}}");
     (TRaw, " dolor sit amet "); (TBeginBlock, "{%"); (TWhitespace, " "); (TIdent, "end"); (TWhitespace, " "); (TEndBlock, "%}")]].
Proof. vm_compute. reflexivity. Qed.
Example t2_lex_comment :
  map lexs ["lorem ipsum {#"; "lorem ipsum " ++ tab ++ lf ++ "{#-"; "lorem ipsum {# dolor"; "lorem ipsum {# -#} " ++ tab ++ lf ++ "dolor sit amet";
            "lorem ipsum {##}"; "lorem ipsum {# anything goes e.g. - # { #}"] =
  map toks [[(TRaw, "lorem ipsum "); (TBeginComment, "{#")]; [(TRaw, "lorem ipsum"); (TBeginComment, "{#-")];
    [(TRaw, "lorem ipsum "); (TBeginComment, "{#"); (TRaw, " dolor")];
    [(TRaw, "lorem ipsum "); (TBeginComment, "{#"); (TRaw, " "); (TEndComment, "-#}"); (TRaw, "dolor sit amet")];
    [(TRaw, "lorem ipsum "); (TBeginComment, "{#"); (TEndComment, "#}")];
    [(TRaw, "lorem ipsum "); (TBeginComment, "{#"); (TRaw, " anything goes e.g. - # { "); (TEndComment, "#}")]].
Proof. vm_compute. reflexivity. Qed.

(** ** tests/lex.rs lex_err_unexpected_character (a character two columns wide) *)
Example t2_unexpected_character :
  with_engine_new OutOfFuel (fun e => shown (engine_compile (s2b "lorem ipsum {{ ✨ }} dolor sit amet") e)) = Err (s2b "invalid syntax

  --> <anonymous>:1:16
   |
 1 | lorem ipsum {{ ✨ }} dolor sit amet
   |                ^^-
   |
   = reason: unexpected character
").
Proof. vm_compute. reflexivity. Qed.

(** ** tests/render.rs *)
Definition f_upper : filter := mkfilter TyStr [] (fun r _ => match r with
  | AvString s => inl (VStr (map (fun c => if (97 <=? byte_N c)%N && (byte_N c <=? 122)%N then match Byte.of_N (byte_N c - 32) with Some b => b | None => c end else c) s))
  | _ => inr [] end).
Definition f_owned : filter := mkfilter TyValueRef [] (fun r _ => match r with AvValue v => inl v | _ => inr [] end).
Definition oks (l : list string) : list (outcome str str) := map (fun s => Ok (s2b s)) l.
(* render_inline_expr_primitive, render_inline_expr_literal_string_escaped, render_inline_expr_literal_with_filter,
   render_inline_expr_map_index_unicode_ident *)
Example t2_inline :
  map (fun v => rend2 [] [] "lorem {{ ipsum }}" (obj [("ipsum", v)])) [VBool false; VBool true; VInt 123; VFloat (S754_finite false 1%positive 0%Z); vs "dolor"]
    = oks ["lorem false"; "lorem true"; "lorem 123"; "lorem 123.4"; "lorem dolor"] /\
  rend2 [] [] "lorem {{ ""escaped \n \r \t \\ \"""" }}" VNone =
    Ok (s2b ("lorem escaped " ++ lf ++ " " ++ String (Ascii.ascii_of_nat 13) EmptyString ++ " " ++ tab ++ " \ """)) /\
  rend2 [("ipsum", EFilter f_upper)] [] "lorem {{ ""test"" | ipsum }}" VNone = Ok (s2b "lorem TEST") /\
  rend2 [] [] "lorem {{ ipsum.привіт }}" (obj [("ipsum", obj [("привіт", vs "sit")])]) = Ok (s2b "lorem sit").
Proof. vm_compute. repeat split. Qed.
(* render_inline_expr_default_formatter_err, render_inline_expr_err_unknown_filter_found_formatter *)
Example t2_formatters :
  with_engine_new OutOfFuel (fun e => let e := set_default_formatter format_list e in
    shown (let* t := engine_compile (s2b "lorem {{ ipsum }}") e in to_string 100 (template_renderer t e) (GBorrowed (obj [("ipsum", obj [("sit", vs "amet")])]))))
  = Err (s2b "format error

  --> <anonymous>:1:10
   |
 1 | lorem {{ ipsum }}
   |          ^^^^^
   |
   = reason: expected list
") /\
  rend2 [("another", EFormatter (fun _ => FDone))] [] "lorem {{ ipsum | another | unknown }}" (obj [("ipsum", VBool true)])
  = Err (s2b "render error

  --> <anonymous>:1:18
   |
 1 | lorem {{ ipsum | another | unknown }}
   |                  ^^^^^^^
   |
   = reason: expected filter, found formatter
").
Proof. vm_compute. split; reflexivity. Qed.
(* render_if_statement_cond_true .. render_if_statement_else_if_cond_not *)
Definition falsy : list value := [VNone; VBool false; VInt 0; VFloat (S754_zero false); VStr []; VList []; VMap []].
Definition truthy : list value := [VBool true; VInt 1337; VFloat (S754_finite false 1337%positive (-6)%Z); vs "testing"; VList [VInt 1; VInt 2; VInt 3]; obj [("a", VInt 1); ("b", VInt 2)]].
Definition all_are (s : string) (l : list (outcome str str)) : Prop := Forall (fun r => r = Ok (s2b s)) l.
Example t2_if :
  all_are "lorem consectetur" (map (fun v => rend2 [] [] "lorem {% if ipsum %}{{ sit }}{% else %}{{ amet }}{% endif %}" (obj [("ipsum", v); ("sit", vs "consectetur")])) truthy) /\
  all_are "lorem consectetur" (map (fun v => rend2 [] [] "lorem {% if ipsum.dolor %}{{ sit }}{% else %}{{ amet }}{% endif %}" (obj [("ipsum", obj [("dolor", v)]); ("amet", vs "consectetur")])) falsy) /\
  all_are "lorem consectetur" (map (fun v => rend2 [] [] "lorem {% if not ipsum.dolor %}{{ sit }}{% else %}{{ amet }}{% endif %}" (obj [("ipsum", obj [("dolor", v)]); ("sit", vs "consectetur")])) falsy) /\
  all_are "lorem , consectetur" (map (fun v => rend2 [] [] "lorem {% if ipsum %} dolor {% else if sit %} amet {% endif %}, consectetur" (obj [("ipsum", v); ("sit", v)])) falsy) /\
  all_are "lorem  amet , consectetur" (map (fun p => rend2 [] [] "lorem {% if ipsum %} dolor {% else if sit %} amet {% endif %}, consectetur" (obj [("ipsum", snd p); ("sit", fst p)])) (combine truthy falsy)) /\
  all_are "lorem  amet , consectetur" (map (fun v => rend2 [] [] "lorem {% if ipsum %} dolor {% else if not sit %} amet {% endif %}, consectetur" (obj [("ipsum", v); ("sit", v)])) falsy).
Proof. vm_compute. split; [|split; [|split; [|split; [|split]]]]; repeat constructor. Qed.
(* render_for_statement_loop_map: the value of loop, seen by a formatter *)
Definition debug_loop : formatter := fun v => match v with
  | VMap [(k1, VBool a); (k2, VInt i); (k3, VBool b)] =>
    let sb (x : bool) := s2b (if x then "true" else "false") in
    FWrite (k1 ++ sb a ++ k2 ++ show_Z i ++ k3 ++ sb b ++ s2b ";")%list FDone (FFail None)
  | _ => FFail None end.
Example t2_loop : rend2 [("debug", EFormatter debug_loop)] [] "lorem {% for ipsum in dolor %} {{ loop | debug }} {% endfor %}" (obj [("dolor", VList [vs "t"; vs "e"; vs "s"; vs "t"])])
  = Ok (s2b "lorem  firsttrueindex0lastfalse;  firstfalseindex1lastfalse;  firstfalseindex2lastfalse;  firstfalseindex3lasttrue; ").
Proof. vm_compute. reflexivity. Qed.
(* render_for_statement_nested_owned_list, render_for_statement_nested_owned_map, render_include_with_statement_owned,
   render_include_with_statement_inside_with_statement *)
Example t2_nested :
  rend2 [("to_owned", EFilter f_owned)] [("nested", "lorem {{ ipsum }} ")] "lorem {% for ipsum in dolor | to_owned %}{% include ""nested"" %}{% endfor %}" (obj [("dolor", VList [vs "t"; vs "e"; vs "s"; vs "t"])]) = Ok (s2b "lorem lorem t lorem e lorem s lorem t ") /\
  rend2 [("to_owned", EFilter f_owned)] [("nested", "lorem {{ ipsum }} {{ dolor }} ")] "lorem {% for ipsum, dolor in sit | to_owned %}{% include ""nested"" %}{% endfor %}" (obj [("sit", obj [("a", vs "t"); ("b", vs "e"); ("c", vs "s"); ("d", vs "t")])]) = Ok (s2b "lorem lorem a t lorem b e lorem c s lorem d t ") /\
  rend2 [("to_owned", EFilter f_owned)] [("nested", "{{ dolor }}")] "lorem {% include ""nested"" with ipsum | to_owned %} sit" (obj [("ipsum", obj [("dolor", vs "test")])]) = Ok (s2b "lorem test sit") /\
  rend2 [] [("nested", "")] "{% with false as x %} {% include ""nested"" with false %} {% endwith %}" VNone = Ok (s2b "  ").
Proof. vm_compute. repeat split. Qed.
(* render_include_statement_err_max_include_depth_renderer *)
Example t2_depth :
  with_engine_new [] (fun e => let e := fst (add_template (s2b "cycle") (s2b "{% include ""cycle"" %}") (set_max_include_depth 128 e)) in
    match engine_get_template (s2b "cycle") e with
    | Some r => match to_string 1000 (with_max_include_depth 4 (template_ref_renderer r e)) (GBorrowed VNone) with Err e => display_error e | _ => [] end
    | None => [] end) = s2b "render error: reached maximum include depth (4)".
Proof. vm_compute. reflexivity. Qed.
(* helpers/writer.rs; render_to_writer, render_to_writer_err_io, render_to_writer_err_not_io,
   render_to_writer_from, render_to_writer_with_value_fn *)
Definition test_writer (max : option nat) : sink := mksink (str * nat) (fun w s =>
  match max with
  | Some m => if (m <? S (snd w))%nat then ((fst w, S (snd w)), Some 98%N) else ((fst w ++ s, S (snd w))%list, None)
  | None => ((fst w ++ s, S (snd w))%list, None) end).
Definition writer_test (max : option nat) (src : string) (g : globals) : str * outcome str unit :=
  with_engine_new ([], OutOfFuel) (fun e =>
    match engine_compile (s2b src) e with
    | Ok t => let '(w, r) := to_writer 100 (template_renderer t e) g (test_writer max) ([], 0) in (fst w, shown r)
    | _ => ([], OutOfFuel) end).
Example t2_writer :
  writer_test None "lorem {{ ipsum }}" (GOwned (Ok (obj [("ipsum", vs "test")]))) = (s2b "lorem test", Ok Datatypes.tt) /\
  writer_test None "lorem {{ ipsum }}" (GBorrowed (obj [("ipsum", vs "test")])) = (s2b "lorem test", Ok Datatypes.tt) /\
  writer_test (Some 1) "lorem {{ ipsum }}" (GOwned (Ok (obj [("ipsum", vs "test")]))) = (s2b "lorem ", Err (s2b "io error")) /\
  writer_test (Some 1) "lorem {{ ipsum }}" (GOwned (Ok (obj [("dolor", vs "test")]))) = (s2b "lorem ", Err (s2b "render error

  --> <anonymous>:1:10
   |
 1 | lorem {{ ipsum }}
   |          ^^^^^
   |
   = reason: not found in this scope
")) /\
  writer_test None "lorem {{ ipsum.dolor }}" (GFn test_value_fn) = (s2b "lorem test", Ok Datatypes.tt) /\
  fst (writer_test None "lorem {{ ipsum }}" (GFn test_value_fn)) = s2b "lorem ".
Proof. vm_compute. repeat split. Qed.

(** ** tests/filters.rs *)
Definition cat (l : list arg_val) : str := concat (map (fun a => match a with AvString s => s | _ => [] end) l).
Definition f_append (n : nat) : filter := mkfilter TyString (repeat TyString n) (fun r a => inl (VStr (cat (r :: a)))).
Definition f_id (t : arg_ty) (l : list arg_ty) : filter := mkfilter t l (fun r _ => match r with
  | AvString s => inl (VStr s) | AvList l => inl (hd VNone l) | AvMap m => inl (match map_get (s2b "john") m with Some v => v | None => VNone end)
  | AvValue v => inl v | AvBool b => inl (VBool b) | AvInt z => inl (VInt z) | AvFloat f => inl (VFloat f) | AvUnit => inl VNone end).
(* render_filter_arity_2, render_filter_arity_5, render_filter_borrowed_value_str, render_filter_borrowed_value_list,
   render_filter_borrowed_value_map, render_filter_borrowed_value_value, render_filter_borrowed_arg_str *)
Example t2_filters :
  rend2 [("append", EFilter (f_append 1))] [] "{{ name | append: "" Smith"" }}" (obj [("name", vs "John")]) = Ok (s2b "John Smith") /\
  rend2 [("append", EFilter (f_append 4))] [] "{{ name | append: "" Smith"", ""!"", ""!"", ""!"" }}" (obj [("name", vs "John")]) = Ok (s2b "John Smith!!!") /\
  rend2 [("test", EFilter (f_id TyStr []))] [] "{{ name | test }}" (obj [("name", vs "John Smith")]) = Ok (s2b "John Smith") /\
  rend2 [("test", EFilter (f_id TyListRef []))] [] "{{ name | test }}" (obj [("name", VList [vs "John"; vs "Smith"])]) = Ok (s2b "John") /\
  rend2 [("test", EFilter (f_id TyMapRef []))] [] "{{ name | test }}" (obj [("name", obj [("john", vs "Smith")])]) = Ok (s2b "Smith") /\
  rend2 [("test", EFilter (f_id TyValueRef []))] [] "{{ name | test }}" (obj [("name", vs "John Smith")]) = Ok (s2b "John Smith") /\
  rend2 [("concat", EFilter (mkfilter TyString [TyStr] (fun r a => inl (VStr (cat (r :: a))))))] [] "{{ user.name | concat: user.surname }}" (obj [("user", obj [("name", vs "John"); ("surname", vs "Smith")])]) = Ok (s2b "JohnSmith").
Proof. vm_compute. repeat split. Qed.
(* render_filter_err_expected_n_args, render_filter_err_expected_value_type, render_filter_err_expected_value_try_from_int,
   render_filter_err_expected_arg_try_from_int, render_filter_err_expected_arg_reference, render_filter_err_custom *)
Example t2_filter_errors :
  rend2 [("test", EFilter (f_id TyValue [TyInt I64; TyInt I64; TyInt I64]))] [] "{{ name | test }}" (obj [("name", vs "John Smith")]) = Err (s2b "render error

  --> <anonymous>:1:11
   |
 1 | {{ name | test }}
   |           ^^^^
   |
   = reason: filter expected 3 arguments
") /\
  rend2 [("test", EFilter (f_id TyBool []))] [] "{{ name | test }}" (obj [("name", vs "John Smith")]) = Err (s2b "render error

  --> <anonymous>:1:11
   |
 1 | {{ name | test }}
   |           ^^^^
   |
   = reason: filter expected bool value, found string
") /\
  rend2 [("add", EFilter (f_id (TyInt I8) [TyInt I8]))] [] "{{ age | add: 3 }}" (obj [("age", VInt 128)]) = Err (s2b "render error

  --> <anonymous>:1:10
   |
 1 | {{ age | add: 3 }}
   |          ^^^
   |
   = reason: filter expected i8 value, but `128` is out of range
") /\
  rend2 [("repeat", EFilter (f_id TyStr [TyInt I8]))] [] "{{ name | repeat: 128 }}" (obj [("name", vs "John")]) = Err (s2b "render error

  --> <anonymous>:1:19
   |
 1 | {{ name | repeat: 128 }}
   |                   ^^^
   |
   = reason: filter expected i8 argument, but `128` is out of range
") /\
  rend2 [("into_owned", EFilter (mkfilter TyValue [] (fun r _ => match r with AvValue v => inl v | _ => inr [] end))); ("prepend", EFilter (f_id TyStr [TyStr]))] []
    ("{% for name in names | into_owned %}" ++ lf ++ "{{ surname | prepend: name }}" ++ lf ++ "{% endfor %}") (obj [("names", VList [vs "John"; vs "James"; vs "Jimothy"]); ("surname", vs "Smith")]) = Err (s2b "render error

  --> <anonymous>:2:23
   |
 2 | {{ surname | prepend: name }}
   |                       ^^^^
   |
   = reason: filter expected reference argument but this string can only be passed as owned
") /\
  rend2 [("test", EFilter (mkfilter TyValueRef [] (fun _ _ => inr (s2b "test error"))))] [] "{{ name | test }}" (obj [("name", vs "John Smith")]) = Err (s2b "filter error

  --> <anonymous>:1:11
   |
 1 | {{ name | test }}
   |           ^^^^
   |
   = reason: test error
").
Proof. vm_compute. repeat split. Qed.

(** ** tests/to_value.rs *)
Definition abc : list sdata := [SStr (s2b "a"); SStr (s2b "b"); SStr (s2b "c")].
Definition abc_v : value := VList [vs "a"; vs "b"; vs "c"].
Definition fields : list (str * sdata) := [(s2b "a", SStr (s2b "b")); (s2b "c", SStr (s2b "d"))].
Definition fields_v : value := obj [("a", vs "b"); ("c", vs "d")].
Example t2_to_value :
  map to_value [SBool true; SBool false; SI8 123; SI16 123; SI32 123; SI64 123; SU8 123; SU16 123; SU32 123; SU64 123; SChar 97; SStr (s2b "testing...");
    STuple [SU8 1; SU8 2; SU8 3; SU8 4]; SNone; SSome (SStr (s2b "testing...")); SUnit; SUnitStruct (s2b "Test"); SUnitVariant (s2b "Test") (s2b "Variant");
    SNewtypeStruct (s2b "Test") (SStr (s2b "testing...")); SNewtypeVariant (s2b "Test") (s2b "Variant") (SStr (s2b "testing..."));
    SSeq abc; STuple abc; STupleStruct (s2b "Test") abc; STupleVariant (s2b "Test") (s2b "Variant") abc;
    SMap [(SStr (s2b "a"), SStr (s2b "b")); (SStr (s2b "c"), SStr (s2b "d"))]; SStruct (s2b "Test") fields; SStructVariant (s2b "Test") (s2b "Variant") fields] =
  map (fun v => Ok v) [VBool true; VBool false; VInt 123; VInt 123; VInt 123; VInt 123; VInt 123; VInt 123; VInt 123; VInt 123; vs "a"; vs "testing...";
    VList [VInt 1; VInt 2; VInt 3; VInt 4]; VNone; vs "testing..."; VNone; VNone; vs "Variant"; vs "testing..."; obj [("Variant", vs "testing...")];
    abc_v; abc_v; abc_v; obj [("Variant", abc_v)]; fields_v; fields_v; obj [("Variant", fields_v)]] /\
  map (fun d => shown (to_value d)) [SU64 18446744073709551615; SMap [(SSome (SStr (s2b "a")), SStr (s2b "b"))]] =
    [Err (s2b "serialize error: out of range integral type conversion attempted"); Err (s2b "serialize error: map key must be a string")].
Proof. vm_compute. split; reflexivity. Qed.

(** ** tests/macros.rs; the float 12.3 is left out *)
Definition wd (s : string) : Macros.tt := MtWord (s2b s).
Definition ex (s : string) : Macros.tt := MtExpr (SStr (s2b s)).
Definition bools (w : str) : sdata := if str_eqb w (s2b "true") then SBool true else if str_eqb w (s2b "false") then SBool false else SFail [].
Definition mac (l : list Macros.tt) : option (outcome str value) := option_map (fun c => shown (eval c)) (value_macro bools l).
Definition field (n : string) (l : list Macros.tt) : list Macros.tt := wd n :: MtColon :: l.
Example t2_macros :
  map mac [[]; field "f" [wd "None"]; field "f" [wd "true"]; field "f" [MtExpr (SI32 (-123))]; field "f" [ex "test"];
    field "field" [MtList []]; field "field" [MtList [MtComma]]; field "field" [MtList [wd "true"]]; field "field" [MtList [MtExpr (SI32 7)]]; field "field" [MtList [wd "true"; MtComma]];
    field "all" [MtList [wd "None"; MtComma; wd "false"; MtComma; wd "true"; MtComma; MtExpr (SI32 123); MtComma; ex "testing..."; MtComma; MtList []; MtComma; MtMap []]];
    field "field" [MtMap []]; field "field" [MtMap (field "x" [ex "hello"])]; field "field" [MtMap (field "x" [ex "hello"; MtComma])];
    field "all" [MtMap (field "none" [wd "None"; MtComma] ++ field "no" [wd "false"; MtComma] ++ field "list" [MtList []; MtComma] ++ field "map" [MtMap []])]]
  = map (fun v => Some (Ok v))
   [VMap []; obj [("f", VNone)]; obj [("f", VBool true)]; obj [("f", VInt (-123))]; obj [("f", vs "test")];
    obj [("field", VList [])]; obj [("field", VList [])]; obj [("field", VList [VBool true])]; obj [("field", VList [VInt 7])]; obj [("field", VList [VBool true])];
    obj [("all", VList [VNone; VBool false; VBool true; VInt 123; vs "testing..."; VList []; VMap []])];
    obj [("field", VMap [])]; obj [("field", obj [("x", vs "hello")])]; obj [("field", obj [("x", vs "hello")])];
    obj [("all", obj [("none", VNone); ("no", VBool false); ("list", VList []); ("map", VMap [])])]] /\
  (* value_compile_fail *)
  map mac [field "field" [MtMap [MtComma]]; field "field" [MtMap [wd "false"]]; field "field" [MtMap [wd "None"]]; field "field" [MtMap [wd "x"]]; field "field" [MtMap [wd "x"; MtColon]];
    field "field" [MtMap [ex "x"; MtColon; wd "false"; MtComma]]; field "field" [MtMap [wd "x"; wd "y"]]] = repeat None 7.
Proof. vm_compute. split; reflexivity. Qed.
