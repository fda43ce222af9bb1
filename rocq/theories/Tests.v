(** Validation of the model: the expectations of the repository's own test
    suite (/repo/tests/{compile,lex,render,filters,to_value}.rs and the unit
    tests of search/ahocorasick/mod.rs), evaluated in the model.  These are
    tests of the model, not proofs of properties. *)
From Verif Require Import Base Utf8 Ext Errors Syntax AhoCorasick Value Ast Lexer Parser Compiler
  Fmt Stack Filters Render Engine Serde.

Local Existing Instance ascii_ext.

Definition compile_err (src : string) : option str :=
  match (let* e := engine_new in engine_compile (s2b src) e) with
  | Ok _ => None
  | Err e => Some (display_error_alt e)
  | Panic => Some (s2b "PANIC")
  | OutOfFuel => Some (s2b "FUEL")
  end.

Fixpoint add_all (l : list (string * string)) (e : engine) : engine :=
  match l with
  | [] => e
  | (n, s) :: l' => add_all l' (fst (add_template (s2b n) (s2b s) e))
  end.

Definition render_with (e : engine) (src : str) (v : value) : outcome str str :=
  match (let* t := engine_compile src e in
         to_string 1000 (template_renderer t e) (GBorrowed v)) with
  | Ok s => Ok s
  | Err e => Err (display_error_alt e)
  | Panic => Panic
  | OutOfFuel => OutOfFuel
  end.

Definition render_test (ts : list (string * string)) (src : string) (v : value) : outcome str str :=
  match engine_new with
  | Ok e => render_with (add_all ts e) (s2b src) v
  | _ => OutOfFuel
  end.

(* tests/compile.rs compile_empty *)
Example t_compile_compile_empty : compile_err "" = None.
Proof. vm_compute. reflexivity. Qed.

(* tests/compile.rs compile_raw *)
Example t_compile_compile_raw : compile_err "lorem ipsum dolor sit amet" = None.
Proof. vm_compute. reflexivity. Qed.

(* tests/compile.rs compile_comment *)
Example t_compile_compile_comment : compile_err "lorem {# ipsum dolor #} sit amet" = None.
Proof. vm_compute. reflexivity. Qed.

(* tests/compile.rs compile_inline_expr *)
Example t_compile_compile_inline_expr : compile_err "lorem {{ ipsum.dolor | fn | another }} sit amet" = None.
Proof. vm_compute. reflexivity. Qed.

(* tests/compile.rs compile_inline_expr_index *)
Example t_compile_compile_inline_expr_index : compile_err "lorem {{ ipsum.123.dolor }} sit amet" = None.
Proof. vm_compute. reflexivity. Qed.

(* tests/compile.rs compile_inline_expr_err_eof *)
Example t_compile_compile_inline_expr_err_eof : compile_err "lorem {{ ipsum.dolor |" = Some (s2b "invalid syntax

  --> <anonymous>:1:23
   |
 1 | lorem {{ ipsum.dolor |
   |                       ^--
   |
   = reason: expected identifier, found EOF
").
Proof. vm_compute. reflexivity. Qed.

(* tests/compile.rs compile_inline_expr_err_args_eof *)
Example t_compile_compile_inline_expr_err_args_eof : compile_err "lorem {{ ipsum | dolor:" = Some (s2b "invalid syntax

  --> <anonymous>:1:24
   |
 1 | lorem {{ ipsum | dolor:
   |                        ^--
   |
   = reason: expected token, found EOF
").
Proof. vm_compute. reflexivity. Qed.

(* tests/compile.rs compile_inline_expr_err_unexpected_keyword *)
Example t_compile_compile_inline_expr_err_unexpected_keyword : compile_err "lorem {{ ipsum | dolor: for }}" = Some (s2b "invalid syntax

  --> <anonymous>:1:25
   |
 1 | lorem {{ ipsum | dolor: for }}
   |                         ^^^
   |
   = reason: unexpected keyword `for`
").
Proof. vm_compute. reflexivity. Qed.

(* tests/compile.rs compile_inline_expr_err_integer_invalid_digit *)
Example t_compile_compile_inline_expr_err_integer_invalid_digit : compile_err "lorem {{ ipsum | dolor: 0b0131 }}" = Some (s2b "invalid syntax

  --> <anonymous>:1:29
   |
 1 | lorem {{ ipsum | dolor: 0b0131 }}
   |                             ^--
   |
   = reason: invalid digit for base 2 literal
").
Proof. vm_compute. reflexivity. Qed.

(* tests/compile.rs compile_inline_expr_err_index_overflow *)
Example t_compile_compile_inline_expr_err_index_overflow : compile_err "lorem {{ ipsum.99999999999999999999 }}" = Some (s2b "invalid syntax

  --> <anonymous>:1:16
   |
 1 | lorem {{ ipsum.99999999999999999999 }}
   |                ^^^^^^^^^^^^^^^^^^^^
   |
   = reason: base 10 literal out of range for unsigned 64-bit integer
").
Proof. vm_compute. reflexivity. Qed.

(* tests/compile.rs compile_inline_expr_err_integer_overflow *)
Example t_compile_compile_inline_expr_err_integer_overflow : compile_err "lorem {{ ipsum | dolor: 0xffffffffffffffff }}" = Some (s2b "invalid syntax

  --> <anonymous>:1:25
   |
 1 | lorem {{ ipsum | dolor: 0xffffffffffffffff }}
   |                         ^^^^^^^^^^^^^^^^^^
   |
   = reason: base 16 literal out of range for 64-bit integer
").
Proof. vm_compute. reflexivity. Qed.

(* tests/compile.rs compile_inline_expr_err_float_invalid *)
Example t_compile_compile_inline_expr_err_float_invalid : compile_err "lorem {{ ipsum | dolor: +0.23d5 }}" = Some (s2b "invalid syntax

  --> <anonymous>:1:25
   |
 1 | lorem {{ ipsum | dolor: +0.23d5 }}
   |                         ^^^^^^^
   |
   = reason: invalid float literal
").
Proof. vm_compute. reflexivity. Qed.

(* tests/compile.rs compile_inline_expr_err_unknown_escape_character *)
Example t_compile_compile_inline_expr_err_unknown_escape_character : compile_err "lorem {{ ipsum | dolor: ""sit \x"" }}" = Some (s2b "invalid syntax

  --> <anonymous>:1:31
   |
 1 | lorem {{ ipsum | dolor: ""sit \x"" }}
   |                               ^--
   |
   = reason: unknown escape character
").
Proof. vm_compute. reflexivity. Qed.

(* tests/compile.rs compile_inline_expr_err_unexpected_comma_token *)
Example t_compile_compile_inline_expr_err_unexpected_comma_token : compile_err "lorem {{ ipsum | dolor: ," = Some (s2b "invalid syntax

  --> <anonymous>:1:25
   |
 1 | lorem {{ ipsum | dolor: ,
   |                         ^--
   |
   = reason: expected expression, found comma
").
Proof. vm_compute. reflexivity. Qed.

(* tests/compile.rs compile_inline_expr_err_empty *)
Example t_compile_compile_inline_expr_err_empty : compile_err "lorem {{ }} ipsum dolor" = Some (s2b "invalid syntax

  --> <anonymous>:1:10
   |
 1 | lorem {{ }} ipsum dolor
   |          ^^-
   |
   = reason: expected expression, found end expression
").
Proof. vm_compute. reflexivity. Qed.

(* tests/compile.rs compile_inline_expr_err_unexpected_pipe_token *)
Example t_compile_compile_inline_expr_err_unexpected_pipe_token : compile_err "lorem {{ | }} ipsum dolor" = Some (s2b "invalid syntax

  --> <anonymous>:1:10
   |
 1 | lorem {{ | }} ipsum dolor
   |          ^--
   |
   = reason: expected expression, found pipe
").
Proof. vm_compute. reflexivity. Qed.

(* tests/compile.rs compile_inline_expr_err_unexpected_dot_token *)
Example t_compile_compile_inline_expr_err_unexpected_dot_token : compile_err "lorem {{ ipsum | . }} dolor" = Some (s2b "invalid syntax

  --> <anonymous>:1:18
   |
 1 | lorem {{ ipsum | . }} dolor
   |                  ^--
   |
   = reason: expected identifier, found member access operator
").
Proof. vm_compute. reflexivity. Qed.

(* tests/compile.rs compile_inline_expr_err_unexpected_question_dot_token *)
Example t_compile_compile_inline_expr_err_unexpected_question_dot_token : compile_err "lorem {{ ipsum | ?. }} dolor" = Some (s2b "invalid syntax

  --> <anonymous>:1:18
   |
 1 | lorem {{ ipsum | ?. }} dolor
   |                  ^^-
   |
   = reason: expected identifier, found optional member access operator
").
Proof. vm_compute. reflexivity. Qed.

(* tests/compile.rs compile_inline_expr_err_expected_function *)
Example t_compile_compile_inline_expr_err_expected_function : compile_err "lorem {{ ipsum.dolor | }} sit" = Some (s2b "invalid syntax

  --> <anonymous>:1:24
   |
 1 | lorem {{ ipsum.dolor | }} sit
   |                        ^^-
   |
   = reason: expected identifier, found end expression
").
Proof. vm_compute. reflexivity. Qed.

(* tests/compile.rs compile_inline_expr_err_expected_end_expression *)
Example t_compile_compile_inline_expr_err_expected_end_expression : compile_err "lorem {{ ipsum dolor }} sit" = Some (s2b "invalid syntax

  --> <anonymous>:1:16
   |
 1 | lorem {{ ipsum dolor }} sit
   |                ^^^^^
   |
   = reason: expected end expression, found identifier
").
Proof. vm_compute. reflexivity. Qed.

(* tests/compile.rs compile_if_statement *)
Example t_compile_compile_if_statement : compile_err "lorem {% if ipsum %} dolor {% endif %} sit" = None.
Proof. vm_compute. reflexivity. Qed.

(* tests/compile.rs compile_if_else_if_statement *)
Example t_compile_compile_if_else_if_statement : compile_err "lorem {% if ipsum %} dolor {% else if sit %} amet {% endif %}, consectetur" = None.
Proof. vm_compute. reflexivity. Qed.

(* tests/compile.rs compile_if_else_if_else_statement *)
Example t_compile_compile_if_else_if_else_statement : compile_err "lorem {% if ipsum %} dolor {% else if sit %} amet {% else %}, consectetur {% endif %}" = None.
Proof. vm_compute. reflexivity. Qed.

(* tests/compile.rs compile_if_else_statement *)
Example t_compile_compile_if_else_statement : compile_err "lorem {% if ipsum %} dolor {% else %} sit {% endif %} amet" = None.
Proof. vm_compute. reflexivity. Qed.

(* tests/compile.rs compile_if_statement_nested *)
Example t_compile_compile_if_statement_nested : compile_err "lorem {% if ipsum %} dolor {% else %} {% if sit %} amet {% endif %}, consectetur {% endif %}" = None.
Proof. vm_compute. reflexivity. Qed.

(* tests/compile.rs compile_if_statement_err_expected_keyword *)
Example t_compile_compile_if_statement_err_expected_keyword : compile_err "lorem {% fi ipsum %} dolor {% endif %} sit" = Some (s2b "invalid syntax

  --> <anonymous>:1:10
   |
 1 | lorem {% fi ipsum %} dolor {% endif %} sit
   |          ^^-
   |
   = reason: expected keyword, found identifier
").
Proof. vm_compute. reflexivity. Qed.

(* tests/compile.rs compile_if_statement_err_unexpected_keyword *)
Example t_compile_compile_if_statement_err_unexpected_keyword : compile_err "lorem {% in ipsum %} dolor {% endif %} sit" = Some (s2b "invalid syntax

  --> <anonymous>:1:10
   |
 1 | lorem {% in ipsum %} dolor {% endif %} sit
   |          ^^-
   |
   = reason: unexpected keyword `in`
").
Proof. vm_compute. reflexivity. Qed.

(* tests/compile.rs compile_if_statement_err_unexpected_endif_block *)
Example t_compile_compile_if_statement_err_unexpected_endif_block : compile_err "lorem {% endif %} ipsum" = Some (s2b "invalid syntax

  --> <anonymous>:1:7
   |
 1 | lorem {% endif %} ipsum
   |       ^^^^^^^^^^^
   |
   = reason: unexpected `endif` block
").
Proof. vm_compute. reflexivity. Qed.

(* tests/compile.rs compile_if_statement_err_unexpected_else_if_block *)
Example t_compile_compile_if_statement_err_unexpected_else_if_block : compile_err "lorem {% else if cond %} {% endif %} ipsum" = Some (s2b "invalid syntax

  --> <anonymous>:1:7
   |
 1 | lorem {% else if cond %} {% endif %} ipsum
   |       ^^^^^^^^^^^^^^^^^^
   |
   = reason: unexpected `else if` block
").
Proof. vm_compute. reflexivity. Qed.

(* tests/compile.rs compile_if_statement_err_unexpected_else_block *)
Example t_compile_compile_if_statement_err_unexpected_else_block : compile_err "lorem {% else %} {% endif %} ipsum" = Some (s2b "invalid syntax

  --> <anonymous>:1:7
   |
 1 | lorem {% else %} {% endif %} ipsum
   |       ^^^^^^^^^^
   |
   = reason: unexpected `else` block
").
Proof. vm_compute. reflexivity. Qed.

(* tests/compile.rs compile_if_statement_err_unexpected_endfor_block *)
Example t_compile_compile_if_statement_err_unexpected_endfor_block : compile_err "lorem {% if ipsum %} {% endfor %} dolor" = Some (s2b "invalid syntax

  --> <anonymous>:1:22
   |
 1 | lorem {% if ipsum %} {% endfor %} dolor
   |                      ^^^^^^^^^^^^
   |
   = reason: unexpected `endfor` block
").
Proof. vm_compute. reflexivity. Qed.

(* tests/compile.rs compile_if_else_statement_err_unclosed_if_block *)
Example t_compile_compile_if_else_statement_err_unclosed_if_block : compile_err "lorem {% if ipsum %} dolor {% else if sit %}" = Some (s2b "invalid syntax

  --> <anonymous>:1:7
   |
 1 | lorem {% if ipsum %} dolor {% else if sit %}
   |       ^^^^^^^^^^^^^^
   |
   = reason: unclosed `if` block
").
Proof. vm_compute. reflexivity. Qed.

(* tests/compile.rs compile_if_statement_err_unclosed_if_block *)
Example t_compile_compile_if_statement_err_unclosed_if_block : compile_err "lorem {% if ipsum %} dolor" = Some (s2b "invalid syntax

  --> <anonymous>:1:7
   |
 1 | lorem {% if ipsum %} dolor
   |       ^^^^^^^^^^^^^^
   |
   = reason: unclosed `if` block
").
Proof. vm_compute. reflexivity. Qed.

(* tests/compile.rs compile_for_statement_item *)
Example t_compile_compile_for_statement_item : compile_err "lorem {% for ipsum in dolor %} {{ sit }} {% endfor %} amet" = None.
Proof. vm_compute. reflexivity. Qed.

(* tests/compile.rs compile_for_statement_key_value *)
Example t_compile_compile_for_statement_key_value : compile_err "lorem {% for ipsum, dolor in sit %} {{ amet }} {% endfor %}, consectetur" = None.
Proof. vm_compute. reflexivity. Qed.

(* tests/compile.rs compile_for_statement_err_trailing_comma *)
Example t_compile_compile_for_statement_err_trailing_comma : compile_err "lorem {% for ipsum, in dolor %} sit" = Some (s2b "invalid syntax

  --> <anonymous>:1:21
   |
 1 | lorem {% for ipsum, in dolor %} sit
   |                     ^^-
   |
   = reason: expected identifier, found keyword
").
Proof. vm_compute. reflexivity. Qed.

(* tests/compile.rs compile_for_statement_err_unexpected_keyword *)
Example t_compile_compile_for_statement_err_unexpected_keyword : compile_err "lorem {% for ipsum endif %} dolor" = Some (s2b "invalid syntax

  --> <anonymous>:1:20
   |
 1 | lorem {% for ipsum endif %} dolor
   |                    ^^^^^
   |
   = reason: expected keyword `in`, found keyword `endif`
").
Proof. vm_compute. reflexivity. Qed.

(* tests/compile.rs compile_for_statement_err_missing_iterable *)
Example t_compile_compile_for_statement_err_missing_iterable : compile_err "lorem {% for ipsum in %} dolor" = Some (s2b "invalid syntax

  --> <anonymous>:1:23
   |
 1 | lorem {% for ipsum in %} dolor
   |                       ^^-
   |
   = reason: expected expression, found end block
").
Proof. vm_compute. reflexivity. Qed.

(* tests/compile.rs compile_for_statement_err_unexpected_endfor_block *)
Example t_compile_compile_for_statement_err_unexpected_endfor_block : compile_err "lorem {% endfor %} ipsum" = Some (s2b "invalid syntax

  --> <anonymous>:1:7
   |
 1 | lorem {% endfor %} ipsum
   |       ^^^^^^^^^^^^
   |
   = reason: unexpected `endfor` block
").
Proof. vm_compute. reflexivity. Qed.

(* tests/compile.rs compile_for_statement_err_unexpected_else_block *)
Example t_compile_compile_for_statement_err_unexpected_else_block : compile_err "lorem {% for _, ipsum in dolor %} {% else %} {% endif %}" = Some (s2b "invalid syntax

  --> <anonymous>:1:35
   |
 1 | lorem {% for _, ipsum in dolor %} {% else %} {% endif %}
   |                                   ^^^^^^^^^^
   |
   = reason: unexpected `else` block
").
Proof. vm_compute. reflexivity. Qed.

(* tests/compile.rs compile_for_statement_err_unexpected_else_if_block *)
Example t_compile_compile_for_statement_err_unexpected_else_if_block : compile_err "lorem {% for _, ipsum in dolor %} {% else if cond %}" = Some (s2b "invalid syntax

  --> <anonymous>:1:35
   |
 1 | lorem {% for _, ipsum in dolor %} {% else if cond %}
   |                                   ^^^^^^^^^^^^^^^^^^
   |
   = reason: unexpected `else if` block
").
Proof. vm_compute. reflexivity. Qed.

(* tests/compile.rs compile_for_statement_err_unexpected_endif_block *)
Example t_compile_compile_for_statement_err_unexpected_endif_block : compile_err "lorem {% for _, ipsum in dolor %} {% endif %}" = Some (s2b "invalid syntax

  --> <anonymous>:1:35
   |
 1 | lorem {% for _, ipsum in dolor %} {% endif %}
   |                                   ^^^^^^^^^^^
   |
   = reason: unexpected `endif` block
").
Proof. vm_compute. reflexivity. Qed.

(* tests/compile.rs compile_for_statement_err_unclosed_for_block *)
Example t_compile_compile_for_statement_err_unclosed_for_block : compile_err "lorem {% for ipsum, dolor in sit %} amet" = Some (s2b "invalid syntax

  --> <anonymous>:1:7
   |
 1 | lorem {% for ipsum, dolor in sit %} amet
   |       ^^^^^^^^^^^^^^^^^^^^^^^^^^^^^
   |
   = reason: unclosed `for` block
").
Proof. vm_compute. reflexivity. Qed.

(* tests/compile.rs compile_with_statement *)
Example t_compile_compile_with_statement : compile_err "lorem {% with ipsum as dolor %} {{ dolor }} {% endwith %} sit" = None.
Proof. vm_compute. reflexivity. Qed.

(* tests/compile.rs compile_with_statement_err_unclosed_with_block *)
Example t_compile_compile_with_statement_err_unclosed_with_block : compile_err "lorem {% with ipsum as dolor %} sit" = Some (s2b "invalid syntax

  --> <anonymous>:1:7
   |
 1 | lorem {% with ipsum as dolor %} sit
   |       ^^^^^^^^^^^^^^^^^^^^^^^^^
   |
   = reason: unclosed `with` block
").
Proof. vm_compute. reflexivity. Qed.

(* tests/compile.rs compile_with_statement_err_unexpected_endwith_block *)
Example t_compile_compile_with_statement_err_unexpected_endwith_block : compile_err "lorem {% with ipsum as dolor %} sit {% else %} {% endif %}" = Some (s2b "invalid syntax

  --> <anonymous>:1:37
   |
 1 | lorem {% with ipsum as dolor %} sit {% else %} {% endif %}
   |                                     ^^^^^^^^^^
   |
   = reason: unexpected `else` block
").
Proof. vm_compute. reflexivity. Qed.

(* tests/compile.rs compile_with_statement_err_unexpected_else_block *)
Example t_compile_compile_with_statement_err_unexpected_else_block : compile_err "lorem {% endwith %} ipsum" = Some (s2b "invalid syntax

  --> <anonymous>:1:7
   |
 1 | lorem {% endwith %} ipsum
   |       ^^^^^^^^^^^^^
   |
   = reason: unexpected `endwith` block
").
Proof. vm_compute. reflexivity. Qed.

(* tests/compile.rs compile_include_statement *)
Example t_compile_compile_include_statement : compile_err "lorem {% include ""ipsum"" %} dolor" = None.
Proof. vm_compute. reflexivity. Qed.

(* tests/compile.rs compile_include_with_statement *)
Example t_compile_compile_include_with_statement : compile_err "lorem {% include ""ipsum"" with dolor %} sit" = None.
Proof. vm_compute. reflexivity. Qed.

(* tests/compile.rs compile_include_with_statement_filters *)
Example t_compile_compile_include_with_statement_filters : compile_err "lorem {% include ""ipsum"" with dolor.sit | amet: 1337 %}" = None.
Proof. vm_compute. reflexivity. Qed.

(* tests/lex.rs lex_while_eof *)
Example t_lex_lex_while_eof : compile_err "lorem {{ ipsum" = Some (s2b "invalid syntax

  --> <anonymous>:1:15
   |
 1 | lorem {{ ipsum
   |               ^--
   |
   = reason: expected end expression, found EOF
").
Proof. vm_compute. reflexivity. Qed.

(* tests/lex.rs lex_syntax_whitespace_trimming *)
Example t_lex_lex_syntax_whitespace_trimming : compile_err "lorem {{- ipsum -}} {%- if dolor -%} {% endif %} sit amet" = None.
Proof. vm_compute. reflexivity. Qed.

(* tests/lex.rs lex_err_unexpected_end_expr *)
Example t_lex_lex_err_unexpected_end_expr : compile_err "lorem ipsum }} dolor sit amet" = Some (s2b "invalid syntax

  --> <anonymous>:1:13
   |
 1 | lorem ipsum }} dolor sit amet
   |             ^^-
   |
   = reason: unexpected end expression
").
Proof. vm_compute. reflexivity. Qed.

(* tests/lex.rs lex_err_unexpected_end_block *)
Example t_lex_lex_err_unexpected_end_block : compile_err "lorem ipsum %} dolor sit amet" = Some (s2b "invalid syntax

  --> <anonymous>:1:13
   |
 1 | lorem ipsum %} dolor sit amet
   |             ^^-
   |
   = reason: unexpected end block
").
Proof. vm_compute. reflexivity. Qed.

(* tests/lex.rs lex_err_unexpected_end_comment *)
Example t_lex_lex_err_unexpected_end_comment : compile_err "lorem ipsum #} dolor sit amet" = Some (s2b "invalid syntax

  --> <anonymous>:1:13
   |
 1 | lorem ipsum #} dolor sit amet
   |             ^^-
   |
   = reason: unexpected end comment
").
Proof. vm_compute. reflexivity. Qed.

(* tests/lex.rs lex_err_unclosed_begin_expr *)
Example t_lex_lex_err_unclosed_begin_expr : compile_err "lorem ipsum {{ {{ dolor sit amet" = Some (s2b "invalid syntax

  --> <anonymous>:1:13
   |
 1 | lorem ipsum {{ {{ dolor sit amet
   |             ^^-
   |
   = reason: unclosed begin expression
").
Proof. vm_compute. reflexivity. Qed.

(* tests/lex.rs lex_err_unclosed_begin_block *)
Example t_lex_lex_err_unclosed_begin_block : compile_err "lorem ipsum {% {{ dolor sit amet" = Some (s2b "invalid syntax

  --> <anonymous>:1:13
   |
 1 | lorem ipsum {% {{ dolor sit amet
   |             ^^-
   |
   = reason: unclosed begin block
").
Proof. vm_compute. reflexivity. Qed.

(* tests/lex.rs lex_err_unexpected_end_tag_after_begin_block *)
Example t_lex_lex_err_unexpected_end_tag_after_begin_block : compile_err "lorem ipsum {{ %} dolor sit amet" = Some (s2b "invalid syntax

  --> <anonymous>:1:16
   |
 1 | lorem ipsum {{ %} dolor sit amet
   |                ^^-
   |
   = reason: unexpected end block
").
Proof. vm_compute. reflexivity. Qed.

(* tests/lex.rs lex_err_unclosed_begin_comment *)
Example t_lex_lex_err_unclosed_begin_comment : compile_err "lorem ipsum {# {{ dolor sit amet" = Some (s2b "invalid syntax

  --> <anonymous>:1:13
   |
 1 | lorem ipsum {# {{ dolor sit amet
   |             ^^-
   |
   = reason: unclosed begin comment
").
Proof. vm_compute. reflexivity. Qed.

(* tests/lex.rs lex_err_unexpected_end_tag_after_begin_comment *)
Example t_lex_lex_err_unexpected_end_tag_after_begin_comment : compile_err "lorem ipsum {# %} dolor sit amet" = Some (s2b "invalid syntax

  --> <anonymous>:1:16
   |
 1 | lorem ipsum {# %} dolor sit amet
   |                ^^-
   |
   = reason: unexpected end block
").
Proof. vm_compute. reflexivity. Qed.

(* tests/lex.rs lex_err_undelimited_string_eof *)
Example t_lex_lex_err_undelimited_string_eof : compile_err "lorem {% ""ipsum" = Some (s2b "invalid syntax

  --> <anonymous>:1:10
   |
 1 | lorem {% ""ipsum
   |          ^^^^^^
   |
   = reason: undelimited string
").
Proof. vm_compute. reflexivity. Qed.

(* tests/lex.rs lex_err_undelimited_string_newline *)
Example t_lex_lex_err_undelimited_string_newline : compile_err "lorem {% ""ipsum
 dolor" = Some (s2b "invalid syntax

  --> <anonymous>:1:10
   |
 1 | lorem {% ""ipsum
   |          ^^^^^^
   |
   = reason: undelimited string
").
Proof. vm_compute. reflexivity. Qed.

(* tests/render.rs render_comment *)
Example t_render_render_comment : render_test []%string "lorem {#- ipsum #} dolor" (VNone) = Ok (s2b "lorem dolor").
Proof. vm_compute. reflexivity. Qed.

(* tests/render.rs render_inline_expr_literal_string *)
Example t_render_render_inline_expr_literal_string : render_test []%string "lorem {{ ""test"" }}" (VNone) = Ok (s2b "lorem test").
Proof. vm_compute. reflexivity. Qed.

(* tests/render.rs render_inline_expr_map_key *)
Example t_render_render_inline_expr_map_key : render_test []%string "lorem {{ ipsum.dolor }}" (VMap (map_of_list [(s2b "ipsum", VMap (map_of_list [(s2b "dolor", VStr (s2b "sit"))]))])) = Ok (s2b "lorem sit").
Proof. vm_compute. reflexivity. Qed.

(* tests/render.rs render_inline_expr_map_optional_key *)
Example t_render_render_inline_expr_map_optional_key : render_test []%string "lorem {{ ipsum?.dolor }}" (VMap (map_of_list [(s2b "ipsum", VMap (map_of_list [(s2b "dolor", VStr (s2b "sit"))]))])) = Ok (s2b "lorem sit").
Proof. vm_compute. reflexivity. Qed.

(* tests/render.rs render_inline_expr_map_optional_key_chain *)
Example t_render_render_inline_expr_map_optional_key_chain : render_test []%string "lorem {{ ipsum?.dolor.sit }}" (VMap (map_of_list [(s2b "ipsum", VMap (map_of_list []))])) = Ok (s2b "lorem ").
Proof. vm_compute. reflexivity. Qed.

(* tests/render.rs render_inline_expr_map_optional_key_chain_long *)
Example t_render_render_inline_expr_map_optional_key_chain_long : render_test []%string "lorem {{ ipsum.dolor?.sit.amet }}" (VMap (map_of_list [(s2b "ipsum", VMap (map_of_list [(s2b "dolor", VMap (map_of_list []))]))])) = Ok (s2b "lorem ").
Proof. vm_compute. reflexivity. Qed.

(* tests/render.rs render_inline_expr_list_index *)
Example t_render_render_inline_expr_list_index : render_test []%string "lorem {{ ipsum.1 }}" (VMap (map_of_list [(s2b "ipsum", VList [VStr (s2b "sit"); VStr (s2b "amet")])])) = Ok (s2b "lorem amet").
Proof. vm_compute. reflexivity. Qed.

(* tests/render.rs render_inline_expr_err_unknown_filter_or_formatter *)
Example t_render_render_inline_expr_err_unknown_filter_or_formatter : render_test []%string "lorem {{ ipsum | unknown }}" (VMap (map_of_list [(s2b "ipsum", VBool true)])) = Err (s2b "render error

  --> <anonymous>:1:18
   |
 1 | lorem {{ ipsum | unknown }}
   |                  ^^^^^^^
   |
   = reason: unknown filter or formatter
").
Proof. vm_compute. reflexivity. Qed.

(* tests/render.rs render_inline_expr_err_unknown_filter *)
Example t_render_render_inline_expr_err_unknown_filter : render_test []%string "lorem {{ ipsum | another | unknown }}" (VMap (map_of_list [(s2b "ipsum", VBool true)])) = Err (s2b "render error

  --> <anonymous>:1:18
   |
 1 | lorem {{ ipsum | another | unknown }}
   |                  ^^^^^^^
   |
   = reason: unknown filter
").
Proof. vm_compute. reflexivity. Qed.

(* tests/render.rs render_inline_expr_err_unrenderable *)
Example t_render_render_inline_expr_err_unrenderable : render_test []%string "lorem {{ ipsum }}" (VMap (map_of_list [(s2b "ipsum", VMap (map_of_list []))])) = Err (s2b "format error

  --> <anonymous>:1:10
   |
 1 | lorem {{ ipsum }}
   |          ^^^^^
   |
   = reason: expression evaluated to unformattable type map
").
Proof. vm_compute. reflexivity. Qed.

(* tests/render.rs render_inline_expr_err_cannot_index_into_none *)
Example t_render_render_inline_expr_err_cannot_index_into_none : render_test []%string "lorem {{ ipsum.dolor }}" (VMap (map_of_list [(s2b "ipsum", VNone)])) = Err (s2b "render error

  --> <anonymous>:1:15
   |
 1 | lorem {{ ipsum.dolor }}
   |               ^^^^^^
   |
   = reason: none does not support key-based access
").
Proof. vm_compute. reflexivity. Qed.

(* tests/render.rs render_inline_expr_err_cannot_index_into_string *)
Example t_render_render_inline_expr_err_cannot_index_into_string : render_test []%string "lorem {{ ipsum.dolor }}" (VMap (map_of_list [(s2b "ipsum", VStr (s2b "testing..."))])) = Err (s2b "render error

  --> <anonymous>:1:15
   |
 1 | lorem {{ ipsum.dolor }}
   |               ^^^^^^
   |
   = reason: string does not support key-based access
").
Proof. vm_compute. reflexivity. Qed.

(* tests/render.rs render_inline_expr_err_cannot_index_list_with_string *)
Example t_render_render_inline_expr_err_cannot_index_list_with_string : render_test []%string "lorem {{ ipsum.dolor }}" (VMap (map_of_list [(s2b "ipsum", VList [VStr (s2b "test"); VStr (s2b "ing...")])])) = Err (s2b "render error

  --> <anonymous>:1:15
   |
 1 | lorem {{ ipsum.dolor }}
   |               ^^^^^^
   |
   = reason: list does not support key-based access
").
Proof. vm_compute. reflexivity. Qed.

(* tests/render.rs render_inline_expr_err_cannot_index_map_with_integer *)
Example t_render_render_inline_expr_err_cannot_index_map_with_integer : render_test []%string "lorem {{ ipsum.123 }}" (VMap (map_of_list [(s2b "ipsum", VMap (map_of_list [(s2b "test", VStr (s2b "ing..."))]))])) = Err (s2b "render error

  --> <anonymous>:1:15
   |
 1 | lorem {{ ipsum.123 }}
   |               ^^^^
   |
   = reason: map does not support integer-based access
").
Proof. vm_compute. reflexivity. Qed.

(* tests/render.rs render_inline_expr_err_index_out_of_bounds *)
Example t_render_render_inline_expr_err_index_out_of_bounds : render_test []%string "lorem {{ ipsum.123 }}" (VMap (map_of_list [(s2b "ipsum", VList [VStr (s2b "test"); VStr (s2b "ing...")])])) = Err (s2b "render error

  --> <anonymous>:1:15
   |
 1 | lorem {{ ipsum.123 }}
   |               ^^^^
   |
   = reason: index out of bounds, the length is 2
").
Proof. vm_compute. reflexivity. Qed.

(* tests/render.rs render_inline_expr_err_not_found_in_map *)
Example t_render_render_inline_expr_err_not_found_in_map : render_test []%string "lorem {{ ipsum.dolor }}" (VMap (map_of_list [(s2b "ipsum", VMap (map_of_list []))])) = Err (s2b "render error

  --> <anonymous>:1:15
   |
 1 | lorem {{ ipsum.dolor }}
   |               ^^^^^^
   |
   = reason: not found in map
").
Proof. vm_compute. reflexivity. Qed.

(* tests/render.rs render_for_statement_list *)
Example t_render_render_for_statement_list : render_test []%string "lorem {% for ipsum in dolor %}{{ ipsum }}{% endfor %}" (VMap (map_of_list [(s2b "dolor", VList [VStr (s2b "t"); VStr (s2b "e"); VStr (s2b "s"); VStr (s2b "t")])])) = Ok (s2b "lorem test").
Proof. vm_compute. reflexivity. Qed.

(* tests/render.rs render_for_statement_map *)
Example t_render_render_for_statement_map : render_test []%string "lorem {% for ipsum, dolor in sit %}{{ ipsum }},{{ dolor.0 }} {% endfor %}" (VMap (map_of_list [(s2b "sit", VMap (map_of_list [(s2b "a", VList [VStr (s2b "t")]); (s2b "b", VList [VStr (s2b "e")]); (s2b "c", VList [VStr (s2b "s")]); (s2b "d", VList [VStr (s2b "t")])]))])) = Ok (s2b "lorem a,t b,e c,s d,t ").
Proof. vm_compute. reflexivity. Qed.

(* tests/render.rs render_for_statement_loop_fields *)
Example t_render_render_for_statement_loop_fields : render_test []%string "lorem {% for ipsum in dolor %}{{ loop.index }},{{ loop.first }},{{ loop.last }},{{ ipsum }}  {% endfor %}" (VMap (map_of_list [(s2b "dolor", VList [VStr (s2b "t"); VStr (s2b "e"); VStr (s2b "s"); VStr (s2b "t")])])) = Ok (s2b "lorem 0,true,false,t  1,false,false,e  2,false,false,s  3,false,true,t  ").
Proof. vm_compute. reflexivity. Qed.

(* tests/render.rs render_for_statement_loop_optional_access *)
Example t_render_render_for_statement_loop_optional_access : render_test []%string "lorem {% for ipsum in dolor %}{{ loop?.notindex }}{{ ipsum }}{% endfor %}" (VMap (map_of_list [(s2b "dolor", VList [VStr (s2b "t"); VStr (s2b "e"); VStr (s2b "s"); VStr (s2b "t")])])) = Ok (s2b "lorem test").
Proof. vm_compute. reflexivity. Qed.

(* tests/render.rs render_for_statement_err_not_found_in_map *)
Example t_render_render_for_statement_err_not_found_in_map : render_test []%string "lorem {% for ipsum in dolor %} {{ loop.xxx }} {% endfor %}" (VMap (map_of_list [(s2b "dolor", VList [VStr (s2b "t"); VStr (s2b "e"); VStr (s2b "s"); VStr (s2b "t")])])) = Err (s2b "render error

  --> <anonymous>:1:39
   |
 1 | lorem {% for ipsum in dolor %} {{ loop.xxx }} {% endfor %}
   |                                       ^^^^
   |
   = reason: not found in map
").
Proof. vm_compute. reflexivity. Qed.

(* tests/render.rs render_for_statement_err_cannot_index_into_map *)
Example t_render_render_for_statement_err_cannot_index_into_map : render_test []%string "lorem {% for ipsum in dolor %} {{ loop.123 }} {% endfor %}" (VMap (map_of_list [(s2b "dolor", VList [VStr (s2b "t"); VStr (s2b "e"); VStr (s2b "s"); VStr (s2b "t")])])) = Err (s2b "render error

  --> <anonymous>:1:39
   |
 1 | lorem {% for ipsum in dolor %} {{ loop.123 }} {% endfor %}
   |                                       ^^^^
   |
   = reason: cannot index into map with integer
").
Proof. vm_compute. reflexivity. Qed.

(* tests/render.rs render_for_statement_err_cannot_index_into_string *)
Example t_render_render_for_statement_err_cannot_index_into_string : render_test []%string "lorem {% for ipsum, dolor in sit %} {{ ipsum.xxx }} {% endfor %}" (VMap (map_of_list [(s2b "sit", VMap (map_of_list [(s2b "t", VStr (s2b "e")); (s2b "s", VStr (s2b "t"))]))])) = Err (s2b "render error

  --> <anonymous>:1:45
   |
 1 | lorem {% for ipsum, dolor in sit %} {{ ipsum.xxx }} {% endfor %}
   |                                             ^^^^
   |
   = reason: cannot index into string
").
Proof. vm_compute. reflexivity. Qed.

(* tests/render.rs render_for_statement_err_cannot_index_into_loop_field *)
Example t_render_render_for_statement_err_cannot_index_into_loop_field : render_test []%string "lorem {% for ipsum in dolor %} {{ loop.first.xxx }} {% endfor %}" (VMap (map_of_list [(s2b "dolor", VList [VStr (s2b "t"); VStr (s2b "e"); VStr (s2b "s"); VStr (s2b "t")])])) = Err (s2b "render error

  --> <anonymous>:1:45
   |
 1 | lorem {% for ipsum in dolor %} {{ loop.first.xxx }} {% endfor %}
   |                                             ^^^^
   |
   = reason: cannot index into bool
").
Proof. vm_compute. reflexivity. Qed.

(* tests/render.rs render_for_statement_nested_borrowed_list *)
Example t_render_render_for_statement_nested_borrowed_list : render_test [("nested", "lorem {{ ipsum }} ")]%string "lorem {% for ipsum in dolor %}{% include ""nested"" %}{% endfor %}" (VMap (map_of_list [(s2b "dolor", VList [VStr (s2b "t"); VStr (s2b "e"); VStr (s2b "s"); VStr (s2b "t")])])) = Ok (s2b "lorem lorem t lorem e lorem s lorem t ").
Proof. vm_compute. reflexivity. Qed.

(* tests/render.rs render_for_statement_nested_borrowed_map *)
Example t_render_render_for_statement_nested_borrowed_map : render_test [("nested", "lorem {{ ipsum }} {{ dolor }} ")]%string "lorem {% for ipsum, dolor in sit %}{% include ""nested"" %}{% endfor %}" (VMap (map_of_list [(s2b "sit", VMap (map_of_list [(s2b "a", VStr (s2b "t")); (s2b "b", VStr (s2b "e")); (s2b "c", VStr (s2b "s")); (s2b "d", VStr (s2b "t"))]))])) = Ok (s2b "lorem lorem a t lorem b e lorem c s lorem d t ").
Proof. vm_compute. reflexivity. Qed.

(* tests/render.rs render_for_statement_nested_loop_fields *)
Example t_render_render_for_statement_nested_loop_fields : render_test [("nested", "{{ loop.index }},{{ loop.first }},{{ loop.last }},{{ ipsum }}")]%string "lorem {% for ipsum in dolor %}{% include ""nested"" %} {% endfor %}" (VMap (map_of_list [(s2b "dolor", VList [VStr (s2b "t"); VStr (s2b "e"); VStr (s2b "s"); VStr (s2b "t")])])) = Ok (s2b "lorem 0,true,false,t 1,false,false,e 2,false,false,s 3,false,true,t ").
Proof. vm_compute. reflexivity. Qed.

(* tests/render.rs render_for_statement_err_not_iterable *)
Example t_render_render_for_statement_err_not_iterable : render_test []%string "lorem {% for ipsum in dolor %}{{ ipsum }}{% endfor %}" (VMap (map_of_list [(s2b "dolor", VBool true)])) = Err (s2b "render error

  --> <anonymous>:1:23
   |
 1 | lorem {% for ipsum in dolor %}{{ ipsum }}{% endfor %}
   |                       ^^^^^
   |
   = reason: expected iterable, but expression evaluated to bool
").
Proof. vm_compute. reflexivity. Qed.

(* tests/render.rs render_for_statement_err_list_with_two_vars *)
Example t_render_render_for_statement_err_list_with_two_vars : render_test []%string "lorem {% for _, ipsum in dolor %}{{ ipsum }}{% endfor %}" (VMap (map_of_list [(s2b "dolor", VList [VStr (s2b "sit"); VStr (s2b "amet")])])) = Err (s2b "render error

  --> <anonymous>:1:14
   |
 1 | lorem {% for _, ipsum in dolor %}{{ ipsum }}{% endfor %}
   |              ^^^^^^^^
   |
   = reason: cannot unpack list item into two variables
").
Proof. vm_compute. reflexivity. Qed.

(* tests/render.rs render_for_statement_err_map_with_one_var *)
Example t_render_render_for_statement_err_map_with_one_var : render_test []%string "lorem {% for ipsum in dolor %}{{ ipsum }}{% endfor %}" (VMap (map_of_list [(s2b "dolor", VMap (map_of_list [(s2b "sit", VStr (s2b "amet"))]))])) = Err (s2b "render error

  --> <anonymous>:1:14
   |
 1 | lorem {% for ipsum in dolor %}{{ ipsum }}{% endfor %}
   |              ^^^^^
   |
   = reason: cannot unpack map item into one variable
").
Proof. vm_compute. reflexivity. Qed.

(* tests/render.rs render_for_statement_err_loop_var_scope *)
Example t_render_render_for_statement_err_loop_var_scope : render_test []%string "lorem {% for _, ipsum in dolor %}{% endfor %}{{ ipsum }}" (VMap (map_of_list [(s2b "dolor", VMap (map_of_list [(s2b "ipsum", VBool false)]))])) = Err (s2b "render error

  --> <anonymous>:1:49
   |
 1 | lorem {% for _, ipsum in dolor %}{% endfor %}{{ ipsum }}
   |                                                 ^^^^^
   |
   = reason: not found in this scope
").
Proof. vm_compute. reflexivity. Qed.

(* tests/render.rs render_with_statement *)
Example t_render_render_with_statement : render_test []%string "lorem {% with ipsum as dolor %}{{ dolor }}{% endwith %} sit" (VMap (map_of_list [(s2b "ipsum", VStr (s2b "test")); (s2b "dolor", VBool false)])) = Ok (s2b "lorem test sit").
Proof. vm_compute. reflexivity. Qed.

(* tests/render.rs render_with_statement_err_var_scope *)
Example t_render_render_with_statement_err_var_scope : render_test []%string "lorem {% with ipsum as dolor %}{{ dolor }}{% endwith %}{{ dolor }}" (VMap (map_of_list [(s2b "ipsum", VStr (s2b "test"))])) = Err (s2b "render error

  --> <anonymous>:1:59
   |
 1 | lorem {% with ipsum as dolor %}{{ dolor }}{% endwith %}{{ dolor }}
   |                                                           ^^^^^
   |
   = reason: not found in this scope
").
Proof. vm_compute. reflexivity. Qed.

(* tests/render.rs render_include_statement *)
Example t_render_render_include_statement : render_test [("nested", "{{ ipsum.dolor }}")]%string "lorem {% include ""nested"" %} sit" (VMap (map_of_list [(s2b "ipsum", VMap (map_of_list [(s2b "dolor", VStr (s2b "test"))]))])) = Ok (s2b "lorem test sit").
Proof. vm_compute. reflexivity. Qed.

(* tests/render.rs render_include_with_statement *)
Example t_render_render_include_with_statement : render_test [("nested", "{{ dolor }}")]%string "lorem {% include ""nested"" with ipsum %} sit" (VMap (map_of_list [(s2b "ipsum", VMap (map_of_list [(s2b "dolor", VStr (s2b "test"))]))])) = Ok (s2b "lorem test sit").
Proof. vm_compute. reflexivity. Qed.

(* tests/render.rs render_include_statement_parent_template_scope *)
Example t_render_render_include_statement_parent_template_scope : render_test [("nested", "{{ ipsum.dolor }}")]%string "lorem {% include ""nested"" %} sit" (VMap (map_of_list [(s2b "ipsum", VMap (map_of_list [(s2b "dolor", VStr (s2b "test"))]))])) = Ok (s2b "lorem test sit").
Proof. vm_compute. reflexivity. Qed.

(* tests/render.rs render_include_statement_err_parent_template_scope *)
Example t_render_render_include_statement_err_parent_template_scope : render_test [("nested", "{{ ipsum.dolor }}")]%string "lorem {% include ""nested"" with ipsum %} sit" (VMap (map_of_list [(s2b "ipsum", VMap (map_of_list [(s2b "dolor", VStr (s2b "test"))]))])) = Err (s2b "render error

  --> nested:1:4
   |
 1 | {{ ipsum.dolor }}
   |    ^^^^^
   |
   = reason: not found in this scope
").
Proof. vm_compute. reflexivity. Qed.

(* tests/render.rs render_include_statement_err_unknown_template *)
Example t_render_render_include_statement_err_unknown_template : render_test []%string "lorem {% include ""nested"" %} sit" (VNone) = Err (s2b "render error

  --> <anonymous>:1:18
   |
 1 | lorem {% include ""nested"" %} sit
   |                  ^^^^^^^^
   |
   = reason: unknown template
").
Proof. vm_compute. reflexivity. Qed.

(** ** Formatters, filters, depth limits, writers *)

Definition format_list : formatter := fun v =>
  match v with
  | VList l =>
    (fix go (first : bool) (l : list value) : fmt_prog :=
       match l with
       | [] => FDone
       | VStr s :: l' =>
         if first then FWrite s (go false l') (FFail None)
         else FWrite (s2b ";") (FWrite s (go false l') (FFail None)) (FFail None)
       | _ :: _ => FFail None
       end) true l
  | _ => FFail (Some (s2b "expected list"))
  end.

Definition render_fns (fs : list (string * engine_fn)) (ts : list (string * string)) (src : string)
    (v : value) : outcome str str :=
  match engine_new with
  | Ok e =>
    let e := add_all ts e in
    let e := fold_left (fun e nf =>
      match snd nf with
      | EFilter f => fst (add_filter (s2b (fst nf)) f e)
      | EFormatter f => fst (add_formatter (s2b (fst nf)) f e)
      end) fs e in
    render_with e (s2b src) v
  | _ => OutOfFuel
  end.

(* tests/render.rs render_inline_expr_custom_formatter *)
Example t_custom_formatter :
  render_fns [("format_list"%string, EFormatter format_list)] [] "lorem {{ ipsum | format_list }}"
    (VMap [(s2b "ipsum", VList [VStr (s2b "sit"); VStr (s2b "amet")])])
  = Ok (s2b "lorem sit;amet").
Proof. vm_compute. reflexivity. Qed.

(* tests/render.rs render_inline_expr_custom_formatter_err *)
Example t_custom_formatter_err :
  render_fns [("format_list"%string, EFormatter format_list)] [] "lorem {{ ipsum | format_list }}"
    (VMap [(s2b "ipsum", VMap [(s2b "sit", VStr (s2b "amet"))])])
  = Err (s2b "format error

  --> <anonymous>:1:18
   |
 1 | lorem {{ ipsum | format_list }}
   |                  ^^^^^^^^^^^
   |
   = reason: expected list
").
Proof. vm_compute. reflexivity. Qed.

Definition f_pop : filter := mkfilter TyVec [] (fun r _ =>
  match r with AvList l => inl (VList (rev (tl (rev l)))) | _ => inr [] end).
Definition f_rm : filter := mkfilter TyMap [TyStr] (fun r a =>
  match r, a with AvMap m, [AvString k] => inl (VMap (map_remove k m)) | _, _ => inr [] end).
Definition f_append3 : filter := mkfilter TyString [TyString; TyString; TyString] (fun r a =>
  match r, a with
  | AvString v, [AvString a; AvString b; AvString c] => inl (VStr (v ++ a ++ b ++ c))
  | _, _ => inr []
  end).
Definition f_bool_arg : filter := mkfilter TyValue [TyBool] (fun r _ =>
  match r with AvValue v => inl v | _ => inr [] end).
Definition f_u8_arg : filter := mkfilter TyValue [TyInt U8] (fun r _ =>
  match r with AvValue v => inl v | _ => inr [] end).
Definition f_str_arg : filter := mkfilter TyValue [TyStr] (fun r _ =>
  match r with AvValue v => inl v | _ => inr [] end).
Definition f_err : filter := mkfilter TyValue [] (fun _ _ => inr (s2b "boom")).

(* tests/render.rs render_for_statement_filtered_list *)
Example t_filtered_list :
  render_fns [("pop"%string, EFilter f_pop)] []
    "lorem {% for ipsum in dolor | pop %}{{ ipsum }}{% endfor %}"
    (VMap [(s2b "dolor", VList (map (fun s => VStr s) [s2b "t"; s2b "e"; s2b "s"; s2b "t"]))])
  = Ok (s2b "lorem tes").
Proof. vm_compute. reflexivity. Qed.

(* tests/render.rs render_for_statement_filtered_map *)
Example t_filtered_map :
  render_fns [("rm"%string, EFilter f_rm)] []
    "lorem {% for ipsum, dolor in sit | rm: ""d"" %}{{ ipsum }},{{ dolor.0 }} {% endfor %}"
    (VMap [(s2b "sit", VMap (map_of_list [(s2b "d", VList [VStr (s2b "t")]);
       (s2b "a", VList [VStr (s2b "t")]); (s2b "b", VList [VStr (s2b "e")]);
       (s2b "c", VList [VStr (s2b "s")])]))])
  = Ok (s2b "lorem a,t b,e c,s ").
Proof. vm_compute. reflexivity. Qed.

(* tests/filters.rs render_filter_arity_4 *)
Example t_arity_4 :
  render_fns [("append"%string, EFilter f_append3)] [] "{{ name | append: "" Smith"", ""!"", ""!"" }}"
    (VMap [(s2b "name", VStr (s2b "John"))])
  = Ok (s2b "John Smith!!").
Proof. vm_compute. reflexivity. Qed.

(* tests/filters.rs render_filter_err_expected_arg_type *)
Example t_arg_type :
  render_fns [("test"%string, EFilter f_bool_arg)] [] "{{ name | test: 123 }}"
    (VMap [(s2b "name", VStr (s2b "John Smith"))])
  = Err (s2b "render error

  --> <anonymous>:1:17
   |
 1 | {{ name | test: 123 }}
   |                 ^^^
   |
   = reason: filter expected bool argument, found integer
").
Proof. vm_compute. reflexivity. Qed.

(* tests/filters.rs render_filter_err_expected_0_args *)
Example t_arity_err :
  render_fns [("pop"%string, EFilter f_pop)] [] "{{ name | pop: 123 }}"
    (VMap [(s2b "name", VStr (s2b "John Smith"))])
  = Err (s2b "render error

  --> <anonymous>:1:11
   |
 1 | {{ name | pop: 123 }}
   |           ^^^
   |
   = reason: filter expected 0 arguments
").
Proof. vm_compute. reflexivity. Qed.

(* tests/filters.rs: out of range and reference arguments, filter errors *)
Example t_arg_range :
  render_fns [("test"%string, EFilter f_u8_arg)] [] "{{ name | test: -1 }}" (VMap [(s2b "name", VInt 1)])
  = Err (s2b "render error

  --> <anonymous>:1:17
   |
 1 | {{ name | test: -1 }}
   |                 ^^-
   |
   = reason: filter expected u8 argument, but `-1` is out of range
").
Proof. vm_compute. reflexivity. Qed.

Example t_filter_error :
  render_fns [("test"%string, EFilter f_err)] [] "{{ name | test }}" (VMap [(s2b "name", VInt 1)])
  = Err (s2b "filter error

  --> <anonymous>:1:11
   |
 1 | {{ name | test }}
   |           ^^^^
   |
   = reason: boom
").
Proof. vm_compute. reflexivity. Qed.

(* tests/render.rs render_include_statement_err_max_include_depth *)
Example t_max_depth :
  match engine_new with
  | Ok e =>
    let e := add_all [("cycle", "{% include ""cycle"" %}")]%string e in
    match engine_get_template (s2b "cycle") e with
    | Some r =>
      match to_string 1000 (template_ref_renderer r e) (GBorrowed VNone) with
      | Err e => display_error e
      | _ => []
      end
    | None => []
    end
  | _ => []
  end = s2b "render error: reached maximum include depth (64)".
Proof. vm_compute. reflexivity. Qed.

(* tests/render.rs render_err_contains_template_name *)
Example t_err_name :
  match engine_new with
  | Ok e =>
    let e := add_all [("test", "{{ ipsum }}")]%string e in
    match engine_get_template (s2b "test") e with
    | Some r =>
      match to_string 1000 (template_ref_renderer r e) (GBorrowed (VMap [])) with
      | Err e => display_error_alt e
      | _ => []
      end
    | None => []
    end
  | _ => []
  end = s2b "render error

  --> test:1:4
   |
 1 | {{ ipsum }}
   |    ^^^^^
   |
   = reason: not found in this scope
".
Proof. vm_compute. reflexivity. Qed.

(* tests/render.rs render_if_statement_multi *)
Definition multi_src : string := "
{%- if a -%} a
{%- else if b -%} b
{%- else if c -%} c
{%- else if d -%} d
{%- else if e -%} e
{%- else -%} f
{%- endif -%}
".
Definition multi_ctx (x : string) : value :=
  VMap (map_of_list (map (fun k => (s2b k, VBool (String.eqb x k))) ["a"; "b"; "c"; "d"; "e"]%string)).
Example t_multi :
  map (fun x => render_test [] multi_src (multi_ctx x)) ["a"; "b"; "c"; "d"; "e"; "z"]%string
  = map (fun x => Ok (s2b x)) ["a"; "b"; "c"; "d"; "e"; "f"]%string.
Proof. vm_compute. reflexivity. Qed.

(* tests/render.rs render_inline_expr_literal_roundtrip (integers) *)
Example t_literals :
  map (fun x => render_test [] ("{{ " ++ x ++ " }}") VNone)
    ["true"; "false"; "123"; "+123"; "-123"; "0x1f"; "0o777"; "0b1010"]%string
  = map (fun x => Ok (s2b x)) ["true"; "false"; "123"; "123"; "-123"; "31"; "511"; "10"]%string.
Proof. vm_compute. reflexivity. Qed.

(* tests/lex.rs custom syntaxes *)
Definition custom (ex bl : string * string) (src : string) : bool :=
  match (let* e := engine_with_syntax
           (sb_build {| sb_expr := Some (s2b (fst ex), s2b (snd ex));
                        sb_block := Some (s2b (fst bl), s2b (snd bl)); sb_comment := None |}) in
         engine_compile (s2b src) e) with Ok _ => true | _ => false end.
Example t_overlapping :
  custom ("{", "}")%string ("{{", "}}")%string "lorem { ipsum } {{ if dolor }} {{ endif }} sit amet"
  && custom ("{{", "}}")%string ("{", "}")%string "lorem {{ ipsum }} { if dolor } { endif } sit amet"
  && custom ("{|", "|}")%string ("{", "}")%string "lorem {| ipsum | dolor |} sit" = true.
Proof. vm_compute. reflexivity. Qed.

(* tests/render_non_serde.rs render_with_value_fn *)
Definition test_value_fn : value_fn := fun path =>
  match path with
  | [m1; m2] =>
    match vm_access m1, vm_access m2 with
    | VAKey a, VAKey b => if str_eqb a (s2b "ipsum") && str_eqb b (s2b "dolor") then inl (VStr (s2b "test"))
                          else match vm_op m2 with Optional => inl VNone | Direct => inr (s2b "not found") end
    | _, _ => inr (s2b "not found")
    end
  | _ => inr (s2b "not found")
  end.
Definition render_vfn (src : string) : outcome str str :=
  match (let* e := engine_new in let* t := engine_compile (s2b src) e in
         to_string 100 (template_renderer t e) (GFn test_value_fn)) with
  | Ok s => Ok s | Err e => Err (display_error e) | _ => Panic end.
Example t_value_fn :
  map render_vfn ["lorem {{ ipsum.dolor }}"; "lorem {{ ipsum }}"; "lorem {{ ipsum?.sit }}"]%string
  = [Ok (s2b "lorem test"); Err (s2b "render error: not found"); Ok (s2b "lorem ")].
Proof. vm_compute. reflexivity. Qed.

(* tests/to_value.rs *)
Example t_to_value :
  map to_value
    [SU64 123; SU64 (2 ^ 64 - 1); SBytes [x01; x02]; SNone; SSome (SStr (s2b "a"));
     SUnitVariant (s2b "Test") (s2b "Variant"); SNewtypeVariant (s2b "Test") (s2b "Variant") (SBool true);
     STupleVariant (s2b "Test") (s2b "Variant") [SI8 1; SI8 2];
     SMap [(SSome (SStr (s2b "a")), SUnit)];
     SStructVariant (s2b "Test") (s2b "Variant") [(s2b "c", SI8 1); (s2b "a", SI8 2)]]%Z
  = [Ok (VInt 123); Err (mk_ser_error (s2b "out of range integral type conversion attempted"));
     Ok (VList [VInt 1; VInt 2]); Ok VNone; Ok (VStr (s2b "a")); Ok (VStr (s2b "Variant"));
     Ok (VMap [(s2b "Variant", VBool true)]);
     Ok (VMap [(s2b "Variant", VList [VInt 1; VInt 2])]);
     Err (mk_ser_error (s2b "map key must be a string"));
     Ok (VMap [(s2b "Variant", VMap [(s2b "a", VInt 2); (s2b "c", VInt 1)])])]%Z.
Proof. vm_compute. reflexivity. Qed.
(** ** The unit tests of src/compile/search/ahocorasick/mod.rs 126-263 *)

Fixpoint find_iter (fuel : nat) (sts : automaton) (h : str) (pos : nat)
  : outcome unit (list (nat * nat * nat)) :=
  match fuel with
  | 0 => Ok []
  | S fuel' =>
    if length h <? pos then Ok []
    else
      let* m := ac_find_at sts h pos in
      match m with
      | None => Ok []
      | Some m =>
        let pos' := if m_end m =? pos then pos + 1 else m_end m in
        let* r := find_iter fuel' sts h pos' in
        Ok ((pat_id (m_pattern m), m_end m - pat_len (m_pattern m), m_end m) :: r)
      end
  end.

Definition ac_test (t : list string * string * list (nat * nat * nat)) : Prop :=
  let '(ps, h, exp) := t in
  (let* sts := ac_build (combine (seq 0 (length ps)) (map s2b ps)) in
   find_iter 10 sts (s2b h) 0) = Ok exp.

Fixpoint conj (l : list Prop) : Prop := match l with [] => True | p :: l' => p /\ conj l' end.

Example t_ahocorasick : conj (map ac_test (
  [([], "", []);
   (["a"], "", []);
   (["a"], "a", [(0, 0, 1)]);
   (["a"], "aa", [(0, 0, 1); (0, 1, 2)]);
   (["a"], "aaa", [(0, 0, 1); (0, 1, 2); (0, 2, 3)]);
   (["a"], "aba", [(0, 0, 1); (0, 2, 3)]);
   (["a"], "bba", [(0, 2, 3)]);
   (["a"], "bbb", []);
   (["a"], "bababbbba", [(0, 1, 2); (0, 3, 4); (0, 8, 9)]);
   (["aa"], "", []);
   (["aa"], "aa", [(0, 0, 2)]);
   (["aa"], "aabbaa", [(0, 0, 2); (0, 4, 6)]);
   (["aa"], "abbab", []);
   (["aa"], "abbabaa", [(0, 5, 7)]);
   (["abc"], "abc", [(0, 0, 3)]);
   (["abc"], "zazabzabcz", [(0, 6, 9)]);
   (["abc"], "zazabczabcz", [(0, 3, 6); (0, 7, 10)]);
   (["a"; "b"], "", []);
   (["a"; "b"], "z", []);
   (["a"; "b"], "b", [(1, 0, 1)]);
   (["a"; "b"], "a", [(0, 0, 1)]);
   (["a"; "b"], "abba", [(0, 0, 1); (1, 1, 2); (1, 2, 3); (0, 3, 4)]);
   (["b"; "a"], "abba", [(1, 0, 1); (0, 1, 2); (0, 2, 3); (1, 3, 4)]);
   (["abc"; "bc"], "xbc", [(1, 1, 3)]);
   (["foo"; "bar"], "", []);
   (["foo"; "bar"], "foobar", [(0, 0, 3); (1, 3, 6)]);
   (["foo"; "bar"], "barfoo", [(1, 0, 3); (0, 3, 6)]);
   (["foo"; "bar"], "foofoo", [(0, 0, 3); (0, 3, 6)]);
   (["foo"; "bar"], "barbar", [(1, 0, 3); (1, 3, 6)]);
   (["foo"; "bar"], "bafofoo", [(0, 4, 7)]);
   (["bar"; "foo"], "bafofoo", [(1, 4, 7)]);
   (["foo"; "bar"], "fobabar", [(1, 4, 7)]);
   (["bar"; "foo"], "fobabar", [(0, 4, 7)]);
   ([""], "", [(0, 0, 0)]);
   ([""], "a", [(0, 0, 0); (0, 1, 1)]);
   ([""], "abc", [(0, 0, 0); (0, 1, 1); (0, 2, 2); (0, 3, 3)]);
   (["yabcdef"; "abcdezghi"], "yabcdefghi", [(0, 0, 7)]);
   (["yabcdef"; "abcdezghi"], "yabcdezghi", [(1, 1, 10)]);
   (["yabcdef"; "bcdeyabc"; "abcdezghi"], "yabcdezghi", [(2, 1, 10)]);
   (["abcd"; "bcd"; "cd"], "abcd", [(0, 0, 4)]);
   (["bcd"; "cd"; "abcd"], "abcd", [(2, 0, 4)]);
   (["abc"; "bc"], "zazabcz", [(0, 3, 6)]);
   (["ab"; "ba"], "abababa", [(0, 0, 2); (0, 2, 4); (0, 4, 6)]);
   (["foo"; "foo"], "foobarfoo", [(0, 0, 3); (0, 6, 9)]);
   ([""; ""], "", [(0, 0, 0)]);
   ([""; ""], "a", [(0, 0, 0); (0, 1, 1)]);
   (["ab"; "ab"], "abcd", [(0, 0, 2)]);
   (["a"; ""], "a", [(0, 0, 1); (1, 1, 1)]);
   ([""; ""], "a", [(0, 0, 0); (0, 1, 1)]);
   (["a"; "ab"], "aa", [(0, 0, 1); (0, 1, 2)]);
   (["ab"; "a"], "aa", [(1, 0, 1); (1, 1, 2)]);
   (["ab"; "a"], "xayabbbz", [(1, 1, 2); (0, 3, 5)]);
   (["abcd"; "bce"; "b"], "abce", [(1, 1, 4)]);
   (["abcd"; "ce"; "bc"], "abce", [(2, 1, 3)]);
   (["abcd"; "bce"; "ce"; "b"], "abce", [(1, 1, 4)]);
   (["abcd"; "bce"; "cz"; "bc"], "abcz", [(3, 1, 3)]);
   (["bce"; "cz"; "bc"], "bcz", [(2, 0, 2)]);
   (["abc"; "bd"; "ab"], "abd", [(2, 0, 2)]);
   (["abcdefghi"; "hz"; "abcdefgh"], "abcdefghz", [(2, 0, 8)]);
   (["abcdefghi"; "cde"; "hz"; "abcdefgh"], "abcdefghz", [(3, 0, 8)]);
   (["abcdefghi"; "hz"; "abcdefgh"; "a"], "abcdefghz", [(2, 0, 8)]);
   (["b"; "abcdefghi"; "hz"; "abcdefgh"], "abcdefghz", [(3, 0, 8)]);
   (["h"; "abcdefghi"; "hz"; "abcdefgh"], "abcdefghz", [(3, 0, 8)]);
   (["z"; "abcdefghi"; "hz"; "abcdefgh"], "abcdefghz", [(3, 0, 8); (0, 8, 9)]);
   (["ab"; "abcd"], "abcd", [(1, 0, 4)]);
   (["abcd"; "bcd"; "cd"; "b"], "abcd", [(0, 0, 4)]);
   ([""; "a"], "a", [(1, 0, 1); (0, 1, 1)]);
   ([""; "a"; ""], "a", [(1, 0, 1); (0, 1, 1)]);
   (["a"; ""; ""], "a", [(0, 0, 1); (1, 1, 1)]);
   ([""; ""; "a"], "a", [(2, 0, 1); (0, 1, 1)]);
   ([""; "a"], "aa", [(1, 0, 1); (1, 1, 2); (0, 2, 2)]);
   (["a"; "ab"], "a", [(0, 0, 1)]);
   (["a"; "ab"], "ab", [(1, 0, 2)]);
   (["ab"; "a"], "a", [(1, 0, 1)]);
   (["ab"; "a"], "ab", [(0, 0, 2)]);
   (["abcdefg"; "bcde"; "bcdef"], "abcdef", [(2, 1, 6)]);
   (["abcdefg"; "bcdef"; "bcde"], "abcdef", [(1, 1, 6)]);
   (["abcd"; "b"; "bce"], "abce", [(2, 1, 4)]);
   (["a"; "abcdefghi"; "hz"; "abcdefgh"], "abcdefghz", [(3, 0, 8)]);
   (["a"; "abab"], "abab", [(1, 0, 4)]);
   (["abcd"; "b"; "ce"], "abce", [(1, 1, 2); (2, 2, 4)]);
   (["a"; "ab"], "xayabbbz", [(0, 1, 2); (1, 3, 5)])]%string)%nat).
Proof. vm_compute. repeat split. Qed.

