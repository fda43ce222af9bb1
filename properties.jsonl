{"id": "C01", "title": "Delimiter search is leftmost-longest", "statement": "For any syntax configuration, scanning a template from any position reports a delimiter iff one occurs at or after that position; the reported one starts at the smallest possible offset, among those is the longest, and among equal texts is the one configured first.", "quantifier": "every list of non-empty delimiters, every byte string, every start offset", "why_tests_cant": "The automaton (trie + failure links + dead state) has unboundedly many shapes; overlapping custom delimiters interact through failure links in ways a finite set of pattern sets cannot cover.", "anchors": ["src/compile/search/ahocorasick/build.rs: Builder::build, fill_failure_transitions", "src/compile/search/ahocorasick/mod.rs: AhoCorasick::find_at", "src/compile/search/mod.rs: Searcher::find_at"]}
{"id": "C02", "title": "Compilation is total and never panics", "statement": "Engine::compile / add_template on any UTF-8 source returns Ok or Err: it never panics (slice out of range, slice inside a character, unwrap on None, 'lexer bug', 'parser bug') and never loops forever, for every syntax whose closing delimiters do not end in white space.", "quantifier": "every valid UTF-8 source, every accepted syntax configuration with that side condition", "why_tests_cant": "Byte offsets, characters of width 1-4 and custom delimiters give infinitely many slice points; fuzzing samples them only.", "anchors": ["src/compile/lex.rs: Lexer", "src/compile/parse.rs: Parser::parse_template", "src/compile/mod.rs: template"]}
{"id": "C03", "title": "Custom syntaxes with white-space-terminated closing delimiters", "statement": "Every syntax accepted by SyntaxBuilder (non-empty delimiters) can be used to compile and render any template without a panic.", "quantifier": "every accepted syntax, every UTF-8 source", "why_tests_cant": "The failure needs a closing delimiter ending in white space followed by a trimming tag; no test uses such a syntax.", "anchors": ["src/compile/lex.rs: Lexer::lex_template (trim_raw_token)", "src/types/syntax.rs: SyntaxBuilder"]}
{"id": "C04", "title": "Plain text renders to itself", "statement": "A template in which no configured delimiter occurs compiles, and renders byte-for-byte to its own source, whatever the context and engine contents.", "quantifier": "every delimiter-free source, every syntax, every context, every engine", "why_tests_cant": "Quantifies over all texts and all syntaxes.", "anchors": ["src/compile/lex.rs: lex_template", "src/render/core.rs: Instr::EmitRaw"]}
{"id": "C05", "title": "Tokens tile the source", "statement": "The lexer drops nothing: the tokens (including white space) cover the template source left to right without gaps or overlaps, except for white space removed next to a hyphenated tag; every span lies on character boundaries inside the source.", "quantifier": "every UTF-8 source and syntax", "why_tests_cant": "Needs an invariant over the whole lexer state machine for every source.", "anchors": ["src/compile/lex.rs: Lexer::lex"]}
{"id": "C06", "title": "Whitespace control", "statement": "A hyphenated opening tag removes exactly the trailing white space of the raw text before it, a hyphenated closing tag exactly the leading white space of the raw text after it, and un-hyphenated tags remove nothing; no non-white-space character is ever lost.", "quantifier": "every source", "why_tests_cant": "Unicode white space, empty raw text and both-sided trims combine without bound.", "anchors": ["src/compile/lex.rs: lex_template, left_trim"]}
{"id": "C07", "title": "Comments produce nothing", "statement": "A comment contributes no output and no other effect: compiling a template with a comment gives the same program as if the comment statement were absent.", "quantifier": "every comment body without delimiters, every surrounding template", "why_tests_cant": "All bodies and all contexts.", "anchors": ["src/compile/parse.rs: parse_template (BeginComment)", "src/compile/lex.rs: lex_comment"]}
{"id": "C08", "title": "Accepted templates are exactly the grammatical ones", "statement": "Compilation succeeds exactly when the token sequence is generated by the documented grammar (balanced if/else if/else/endif, for/endfor, with/endwith, include, expressions, comments), and the structure obtained is the one of the derivation.", "quantifier": "every token sequence / source", "why_tests_cant": "The two-stack parser must be right for every nesting depth.", "anchors": ["src/compile/parse.rs: parse_template, parse_block, parse_expr"]}
{"id": "C09", "title": "Integer literals are exact", "statement": "A base 2, 8, 10 or 16 integer literal with any underscores and an optional sign denotes exactly its mathematical value when that fits in 64 bits, including the minimum; otherwise it is never silently wrapped.", "quantifier": "every digit string, radix and sign", "why_tests_cant": "2^64 values and unbounded spellings.", "anchors": ["src/compile/parse.rs: parse_literal_integer, parse_literal_number"]}
{"id": "C10", "title": "String literals round-trip", "statement": "Writing any string between double quotes with the documented escapes (\\n \\r \\t \\\\ \\\") yields exactly that string.", "quantifier": "every string", "why_tests_cant": "All strings; the failing ones end in a backslash.", "anchors": ["src/compile/lex.rs: lex_string", "src/compile/parse.rs: parse_string"]}
{"id": "C11", "title": "Compiled programs mean what the template says", "statement": "Rendering the compiled instruction sequence gives the same output, the same error and the same effects on the writer as directly interpreting the template structure (if, for, with, include, expressions).", "quantifier": "every template, every context, every engine, every writer", "why_tests_cant": "Jump patching and the instruction pointer must be right for every nesting of blocks.", "anchors": ["src/compile/mod.rs: Compiler", "src/render/core.rs: RendererImpl::render_one"]}
{"id": "C12", "title": "Rendering always terminates", "statement": "Rendering ends after finitely many steps for every set of templates, including self-referential and mutually including ones, every context and any include-depth setting.", "quantifier": "every engine, template, context, depth limit", "why_tests_cant": "Non-termination cannot be observed by a finite test run.", "anchors": ["src/render/core.rs: RendererImpl::render"]}
{"id": "C13", "title": "Rendering never panics", "statement": "Rendering any compiled template with any context returns Ok or Err, never a panic.", "quantifier": "every engine, every template set, every context", "why_tests_cant": "Requires the value register, the frame stack and the instruction pointer to stay in step on every path; a panic needs a particular combination of `with` and `include`.", "anchors": ["src/render/core.rs", "src/render/stack.rs: Stack::lookup_var", "src/error.rs: Pretty::build"]}
{"id": "C14", "title": "Include depth limit", "statement": "At no time are more templates active than the configured maximum (renderer setting over engine setting, the root always being allowed); an include that would exceed it fails with 'reached maximum include depth (N)', and no other include does.", "quantifier": "every engine, template graph, limit", "why_tests_cant": "All include graphs and all limits.", "anchors": ["src/render/core.rs: RendererImpl::render", "src/lib.rs: set_max_include_depth", "src/render/mod.rs: with_max_include_depth"]}
{"id": "C15", "title": "Conditionals follow truthiness", "statement": "`if e` renders its first branch exactly when e is not one of None, false, 0, 0.0, empty string/list/map; `if not e` exactly when it is; an else-if chain renders the first branch whose condition holds, and otherwise the else branch if any.", "quantifier": "every value, every chain length, every body", "why_tests_cant": "All values and chain lengths.", "anchors": ["src/render/value.rs: as_bool", "src/compile/mod.rs: Stmt::IfElse", "src/compile/parse.rs: Block::ElseIf"]}
{"id": "C16", "title": "For loops visit every item once in order", "statement": "A for loop over a list renders its body once per item in list order with the variable bound to the item, and over a map once per entry in ascending key order; loop.index counts 0,1,2,..., loop.first holds only on the first and loop.last only on the last iteration; an empty iterable renders nothing.", "quantifier": "every list and map, every body", "why_tests_cant": "All lengths, all bodies.", "anchors": ["src/render/iter.rs: LoopState", "src/compile/mod.rs: Stmt::ForLoop"]}
{"id": "C17", "title": "Block variables are scoped", "statement": "After a for or with block ends the set of visible variables is exactly what it was before, and inside the block the new variables shadow outer variables of the same name.", "quantifier": "every block body, every state", "why_tests_cant": "Needs a stack discipline invariant over every program.", "anchors": ["src/render/stack.rs", "src/render/core.rs: WithStart/WithEnd/LoopStart/LoopNext"]}
{"id": "C18", "title": "Include shares or isolates scope", "statement": "`include name` renders the nested template with every variable of the includer visible; `include name with e` renders it with e as its only scope: nothing of the includer's variables or globals can influence it.", "quantifier": "every template pair, every context", "why_tests_cant": "Non-interference is a statement about pairs of runs for all contexts.", "anchors": ["src/render/core.rs: Include/IncludeWith", "src/render/stack.rs: State::Boundary"]}
{"id": "C19", "title": "Path lookup", "statement": "A dotted path resolves each member in turn: a missing key or index reached with `.` is an error, reached with `?.` makes the whole path None; accessing a member of the wrong type is an error; the first segment is looked up innermost scope first.", "quantifier": "every value, every path, every stack", "why_tests_cant": "All nested values and paths.", "anchors": ["src/render/value.rs: lookup, lookup_path, lookup_path_maybe", "src/render/stack.rs: lookup_var"]}
{"id": "C20", "title": "Optional access on loop variables", "statement": "`item?.missing` on a loop variable evaluates to None, exactly as it does for any other variable.", "quantifier": "every loop item, every path", "why_tests_cant": "The failing case needs an optional member that is missing on a loop variable.", "anchors": ["src/render/iter.rs: LoopState::lookup_var (resolve!)"]}
{"id": "C21", "title": "to_string and to_writer agree", "statement": "With a writer that accepts everything, to_writer succeeds exactly when to_string does, with the same bytes; both report the same error otherwise.", "quantifier": "every engine, template, context", "why_tests_cant": "All templates.", "anchors": ["src/render/mod.rs: to_string, to_writer", "src/fmt.rs: Writer"]}
{"id": "C22", "title": "Failing writers", "statement": "When a write fails the render stops with that IO error and the bytes handed to the writer before are a prefix of the to_string output (formatters propagating write errors).", "quantifier": "every writer failure point, every template", "why_tests_cant": "All crash points.", "anchors": ["src/render/mod.rs: to_writer", "src/fmt.rs: Writer::write_str"]}
{"id": "C23", "title": "Filter calls are checked", "statement": "A filter is run only with exactly as many arguments as it declares, each of the declared type; an integer argument outside the declared integer type is an error, never truncated; otherwise rendering fails with an error locating the argument.", "quantifier": "every filter signature, every argument list, every value", "why_tests_cant": "All signatures and values.", "anchors": ["src/filters/mod.rs: check_args, get_arg", "src/filters/args.rs"]}
{"id": "C24", "title": "Filters and formatters in pipelines", "statement": "A pipeline applies its filters left to right; a formatter may only be the last, argument-less element of an emitted expression and then replaces the default formatter for that value; any other use, or an unknown name, is an error.", "quantifier": "every pipeline, every engine", "why_tests_cant": "All pipelines.", "anchors": ["src/compile/mod.rs: pop_emit_expr", "src/render/core.rs: EmitWith, Apply"]}
{"id": "C25", "title": "Engine registry", "statement": "Any sequence of add/remove/get calls on templates and functions behaves like two independent finite maps; a failing add_template leaves the engine unchanged and names the template in the error; return values report what was replaced or removed.", "quantifier": "every sequence of operations", "why_tests_cant": "All histories.", "anchors": ["src/lib.rs: Engine"]}
{"id": "C26", "title": "Serialization to Value", "statement": "to_value of a Value is that Value; integers are preserved exactly or rejected (u64 above i64::MAX); map keys must be strings, chars, integers or unit variants; duplicate keys keep the last value.", "quantifier": "every serializable datum", "why_tests_cant": "All data shapes.", "anchors": ["src/value/ser/mod.rs", "src/value/ser/map.rs", "src/value/ser/variants.rs"]}
{"id": "C27", "title": "Error locations", "statement": "Every syntax or render error shows a line and column inside its template; the line number is the number of line breaks before the offending token plus one and the column its offset in that line.", "quantifier": "every source, every error", "why_tests_cant": "All sources; multi-byte text shifts the reported location.", "anchors": ["src/error.rs: Pretty::build, to_ln_col"]}
{"id": "C28", "title": "Errors name the template they come from", "statement": "A render error carries the name of the innermost template being rendered when it happened (none for an anonymous root). An error of add_template carries the name given and is otherwise the error of compile, which has none.", "quantifier": "every include graph, every error", "why_tests_cant": "All include graphs.", "anchors": ["src/render/core.rs: render (with_template_name)", "src/error.rs: with_template_name"]}
{"id": "C29", "title": "Default formatting", "statement": "The default formatter writes nothing for None, true/false, the decimal digits of integers, strings verbatim, and errors on lists and maps; distinct integers print differently and printing round-trips.", "quantifier": "every value", "why_tests_cant": "2^64 integers, all strings.", "anchors": ["src/fmt.rs: default"]}
{"id": "C30", "title": "Lazy and eager contexts agree", "statement": "Rendering with a value function that resolves paths in a fixed value gives the same output as rendering with that value, whenever both succeed; locally bound variables never reach the function.", "quantifier": "every template, every value", "why_tests_cant": "Relates two runs for all templates.", "anchors": ["src/render/stack.rs: State::ValueFn", "src/lib.rs: render_from_fn"]}
{"id": "C31", "title": "Only referenced globals matter", "statement": "Two contexts that agree on every top-level name mentioned in the templates render identically (output or error).", "quantifier": "every pair of contexts, every template set", "why_tests_cant": "Relational property over all contexts.", "anchors": ["src/render/stack.rs: lookup_var"]}
{"id": "C32", "title": "Custom template resolution", "statement": "with_template_fn is consulted for every include, in order, and nothing in the engine's template table is then used; its error text becomes the reason of the render error.", "quantifier": "every resolver, every template", "why_tests_cant": "All resolvers (stateful) and include sequences.", "anchors": ["src/render/core.rs: get_template", "src/render/mod.rs: with_template_fn"]}
{"id": "C33", "title": "Index literals", "statement": "`path.N` addresses item N for every N below 2^64 and larger literals are rejected at compile time.", "quantifier": "every digit string", "why_tests_cant": "All digit strings.", "anchors": ["src/compile/parse.rs: parse_access"]}
{"id": "C34", "title": "Output comes only from raw text and formatters", "statement": "Every byte of the output is raw text of a template that can be rendered or was written by the default formatter or by a registered formatter named in a template; so a byte that no such formatter writes (e.g. `<` with an escaping default formatter) and that is not in the raw text cannot appear in the output, whatever the context, also when rendering fails midway.", "quantifier": "every set of templates, engine, context (also lazy), writer", "why_tests_cant": "A security guarantee about all data; testing shows only the injections tried.", "anchors": ["src/render/core.rs: RendererImpl::render_one", "src/fmt.rs: Formatter"]}
{"id": "C35", "title": "Only what is referenced matters", "statement": "Two engines with the same default formatter and depth limit that agree on the functions and the included templates named by the templates reachable from the rendered one give the same result and the same writes; in particular adding, replacing or removing an unused template, filter or formatter changes nothing.", "quantifier": "every pair of engines, templates, contexts, writers", "why_tests_cant": "Relational property over all engines.", "anchors": ["src/lib.rs: Engine", "src/render/core.rs: RendererImpl::get_template, lookup of functions"]}
{"id": "C36", "title": "render(ctx) is render_from(to_value(ctx))", "statement": "Rendering with serializable data is rendering with the value it converts to; if it does not convert, the serialization error is returned before anything is written. Rendering data is rendering Value::from(data); a Value used as context means itself.", "quantifier": "every serializable data, template, engine, writer", "why_tests_cant": "Ranges over all data and all templates.", "anchors": ["src/render/mod.rs: Renderer::with_serde, to_string, to_writer", "src/value/ser/mod.rs: to_value", "src/value/from.rs"]}
{"id": "C37", "title": "Float and boolean literals", "statement": "A number literal with a point or (unless it begins with 0x) an exponent denotes the 64-bit float that Rust's standard parser reads from its text, negated if it has a minus sign; if Rust reads none, compilation fails. `true` and `false` denote the booleans.", "quantifier": "every literal text, sign, engine with the default syntax, context", "why_tests_cant": "Infinitely many literals; the interaction of signs, exponents and radix prefixes is a matter of all texts.", "anchors": ["src/compile/parse.rs: parse_number, parse_literal", "src/compile/lex.rs: lex_number"]}
{"id": "C38", "title": "value! builds the map it spells", "statement": "`value! { ... }` compiles exactly if its input is comma-separated `key: value` entries, values being `None`, expressions, bracketed lists and braced maps of values (optional trailing commas; a list may begin with commas), and the reading is unique. Evaluating it panics exactly if one of the expressions does not serialize to a value; otherwise it is the map denoted, expressions converted as by to_value, None as Value::None, the last of duplicate keys winning.", "quantifier": "every input token sequence, nesting depth, value of the interpolated expressions", "why_tests_cant": "A recursive macro over all token sequences; the tests try a dozen (and compile failures are commented out).", "anchors": ["src/macros.rs: value!, _value!"]}
{"id": "C39", "title": "SyntaxBuilder configures exactly what was asked", "statement": "Calling the builder's methods panics exactly at a call with an empty delimiter; otherwise the built syntax has, for each of the three groups, exactly the delimiters of the last call for that group (none if it was not called) and their hyphenated forms with the hyphen on the inner side; the order of calls for different groups does not matter; every syntax arises this way; the default is {{ }}, {% %}, {# #}.", "quantifier": "every sequence of builder calls", "why_tests_cant": "Ranges over all call sequences and all delimiter strings.", "anchors": ["src/types/syntax.rs: SyntaxBuilder::expr, block, comment, build"]}
{"id": "C40", "title": "A compiled template means what its statements mean", "statement": "What rendering a compiled template writes, in which pieces, and the kind, reason and template name of the error it ends with, if any, are given by an interpreter over the tree of the template's names, literals and texts (conditionals, loops, with blocks, includes, filter pipelines, path lookups), which knows nothing of instructions, the stack machine or positions; provided no template includes another (without its own `with`) from inside a with block.", "quantifier": "every engine, registered function, set of templates, template function, context, sink (including failing ones)", "why_tests_cant": "Ranges over all templates, contexts and sinks, nested without bound.", "anchors": ["src/render/core.rs: RendererImpl::render, render_one", "src/render/stack.rs: Stack::lookup_var", "src/compile/mod.rs: Compiler"]}
{"id": "C41", "title": "Layout does not matter", "statement": "Two sources, possibly in two syntaxes, whose significant tokens agree (ignoring the spelling of delimiters, white space inside tags, and comments) either both compile or neither does; and renderers that differ only in such layout have the same output, the same pieces written to every sink, and the same error kind, reason and template name; only the places of errors differ. (Under the condition of C40 on include inside with.)", "quantifier": "every pair of syntaxes and of sources and sets of templates that differ in layout; every context and sink", "why_tests_cant": "Relates two executions for all sources, syntaxes and inputs.", "anchors": ["src/compile/lex.rs: Lexer::next", "src/compile/parse.rs: Parser::parse_template", "src/render/core.rs: RendererImpl::render"]}
{"id": "C42", "title": "A syntax error points at the offending place", "statement": "If a source does not compile, the error is a syntax error with a location, and the location is to blame: (a) a token such that the tag up to it occurs in some template but with it occurs in none; (b) inside a literal that denotes no value; (c) a tag that occurs in some template, after text that begins some template, but together with it begins none; (d) the tag that opened a block that no later part of the source closes; (e) the end of the source, inside a tag; or (f) something that is no token: a tag opened within a tag, a closing delimiter without its opening one, a character that begins no token, a ? without a dot, a string not closed on its line. A source that compiles has no such place.", "quantifier": "every syntax (without closing delimiters that end in white space) and every source that does not compile", "why_tests_cant": "Ranges over all malformed sources; `occurs in some template` and `in none` quantify over all templates.", "anchors": ["src/compile/parse.rs: Parser::parse_template, parse_expr, parse_call_or_var", "src/compile/lex.rs: Lexer::lex, Lexer::lex_string", "src/compile/mod.rs", "src/error.rs: Error::syntax"]}
{"id": "C43", "title": "What an error displays", "statement": "The short form of an error (`{}`) is its kind and its reason, and tells both. The long form (`{:#}`) of an error with a place shows the template's name, line and column (from 1), the line itself, and carets under exactly the columns of the place, then the reason. For syntax errors the place is the one to blame (C42), for render errors a place of the template that the error names; provided the source takes one column per byte (C27).", "quantifier": "every error; every source that does not compile; every failing rendering", "why_tests_cant": "Ranges over all errors, sources and renderings; alignment must hold for all line numbers and columns.", "anchors": ["src/error.rs: Display for Error, Pretty::fmt_with_reason, Pretty::build"]}
{"id": "C44", "title": "The message of a syntax error is true", "statement": "If a source does not compile, the message of the error holds of the place it points at (C42): `expected W, found T` - the token there is a T and, after the tokens before it in its tag, a W could come (for `expression`: every expression; for `identifier or index`: every identifier and every index); `expected keyword k, found keyword k'` - the token is the keyword k' and k could come; `unexpected keyword k`; `unexpected B block` - the tag there is a B tag and cannot come next; `unclosed B block` - the tag there is a B tag whose block is never closed; `expected W, found EOF`; `unclosed T` / `unexpected T` - the delimiter there is a T; `invalid digit for base n literal` - the character there is no digit in the base of the literal; `out of range` - it, or the digits up to some point, denote a number outside of the 64-bit range; `unknown escape character`; `invalid float literal`; `undelimited string`; `unexpected character`. The short and long forms of the error contain this message.", "quantifier": "every syntax (without closing delimiters that end in white space) and every source that does not compile", "why_tests_cant": "Ranges over all malformed sources; `could come` quantifies over all templates.", "anchors": ["src/compile/parse.rs: Parser::parse_template, expect, parse_lit_int, parse_lit_str", "src/compile/lex.rs: Lexer::lex, Token::human", "src/error.rs: Error::syntax"]}
{"id": "C45", "title": "Which functions are filters, and how they are called", "statement": "A function can be registered as a filter exactly if it has one to five parameters, the first taken by value (a type a template value converts to) or as &str, &[Value], &BTreeMap<String, Value> or &Value, the others by value or as &str; there is then only one way to do so (the argument types are inferred). It is called with the piped value and the arguments of the template, converted to the types of its parameters, in the order they are written, and what it returns becomes the value or the error of the filter.", "quantifier": "every parameter list, every function, every call in every template and context", "why_tests_cant": "There are 155 implementations, each with its own argument order and arity, over unboundedly many instantiations of their type parameters; a test registers a few.", "anchors": ["src/filters/impls.rs", "src/filters/mod.rs: Filter, FilterArgs::from_state, new, FilterReturn::to_value", "src/filters/args.rs: FilterArg"]}
{"id": "C46", "title": "Templates compose by concatenation", "statement": "If two texts each compile with an engine, then their concatenation compiles, and rendering it gives the output of the first followed by the output of the second; if rendering the first fails, or the first succeeds and the second fails, rendering the whole fails with the same kind of error, reason and template name. This needs that no delimiter begins in the first text and ends in the second, that the first does not end in a hyphenated closing delimiter (and white space), and that the second does not begin with (white space and) a hyphenated opening delimiter.", "quantifier": "every syntax, every engine, every pair of UTF-8 texts with that side condition, every context", "why_tests_cant": "It relates all pairs of templates; the lexer, the trimming and the two-stack parser must all be insensitive to what comes before and after.", "anchors": ["src/compile/lex.rs: Lexer::lex_template", "src/compile/parse.rs: Parser::parse_template", "src/lib.rs: Engine::compile, TemplateRenderer"]}
{"id": "C47", "title": "Refactoring laws", "statement": "Rewriting a template by the following laws, in any place and any number of times, in either direction, does not change the string it renders to, nor the kind, reason and template of its error: merging or splitting texts; {{ \"text\" }} for text; `if not c` with the branches swapped; no `else` for an empty `else`; an `if` on a literal replaced by its branch; moving what follows an if/else, or a text before it, into both branches; {{ e }} as {% with e as x %}{{ x }}{% endwith %} if e does not end in a formatter; extending a with block over statements that do not use its variable; renaming the variable of a with block or loop.", "quantifier": "every pair of well-formed renderers whose templates are rewritings of each other, every context", "why_tests_cant": "All templates, all places in them and all contexts; the laws have to hold under every composition of blocks.", "anchors": ["src/render/core.rs: RendererImpl", "src/render/stack.rs: Stack::lookup_var", "src/compile/mod.rs: Compiler::compile_stmt"]}
{"id": "C48", "title": "Includes can be written out", "statement": "Replacing `{% include name %}` by the statements of the template of that name, in any number of places, gives the same output; errors keep their kind and reason, and no error appears; only errors about the include depth can disappear.", "quantifier": "every engine, template graph, set of replaced includes, context", "why_tests_cant": "All template graphs, also recursive ones, and all contexts.", "anchors": ["src/render/core.rs: RendererImpl::render", "src/render/stack.rs: Stack"]}
{"id": "C49", "title": "More variables, functions, templates or include depth never change a rendering that succeeds", "statement": "If rendering succeeds, then it still succeeds with the same text when the context has more top-level variables, when functions or templates are registered under new names, and when the include limit is raised; to a string and to a writer.", "quantifier": "every template graph, engine, context and extension of them", "why_tests_cant": "All templates and all extensions of engine and context.", "anchors": ["src/render/stack.rs: Stack::lookup_var", "src/render/core.rs: RendererImpl::render, lookup_filter, include_template", "src/lib.rs: Engine::add_template, add_filter, add_formatter, set_max_include_depth"]}
{"id": "C50", "title": "The name of a template matters only in errors", "statement": "Rendering a template under another name, or without one (Engine::compile instead of add_template), gives the same text and the same writes; errors are the same except that those of the template itself carry its name.", "quantifier": "every template graph, pair of names, context, writer", "why_tests_cant": "All templates, contexts, failure points.", "anchors": ["src/lib.rs: Engine::template, Engine::compile, Template::render, TemplateRef::render", "src/render/core.rs: RendererImpl::render", "src/error.rs: with_template_name"]}
{"id": "C51", "title": "The feature unicode changes only identifiers and the places errors show", "statement": "With ASCII delimiters, a template compiles in the build without the feature \"unicode\" exactly if it compiles in the build with it and all its identifiers are ASCII, and then to the same program; every engine one can make without the feature can be made with it. If the source contains no non-ASCII identifier characters, compiling fails alike too, with errors that differ at most in line, column and width. The same renderer gives the same text in both builds, writes the same bytes, and fails with errors that differ at most in line, column and width.", "quantifier": "every pair of builds that agree on ASCII characters and on the standard library's float functions, every syntax with ASCII delimiters, source, engine, context and writer", "why_tests_cant": "All sources, contexts and character tables; the test suite runs in one build at a time.", "anchors": ["src/lib.rs: lines 120-124 (feature unicode)", "src/compile/lex.rs: is_ident_start, is_ident", "src/error.rs: display_width, to_ln_col"]}
{"id": "C52", "title": "User functions with state are called in the order of the source", "statement": "Whatever state the writer, the formatters, the filters, the value function and the template function have, and whatever they answer (a value, an error, a panic, or nothing at all): rendering calls exactly those that reading the template from the first statement to the last calls, in that order, once each, with the same arguments: the value or variable of an expression first, then its filters from left to right, each after its arguments from left to right, then the formatter; the condition of an if once before its branch, the list of a for once before its first iteration, the expression of an include's with before the template is asked for, a variable that no enclosing block defines by one call of the value function for its path. It stops at the first refusal, makes no call after it, and ends if all calls return; its result depends on the answers alone.", "quantifier": "every state type, environment of user functions, initial state, engine, template function and context stack; templates compiled with any syntaxes", "why_tests_cant": "All effects, answers, histories and templates; a test sees one order on one run.", "anchors": ["src/render/core.rs: render, render_one, get_template", "src/render/stack.rs: lookup_var", "src/filters/mod.rs: call, get_arg, check_args", "src/render/mod.rs: with_template_fn, to_writer"]}
{"id": "C53", "title": "Which templates there are", "statement": "Forgetting layout (C40), a source that compiles is a list of statements in which text holds no delimiter, names are identifiers that are not reserved words, indices are at most 2^64-1, literals are booleans, 64-bit integers, strings or floats that some number denotes, calls with a colon have at least one argument, and what a for loop ranges over does not begin with a number. With the default delimiters the converse holds: every such list is the meaning of some source that compiles, however its statements are nested and neighbour each other, so that nothing the statements can say is out of reach of the syntax; that source does what the list means in every context. In particular every string is the value of some string literal and every text is the output of some template.", "quantifier": "all sources and delimiters in one direction; all statement lists and all engines with the default delimiters in the other; all contexts for the behaviour", "why_tests_cant": "It says that no template outside of a set compiles and that for each of infinitely many, arbitrarily nested templates a source exists; tests try some.", "anchors": ["src/compile/lex.rs: Lexer::next", "src/compile/parse.rs: Parser::parse_template, parse_expr, parse_path, parse_string_literal", "src/compile/mod.rs: template"]}
{"id": "C54", "title": "A block does what its body does in a larger context", "statement": "A template that consists of one block renders as templates of its parts do. `{% if e %}A{% else %}B{% endif %}` gives what the template A gives if the value of e is true (any value but none, false, zero, the empty string, list and map; the other way round with `not`), else what the template B gives, in the same context. `{% with e as x %}A{% endwith %}` gives what the template A gives in the context in which x is also the value of e. `{% for x in e %}A{% endfor %}` gives, one after the other, what the template A gives in the contexts in which x is also the first, second, .. item and `loop` is a map of `index`, `first` and `last`, and stops at the first error; the same for the entries of a map with two variables. `{% include \"n\" %}` gives what the registered template n gives by itself in the same context, and `{% include \"n\" with e %}` what it gives in the value of e; or the include is too deep. If e fails, the template fails with that error, and loops over values of the wrong kind fail with the documented reason. `{{ a.b.c }}` shows the value that is found by following the path from the context, or fails for the first member that is missing.", "quantifier": "all engines (functions, formatters, templates, limits, delimiters), bodies of any depth, expressions, variable names and contexts; for loops bodies that use a loop variable without `?.` behind it (C20) and `loop` or one member of it; for values that are not stored in the context, filters that take arguments by value; no includes in with blocks (C18)", "why_tests_cant": "It equates the behaviour of two templates for arbitrary bodies and contexts; tests compare particular ones.", "anchors": ["src/render/core.rs: Renderer::render, render_one, get_template", "src/render/stack.rs: Stack::lookup_var", "src/render/iter.rs: LoopState", "src/compile/mod.rs: Compiler::compile_stmt"]}
{"id": "C55", "title": "Names do not matter", "statement": "If the variables of a context and of the loops and with blocks of templates, the filters and formatters, and the templates of an engine get other names, everywhere alike and so that different variables keep different names and `loop` remains `loop`, rendering gives the same output in the same writes, or an error of the same kind and with the same reason; only template names (which are the new ones) and places in errors differ. No name other than `loop` has a meaning of its own, none is captured, and nothing depends on the order, length or characters of names.", "quantifier": "all renamings, engines, delimiters (which may differ), templates, contexts (maps or functions), template functions and writers; if variables are renamed, templates without `include .. with` (which makes the members of a value variables); no includes in with blocks (C18)", "why_tests_cant": "It compares two renderings for every renaming of every template; a test sees one choice of names.", "anchors": ["src/engine.rs: Engine::add_template, add_filter, add_formatter", "src/render/stack.rs: Stack::lookup_var", "src/render/iter.rs: LoopState::lookup_var, lookup_loop", "src/render/core.rs: Renderer::render_one, get_template"]}
{"id": "C56", "title": "A compiled template can be rendered by another engine", "statement": "A template that one engine compiled and another one renders gives, whatever the two engines' delimiters, functions and templates, what the other engine gives for a template that says the same in its own delimiters (C41): the same output in the same writes, or an error that differs at most in its place. Delimiters are used up by compiling; functions, formatters, included templates and the include limit are those of the engine that renders. In particular rendering ends and does not panic, although the documentation allows it to. If the delimiters of the two engines are the same, the two engines compile a source to the very same template.", "quantifier": "all pairs of delimiters and engines, sources, contexts, template names and depth limits, writers; the rendering engine has not registered the very same compiled template under other delimiters; no includes in with blocks (C18)", "why_tests_cant": "It ranges over all pairs of engines; the documentation itself calls the behaviour undefined.", "anchors": ["src/lib.rs: Template, Template::render, Engine::compile", "src/render/core.rs: Renderer::render", "src/types/program.rs: Template"]}
{"id": "C57", "title": "A template that finds what it asks for does not fail", "statement": "Say what a template uses: variables that are strings, printable, lists of such values, maps with given members and so on. If the context has at least that, the filters the template calls can do what they are asked to for values of those kinds, the formatters can format what they are given, the templates it includes exist and find what they ask for in turn, and includes nest less deep than the limit, then rendering succeeds, whatever the values are; with an io::Write it succeeds or fails with the error of the writer.", "quantifier": "all engines, delimiters, templates, template functions that answer an include always alike, shapes and values of those shapes, writers; paths with optional members that may be missing only from variables other than loop variables (C20); no includes in with blocks (C18)", "why_tests_cant": "It promises success for all the infinitely many values of a shape and all templates that use only what the shape has; a test renders one value.", "anchors": ["src/render/core.rs: Renderer::render_one", "src/render/stack.rs: Stack::lookup_var", "src/render/value.rs: lookup_path, lookup_path_maybe", "src/filters/args.rs", "src/fmt.rs: default"]}
{"id": "C58", "title": "What a failed rendering says is true", "statement": "When a rendering fails, the error is the one of serializing the context, or the one of the writer, or it is justified: in the template the error names there is a statement that rendering can come to (through conditions that hold, rounds of loops over the items there are, includes of templates that exist) with variables for which the kind and the reason of the error are true. 'not found in this scope' means no block and no context binds the name; 'not found in map' or 'index out of bounds, the length is N' that the value on the path has no such member; 'unknown filter', 'unknown template' that there is none; 'filter expected ..' that the number, type, range or ownership is not as the filter declares; 'expected iterable ..' that the value is of that kind; a filter or formatter error that the function said so for these very values; 'reached maximum include depth (N)' that an include at depth N is reached.", "quantifier": "all engines, delimiters, templates, template functions, contexts (values, failed serializations, functions), writers; no includes in with blocks (C18); a variable of a loop whose optional member is missing counts as not bound (C20)", "why_tests_cant": "It is about every way in which every template can fail; a test looks at one message of one failure.", "anchors": ["src/render/core.rs: RendererImpl::render_one, get_template", "src/render/stack.rs: Stack::lookup_var", "src/render/value.rs: lookup_path, lookup_path_maybe", "src/filters/args.rs", "src/filters/mod.rs: check_args, get_arg, err_expected_arg, err_expected_val", "src/error.rs: Error::render, Error::filter, Error::format"]}
{"id": "C59", "title": "A failed rendering points at what is at fault", "statement": "The error of a rendering that fails (for another reason than a failed serialization or the writer) marks, in the source of the template it names, the very part that is at fault: the member of a path that is missing or goes into a value without members, the first segment of a path that is not found, the name of a filter or formatter that is unknown, used wrongly or that failed, the argument that does not fit, the variables of a loop that do not match what is iterated over, the expression iterated over, the expression that cannot be formatted, the name of an included template that is not found. Rendering can come to that statement with variables for which this is so. Only errors of the depth limit mark nothing.", "quantifier": "all engines, delimiters, templates, template functions, contexts, writers; no includes in with blocks (C18); how the marked place is turned into a line and a column is C27", "why_tests_cant": "It relates every error of every rendering to a place in a template, through any nesting of blocks and includes; a test checks one error.", "anchors": ["src/render/core.rs: RendererImpl::render_one, get_template", "src/render/stack.rs: Stack::lookup_var", "src/render/value.rs: lookup_path, lookup_path_maybe", "src/render/iter.rs: LoopState::new", "src/filters/mod.rs: check_args, get_arg, err_expected_arg, err_expected_val", "src/error.rs: Error::render, Error::enrich, Error::format, Pretty::build"]}
{"id": "C60", "title": "The feature filters only adds filters", "statement": "In the build without the feature \"filters\", making an engine, adding and removing formatters and templates, setting the limit and the default formatter, compiling and looking up templates give the same answers as in the full crate, and rendering gives the same text, the same writes and the same errors as with an engine without filters there. No rendering ends in a filter error. A template that calls no filter, and includes none that does, renders alike in the full crate, whatever filters the engine has.", "quantifier": "all delimiters, histories of engine calls, templates, template functions, contexts, writers", "why_tests_cant": "Two builds have to agree on every history and every rendering; a test compares a few, in one build.", "anchors": ["Cargo.toml: feature filters", "src/lib.rs: EngineBoxFn, Engine::add_formatter, Engine::remove_function", "src/render/core.rs: RendererImpl::render_one"]}
{"id": "C61", "title": "Filters by reference or by value", "statement": "A filter may take its receiver as &str, &[Value], &BTreeMap or &Value, or as the owned type. If an engine is changed only by making filters take their receivers by value instead of by reference, and still compute the same, every rendering, to a string or to any writer, gives the same text and the same writes, or fails with the same error, except that 'expected &str' reads 'expected string' there. If filters also take their other arguments by value, the same holds unless the first rendering fails for an argument that can not be passed by reference: what worked by reference works by value.", "quantifier": "all engines and filters, templates, template functions, contexts, writers", "why_tests_cant": "The conversions are generic in the parameter types; a test calls a filter with a few types and a few values.", "anchors": ["src/filters/mod.rs: Types, Owned vs reference arguments, Filter", "src/filters/args.rs: FilterArg::from_value, from_value_ref, from_cow_mut", "src/filters/impls.rs"]}
{"id": "C62", "title": "Compiled templates are small, and straight-line templates run in linearly many steps", "statement": "A compiled template is no larger than its source: its instructions, the names and indexes of its variables, the arguments of its filter calls and the bytes of its string literals and template names together are at most as many as the bytes of the source. A template without a loop and without an include is rendered in at most one step for each byte of its source, and two more, whatever the context, the filters, the formatters and the writer are; no template of this kind can be made to run long by its data.", "quantifier": "all delimiters, sources, contexts, filters, formatters, template functions, writers", "why_tests_cant": "A bound for every source; nested blocks and else if chains could multiply code in ways a test of a few templates does not show.", "anchors": ["src/compile/mod.rs: Compiler::compile_stmt, compile_scope, update_jump", "src/render/core.rs: RendererImpl::render_one"]}
{"id": "C63", "title": "Which errors which calls return", "statement": "Rendering to a string fails only with the error of serializing the context, or with a render error, a filter error or a formatter error; rendering to a writer also with the io error of the writer, but not if the writer takes everything. No rendering ends in a syntax error. A render error and a filter error say why; all of them mark a place of a template but that of the depth limit. Without render(ctx), so in the build without the feature \"serde\", no call returns a serialization error. Serializing makes only serialization errors, without a place; compiling makes only syntax errors, with a reason and a place; adding a template also names it.", "quantifier": "all engines, templates, template functions, contexts, filters, formatters, writers, sources and names", "why_tests_cant": "Errors are made in many places and pass through several layers that add to them; a test sees one path.", "anchors": ["src/error.rs: Error, ErrorKind, enrich, with_template_name", "src/render/core.rs: RendererImpl::render, render_one", "src/render/mod.rs: Renderer::to_string, to_writer", "src/filters/mod.rs: check_args, err_expected_arg", "src/value/ser/mod.rs", "Cargo.toml: feature serde"]}
{"id": "C64", "title": "The HTML escaping formatter of the examples is right, and then no value is markup", "statement": "The formatter of examples/escape_html.rs does not panic, and writes of a string the one HTML text that, with &lt; &gt; &amp; &#39; and &quot; read as the characters they stand for, reads as that string; different strings are written differently; pieces may be escaped one by one; other values are written as by the default formatter, which writes none of these characters. If it is the only formatter in use, every output is raw text of the templates and such HTML texts in turn: the angle brackets and quotes of the output are those of the raw text, and if there are none there, no output has one, whatever the context, not even what a writer got from a rendering that fails.", "quantifier": "all strings and values, engines, templates, filters, contexts, writers; floats are assumed to be displayed without these characters (standard library)", "why_tests_cant": "Injection is about every context and every path from a value to the output; the example prints one value.", "anchors": ["examples/escape_html.rs: escape_html", "src/lib.rs: Engine::set_default_formatter, add_formatter", "src/fmt.rs: default, Formatter", "src/render/core.rs: RendererImpl::render_one"]}
{"id": "C65", "title": "The program that generates the filter impls generates them all, and once", "statement": "Whatever its tables of parameter types are, the generator produces one impl for exactly those choices of a type for the first one, two, ... parameters that have a reference among them, and none twice. With the tables it has, it produces the 150 impls of src/filters/impls.rs, in order; the five written by hand are those it leaves out, so every choice of one to five parameter types, each owned or a reference allowed there, can be used as a filter.", "quantifier": "all tables of parameter types and all choices of types", "why_tests_cant": "The generated file is data; a choice that is missing is found only by the user whose filter has it. A seventh table would be generated by the same loop.", "anchors": ["tools/gen-filters/src/main.rs: gen, render, Arg", "src/filters/impls.rs", "src/filters/mod.rs: Filter"]}
{"id": "C66", "title": "The work of a rendering is bounded", "statement": "Let every template that a rendering can reach have at most L bytes and loops nested at most k deep, let every list and map of the context have at most n items (n at least 3), and let the filters make no larger ones. Then a rendering, to a string or to any writer, is complete after (L*(n+1)^k+2)^D steps of the renderer (an instruction, or the end of a template, those of included templates among them), where D is the depth limit of includes. A template without includes is complete after (its bytes)*(n+1)^k+1 steps, whatever other templates there are.", "quantifier": "all templates, engines, syntaxes, filters that make no larger lists and maps, contexts, depth limits and writers", "why_tests_cant": "A loop whose end is missed, an include that is counted once too often or a value that is iterated twice shows only on some data; a user who limits the sizes of data and templates relies on a bound for all of them.", "anchors": ["src/render/core.rs: RendererImpl::render, render_one", "src/render/iter.rs: LoopState", "src/compile/mod.rs: Compiler"]}
{"id": "C67", "title": "Templates kept outside of the engine behave like its own", "statement": "Rendering with with_template_fn and a function that looks names up in a store (examples/custom_template_store.rs) gives the same text, the same writes and the same errors as rendering with an engine that has the templates of the store; only the error for a name that is not there has the function's words. Filling the store with compile succeeds exactly when adding the same sources with add_template does, and gives the same templates under the same names.", "quantifier": "all stores, words, templates, engines, contexts, depth limits, writers; all lists of names and sources", "why_tests_cant": "Two ways to find a template have to agree for every include that any template and context can reach, at every depth and in every error.", "anchors": ["examples/custom_template_store.rs", "src/render/core.rs: get_template", "src/render/mod.rs: with_template_fn", "src/lib.rs: Engine::compile, Engine::add_template, TemplateRef::render, Template::render"]}
{"id": "C68", "title": "The fuzz targets", "statement": "The two fuzz targets of the repository return for all data, so they can never report a crash of the library: compiling any text is free of panics, the data of the render target can always be serialized, and the target makes a renderer for the last source named \"fuzz\" that compiles but drops it without rendering. If it rendered, every rendering would end, and only templates that include another from inside a with block could panic; there are such data.", "quantifier": "all texts, all lists of names and texts, all data of the targets' types", "why_tests_cant": "A fuzzer samples the data; that nothing is left to be found by it is a statement about all of it.", "anchors": ["fuzz/src/compile.rs", "fuzz/src/render.rs", "src/lib.rs: Engine::add_template, Engine::template, TemplateRef::render", "src/value/ser/mod.rs: to_value"]}
{"id": "C69", "title": "No value comes from nowhere", "statement": "Take any property of values. If everything in the context has it (the keys of maps too), and every literal of the templates, none, and every `loop` that can occur, and if every filter, given only arguments taken from values with the property, answers a value with it, then filters, formatters and the default formatter are never given a value without it: an engine whose functions and default formatter behave differently only on values without the property renders every template to the same text or the same error, and makes the same writes to every writer.", "quantifier": "all properties of values, templates, engines, functions, contexts, syntaxes and writers", "why_tests_cant": "A user who validates the context (no markup, no overlong strings, no negative numbers) and writes formatters that rely on it needs that no path through lookups, loops, includes and filter calls makes up another value; tests see single paths.", "anchors": ["src/render/stack.rs: Stack::lookup_var", "src/render/value.rs: lookup, lookup_path, lookup_path_maybe", "src/render/iter.rs: LoopState", "src/filters/mod.rs: get_arg", "src/render/core.rs: render_one"]}
{"id": "C70", "title": "The size of the output is bounded", "statement": "If no template a rendering can reach has more than M bytes and no formatter, the default one included, writes more than M bytes for one of the values that can reach it (C69), then n steps of a rendering write at most n*M bytes, also if the rendering fails later. With the bound on steps of C66 the whole output has at most M*(L*(n+1)^k+2)^D bytes. The default formatter writes as many bytes as the value displays as.", "quantifier": "all templates, engines, formatters, filters, contexts, syntaxes and depth limits", "why_tests_cant": "A text that is written twice, or a template that is included twice as often, exceeds the bound only on some templates and data; a service that renders templates of others needs the bound for all of them.", "anchors": ["src/render/core.rs: RendererImpl::render, render_one", "src/fmt.rs: default"]}
{"id": "C71", "title": "What unwrap shows of an error", "statement": "The `{:?}` form of an error (what `unwrap` and `expect` print) is the long form `{:#}`, so it shows and marks the place exactly as the long form does (C43), followed by one line with all fields: the kind, the name of the template, the reason and the place, with texts quoted and escaped so that they can be read back in one way only. Two errors with the same `{:?}` form are the same in all fields.", "quantifier": "all errors: all kinds, names, reasons, places and texts, including texts with quotes, backslashes and line breaks", "why_tests_cant": "A log line from which the reason cannot be told apart from the template's text, or that is broken into two by a line break in a template, appears only for some texts; tests print a few errors.", "anchors": ["src/error.rs: impl Debug for Error", "src/error.rs: impl Display for Error", "src/error.rs: ErrorKind", "src/error.rs: Pretty"]}
