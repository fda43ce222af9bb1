# Formal model of rossmacarthur/upon in Rocq (Coq 8.16.1)

`rocq/theories` holds a model of the crate, function by function, small separate
specifications, and the property theorems `Cxx_...` (files `Props*.v`). MANIFEST.json maps each
property of properties.jsonl to its theorems. Every property theorem is followed by
`Print Assumptions` and has, in the same file, a concrete non-trivial case that meets its hypotheses.

## Trusted base

* Coq's kernel (8.16.1), its `vm_compute`, and the statements themselves.
* Axioms: none. `Print Assumptions` says "Closed under the global context" for every theorem named
  in MANIFEST.json. (vcheck lists seven constants of `Coq.ssr.ssrunder.Under_rel`: they are fields of a
  module type of the standard library that is loaded, not used.) The development uses only
  Coq's standard library.
* That the model is the code. Each definition of the model cites the lines it transcribes. As a
  check, `Tests.v` replays the expectations of the repository's own test suites (lexer, parser, compiler,
  searcher, rendering, errors, serialization) on the model by computation.
* The oracles of `Ext.v`, which every theorem is universally quantified over (no assumption is made
  unless the statement says so, `ext_ascii`): `unicode_ident::is_xid_start/continue`,
  the display width of `unicode-width` (or of the build without the feature), `str::parse::<f64>`,
  `Display for f64`, `f64 as f32`.
* What is assumed about the Rust standard library by being written in Gallina: UTF-8
  encoding/decoding and `char::is_whitespace` (Utf8.v, the full table), `BTreeMap<String, _>` as sorted
  association lists (Value.v), `Vec`, `Option`, integer ranges (i64, u64, usize = 64 bits), `write!`
  as a sequence of `write_str` calls, `io::Write::write_all` as an arbitrary state machine that accepts
  or refuses each piece (`sink`).

## Exactly what is modelled

| code | model | not modelled |
|------|-------|--------------|
| src/compile/search/** | AhoCorasick.v: the trie, the failure links, `find_at`, `starts_with` | `[S; 256]` arrays are functions of the byte |
| src/types/syntax.rs | Syntax.v: builder with its panics, `build`, the default | |
| src/compile/lex.rs | Lexer.v: every lexer state and error | |
| src/compile/parse.rs | Parser.v: the two-stack parser, all literals, all error reasons and ranges | |
| src/compile/mod.rs, src/types/{ast,span,program}.rs | Compiler.v, Ast.v | `Debug` impls |
| src/error.rs | Errors.v: kinds, names, reasons, line/column, both `Display` forms, `source()`; Debug.v: the `{:?}` form | `{:#?}` |
| src/value/** | Value.v, Serde.v (the serde data model `sdata`, every serializer method, map keys, `From` impls) | user `Serialize` impls other than through the calls they make |
| src/fmt.rs | Fmt.v: formatters are trees of `write_str` calls that see each write succeed or fail | |
| src/filters/** | Filters.v: argument types, conversions, arity, return values and errors, with the function as one `fl_run`; FilterImpls.v: the 155 impls of `Filter`, the five of `FilterArgs`, `FilterReturn` (C45 relates the two) | rustc's trait resolution and type inference, other than as instances of the impls |
| src/render/** | Stack.v, Render.v: the stack, loop states, the instruction loop, include depth, `to_string`, `to_writer` | |
| src/lib.rs | Engine.v | `Debug` impls, `Clone` |
| src/macros.rs | Macros.v: every arm of `value!` | hygiene, rustc's recursion limit; an expression is one opaque token |
| features | both builds of "unicode" (an instance of `Ext`) and of "filters" (Slim.v, C60); "serde" on | the build without "serde" (it lacks `to_value`, `render` and the map/list serializers; C63 shows that no other call makes a serialization error) |
| examples/escape_html.rs | Escape.v: the formatter, with its slices | `main` |
| examples/custom_template_store.rs | StoreSpec.v: filling the store, the function | the files it includes; `println!` |
| tools/gen-filters/src/main.rs | GenFilters.v: arg types, `gen`, `render`, as data of the same form as FilterImpls.v | the file handling of `main`, rustfmt |
| fuzz/src/*.rs | Fuzz.v: both targets, the data of the second with its derived `Serialize` | libfuzzer, `Arbitrary` |
| other examples, benches, tools | | not part of the library |

Simplifications, stated also where they occur: user functions (filters, formatters, template
functions, value functions) are total functions of their arguments; a template function also
sees the names asked for before (`FnMut`), a value function is a function; they do not panic and do not
call back into the engine. Calls.v lifts this: there the writer and all user functions act on a state
and may refuse, panic or never return; C52 says what is called when, and that Render.v is the special
case of functions without state (`C52_stateless`). Memory is unbounded; addition on `usize` does not overflow. So is the native stack: the recursive functions of the code (parsing nested blocks, dropping and
serializing deep values, includes below the limit) are not modelled as running out of it. References,
lifetimes and `Cow` are values; `ValueCow` keeps the borrowed/owned distinction because filters can
observe it. Loops are recursion on explicit fuel, and running out of fuel is its own
outcome; no theorem about results is conditional on fuel: `renders inner g r` and `writes` (RenderObs.v) say
that from some fuel on the result is `r`, and C12 proves that there is such an `r`.

## Conventions

* `str` is a list of bytes; a Rust `&str` is a byte list that is valid UTF-8, and every theorem
  about sources says so. Slicing `&s[m..n]` panics (explicit `Panic` outcome) when out of range or
  not on a char boundary.
* Panics (`unwrap`, `assert!`, `unreachable!`, indexing) are the outcome `Panic`.
* `user_syntax`, `engine_for`, `well_made` describe what a program can obtain through the public API:
  every syntax of the builder, every engine reached by calls of its methods, renderers whose
  templates were compiled by such engines (possibly with other syntaxes, by template functions).
* `trims_ok sx source`: the source has no place where a closing delimiter that ends in white space is followed by white
  space and then by a hyphenated opening delimiter (else the lexer panics, C03). True of every source when no closing
  delimiter of the syntax ends in white space (`closers_ok`; `closers_trims`).

## Files

Model: Base, Utf8, Ext, Errors, Syntax, AhoCorasick, Value, Ast, Lexer, Parser, Compiler, Fmt, Stack,
Filters, FilterImpls, Render, Engine, Serde, Macros, Calls (rendering with user functions that have state); Tests and Tests2 (validation: the tests of the repository).
Specifications (nothing in them refers to the code they specify): SearchSpec, SyntaxSpec, LexSpec,
GrammarSpec, TileSpec, EngineSpec, RenderSpec (structured interpreter used by C11), WriteSpec, LookupSpec,
BlockSpec, DepthSpec, ContextSpec, TraceSpec, FilterSpec, RegistrySpec, LocSpec, DecimalSpec,
SerdeSpec, LiteralSpec, FormatSpec, OriginSpec, UseSpec, BuilderSpec, MacroSpec, Meaning, LayoutSpec, BlameSpec, MessageSpec,
ConcatSpec, RefactorSpec, PanicSpec, ExtendSpec, NameSpec, FeatureSpec, CallSpec, TreeSpec, BodySpec, RenameSpec, ShapeSpec, FaultSpec, PlaceSpec, OwnedSpec, SizeSpec, KindSpec, EscapeSpec, WorkSpec, StoreSpec, FromSpec, DebugSpec.
Proofs: the other files. Property theorems: Props1-Props43.

## Findings

Behaviours of the code, found while proving, that contradict the documentation or the property one
would expect; each is a theorem (`_refuted`) or a side condition.

1. `trim_raw_token`: a closing delimiter ending in white space, then white space, then a hyphenated opening
   tag: panic (C03).
2. `Stack::lookup_var` compares names of a `with` frame using the source of the template being rendered
   with a range of the template that holds the `with`: `{% with x as n %}{% include "inner" %}{% endwith %}`
   panics or finds the wrong variable (C13, C18; side condition of C40, C41).
3. `LoopState::lookup_var`: a missing `?.` member of a loop variable continues the search in outer
   scopes (C17, C20); a loop variable named `loop` is never found.
4. `lex_string`: no documented literal denotes a string that ends in a backslash (C10); `"a\\"b"` is one token,
   whose bare quote is ignored, so that `"a\\""` does denote one (C53).
5. `to_ln_col` adds display widths to byte offsets: wrong line and column after non-ASCII text; errors
   at the end of a source ending with a newline show a line that is not there (C27).
6. Smaller: `{##}` is an error; a newline inside a tag is an error; `5-` is one (invalid) number;
   decimal integers out of range silently become floats; `0x` and `0b_` are 0; the caret of "invalid digit" is
   off by one after a sign; an io error swallowed by a formatter is not reported; the last of several io
   errors is reported, not the first; a comment containing a tag is an error.
7. `{% for x in 5 | f %}` is a syntax error although `{% with 5 | f as x %}` is not: after `in` the lexer takes
   a number for an index (C53).
8. fuzz/src/render.rs never renders: it makes a `Renderer` and drops it, so the fuzzer cannot find finding 2 (C68).

## Testing the theorems

seeded/LOG.jsonl records edits of the model like realistic bugs, the rebuild, and which lemmas and
property theorems no longer prove. Those that slipped through led to new theorems (C37_booleans,
C22_last_refusal, C28_root, C28_compile_errors, C43_short) or to specifications that no longer share
a table with the model (LookupSpec, FilterSpec, RenderSpec, LexSpec, CallSpec).

## Per property: what is modelled and how it is proved

| id | plan |
|----|------|
| C01 | the automaton builder and `find_at` verbatim; refinement to the declarative leftmost-longest relation by a BFS invariant on failure links |
| C02 | lexer+parser+compiler on valid UTF-8: invariant (cursor on boundary, spans valid, fuel measure), conclusion "Ok or Err" |
| C03 | false of the code: witness by computation (`_refuted`); total for every syntax and every source meeting `trims_ok` (`C03_compile_total_partial`) |
| C04 | corollary of C01 + lexer + renderer |
| C05, C06 | invariant on the token sequence produced by the lexer |
| C07 | parser equivalence |
| C08 | inductive grammar over tokens; soundness and completeness of the two-stack parser |
| C09 | value of digit strings in Z, induction on digits |
| C10 | induction on the string; refuted when the string ends in a backslash, proved otherwise |
| C11 | structured interpreter over the AST; simulation of the instruction machine |
| C12, C13, C14 | corollaries of C11 (interpreter is total); C13 refuted in general (with + include), proved under a syntactic side condition, and (C13_foreign_names_partial) whenever every with-name in sight of an included template lies at a character range of that template's source |
| C15-C18 | theorems about rendering derived through C11 |
| C19, C20 | declarative path semantics; C20 refuted |
| C21, C22 | renderer parametric in the sink; relational induction |
| C23, C24 | filter dispatch model |
| C25 | operation sequences against finite maps |
| C26 | serde data model as an inductive type |
| C27 | refuted for multi-byte text, proved when display width = byte length |
| C28-C33 | as corollaries of the above |
| C34 | invariant on the tree of writes of the AST interpreter: each piece is raw text or said by a formatter; transported by C11 |
| C35 | two-run simulation of the AST interpreter over two engines; transported by C11 |
| C36 | corollary of C26 and of the definition of the initial stack |
| C37 | corollary of the lexer, parser and C11; Rust's float parser is an oracle |
| C38 | the macro arms as a function from token trees to expansions, and evaluation of the expansion; against a grammar of object literals |
| C39 | the builder's methods run over any list of calls |
| C40 | an interpreter over trees of names, literals and texts (Meaning.v); two-run simulation with the AST interpreter, the stack related to an environment; transported by C11 |
| C41 | token sequences that agree up to layout have derivations with the same bare tree (LayoutProof.v, through the grammar of C08); then C40 on both sides |
| C42 | a finite control with a stack of open blocks that accepts exactly the prefixes of templates (Automaton.v, against the grammar of C08); the parser's position is a run of it (Blame.v, TagBlame.v), so the token it refuses has no transition; the lexer's errors against `stop` (LexStop.v); conversely a source with a derivation has no such place (NoBlame.v) |
| C43 | the displayed text split into lines; columns of the carets computed; composed with C42, C27 and C28 |
| C44 | the same proof carries the message: every clause of `blame` (BlameSpec.v) fixes the text of the message and, with it, what the message claims (`wanted`, `complaint`, `block_name`, `marks`, `stop`). `expected token, found EOF` claims nothing about what could come, and in a signed literal the place of an invalid digit is counted from the sign |
| C45 | FilterImpls.v transcribes all 155 impls of `Filter` (head, function type, bounds, pattern, call) by a script; they are the canonical ones of 155 distinct shapes (computed); which parameter lists they cover, uniqueness and the order of the arguments follow for all instances; composed with C23 |
| C46 | tokens of the concatenation (`tiling`, shifted), statements by `transfer`, then C40; the conditions are in ConcatSpec.v and checked to be needed by examples |
| C47 | laws on the trees of Meaning.v (RefactorSpec.v), an equality of what trees of writes do to a string (`same`), environments that differ by a name (`moved`), then C40 |
| C48 | a preorder on trees of writes (`leads`: same, or the first is too deep), monotone in the depth; then C40 |
| C49 | a relation on trees of writes (`grows`: the first fails, or both write and go on alike), kept by every statement; then C11 on both sides |
| C50 | a simulation between the two runs of the instruction loop, whose stacks of activations differ in the name of the root |
| C51 | two instances of the oracle class `Ext`; tilings and derivations transfer from one to the other when all identifiers are ASCII (the character after an identifier is then ASCII too), so the program is the same by C08; lexer, parser and instruction loop are simulated instruction by instruction for the errors and for rendering |
| C52 | Calls.v: the instruction loop over an arbitrary environment (state, answers); CallSpec.v: an interpreter of the statements that makes the calls; the machine equals the interpreter (CallProof.v, as RenderProof.v), errors and panics (CallErr.v), functions without state give back Render.v (CallLink.v), simulation between environments |
| C53 | TreeSpec.v: the trees (those of Meaning.v) that can be written down; every derivation has such a tree (TreeSound.v); for the default delimiters a printer of such trees and a derivation of what it prints (TreeLex.v, TreePrint.v, TreeParse.v), then C08 and C40 |
| C54 | a relation of environments in which the same block of Meaning.v does the same (Body.v), the environment of a block and that of its body in a larger context are so related; then C40 (Props27.v) |
| C55 | RenameSpec.v: new names in trees, contexts and renderers; Rename.v: by induction on statements and include depth the meanings (Meaning.v) write the same and end alike; then C40 (Props28.v) |
| C56 | equality of compiled templates is decidable, so the foreign root can be given its own delimiters in `well_made`; then C41, C12, C13 and C25 (Props29.v) |
| C57 | ShapeSpec.v: shapes of values, rules for the shape of an expression and for when a template suits variables of given shapes, promises about functions and templates; Shape.v: soundness of the rules for the meaning (Meaning.v), by induction on statements and on the depth of includes; then C40's refinement and C13 (Props30.v) |
| C58 | FaultSpec.v: rules for what is wrong with a path, an expression, a statement in given variables, and for the statements and variables a rendering can come to; Fault.v: how the meaning (Meaning.v) of a template ends if no write fails satisfies the rules, by induction on statements and on the depth of includes; then C11's refinement (Props31.v) |
| C59 | PlaceSpec.v: as for C58, on the syntax trees with their places and the rules for expressions of C19, C23 and C24; Place.v: how the reference interpreter (RenderSpec.v) ends, by induction on statements and on the depth of includes; then C11's refinement (Props32.v) |
| C60 | Slim.v: the model of lib.rs and core.rs again, without what is under `cfg(feature = "filters")`; equal instruction by instruction to Render.v over an engine without filters; with C35 (Props33.v) |
| C61 | a relation between the trees of writes of the two renderings: equal, or ending in errors that differ in the name of a type, or (arguments only) the first in the error for an argument that is not stored (OwnedSpec.v, Owned.v, Props34.v) |
| C62 | each token of the grammar pays for the instructions and the names compiled from it (Size.v, SizeSpec.v); jumps of a template without loops go forward, so the program counter bounds the steps (Steps.v, Props35.v) |
| C63 | an invariant of every result of the instruction loop along the branch where no write failed (KindSpec.v, Kinds.v); C26 and C44 for serializing and compiling (Props36.v) |
| C64 | the loop of the example over the bytes of a string, with its slices; a relation between an HTML text and what it reads as (EscapeSpec.v); the output by C34 (Escape.v, Props37.v) |
| C65 | the generator as a function from tables of types to impls in the form of FilterImpls.v; which choices by the product of lists, the file by computation (GenFilters.v, Props38.v) |
| C66 | the renderer as a machine with one budget for all its steps (WorkSpec.v), and that it is the renderer (C66_counted); a cost for every statement, with the cost of an included template as a parameter; the simulation of RenderProof.v again, counting its steps, with the invariant that values on the stack stay small (Work.v); the sizes of code by C62; hypotheses in WorkSpec.v (Props39.v) |
| C67 | the loop that fills the store and the function of the example (StoreSpec.v); a relation between the trees of writes of the two renderings, by induction on the steps (Props40.v) |
| C68 | both targets as functions (Fuzz.v); C02 for the compiler, induction on the data for the serializer, C12 and C13 for what a rendering would do (Props41.v) |
| C69 | an invariant of the stack for an arbitrary hereditary predicate on values, kept by every instruction (From.v); two engines that agree on such values take the same steps (Props42.v; FromSpec.v is the specification) |
| C70 | every instruction writes at most M bytes (From.v), so the counted machine of C66 writes at most M bytes for each step (Props42.v) |
| C71 | composed with C43; the quoted form is a sequence of pieces of which none is a prefix of another (DebugProof.v); the fields are read back one by one; lines of the two parts (Props43.v) |
