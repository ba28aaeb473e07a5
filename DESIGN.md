# Formal model of yeslogic/doodle in Rocq (Coq 8.16.1)

`/repo` is read as text only. Nothing here runs the Rust code: every theorem is
about the Gallina model in `rocq/theories`, and the tie to the code is the
file/line citation on each definition.

## Layout

For each area `X`:

* `XModel.v`  – executable model (definitions only, each citing `/repo` lines)
* `XSpec.v`   – small independent specification, where one is needed
* `XProofs.v` – lemmas
* `XProps.v`  – the property theorems (closed by `exact lemma`), `Print
  Assumptions` under each, and `Example`s showing the hypotheses can be met

Panics of the Rust code (overflow, `unwrap`, `unreachable!`, index out of
bounds) are explicit `Panic`/`None` outcomes; loops that are not structurally
bounded use fuel with a distinct out-of-fuel outcome which the statements
exclude or prove unreachable.

## Conventions

* `usize` is 64 bits. Overflow of `+`,`*` on `usize` is modelled where a
  property is about it (Bounds, Expr arithmetic); elsewhere offsets are
  unbounded `nat`/`N` and this is stated in the definition's comment.
* Rust debug builds panic on arithmetic overflow; the model treats overflow of
  an unchecked operator as a panic.

## Property plan

| id | what is modelled | how it is proved |
|----|------------------|------------------|
| C01 | four 64-bit words, all operations of byte_set.rs | bit-level reasoning on `N.testbit`, one lemma per operation against a predicate `N -> bool` |
| C02 | len/min/max/iter | membership lemma + least/greatest; `max_elem` is expected to be refuted (it negates three of the four words) |
| C03 | both range conversions incl. the mask loop | finite sweep over all endpoints lifted by `forallb_forall` or bit reasoning |
| C04 | serializer's two branches | from C01/C02 |
| C05 | Bounds and each operator with 64-bit limits | arithmetic per operator; `&`, `<<` expected to be refuted |
| C06 | Expr::bounds against Expr::eval | induction on expressions, using C05 |
| C07 | ReadCtxt | list arithmetic |
| C08 | SeqKind | refinement to plain lists |
| C09, C10 | search.rs | loop invariant of binary search; first-match |
| C11 | SubSeqInflate, slice_ext, extend_from_within_ext | refinement to the spec `out[i] = out[i-dist]` |
| C12, C13 | Huffman construction, tree insertion and descent | Kraft-sum invariant of `next_code`; trie invariants |
| C14–C20 | ByteOffset, Lens, ViewStack, BufferOffset, Parser | invariants over operation histories |
| C21–C24, C31 | Decoder::parse as a fuelled interpreter | induction on fuel |
| C22 | match_bounds against a denotational semantics of formats | induction |
| C25 | compiled programs against `FormatSpec.Sem`, an inductive semantics written from the documentation of `Format` | induction on fuel through a relation between formats and decoders; conditions on negative peeks and failures from C26's completeness |
| C26, C27 | the same, from the semantics to the decoder | induction on the semantics; the lookahead is assumed decided without approximation (`ExactSpec.exactb`, executable) or the format `regular`. Decoders made from Huffman tables while decoding: the lookahead tree of any prefix-free code is built (induction on the depth, CodeTreeProofs), and the decoder made reads what the table describes (DynProofs) |
| C28 | MatchTree construction and descent | language inclusion of symbolic derivatives; a "strict" construction that gives up where the real one approximates |
| C29 | Decoder loops | bound on the bytes left, using C22 and C25 |
| C30 | Decoder::RepeatBetween | refuted (the lookahead is re-run on the original input); what is true is proved |
| C32 | WithErr | algebra |
| C33 | Scope chains | refinement to an association list |
| C34 | is_shadowed_by | two-run relation on eval; Record case refuted |
| C35 | Value::matches | erasure function; nested wrappers refuted |
| C36 | __arith, casts | per-operator arithmetic |
| C37 | Display for ByteSet | maximal runs; round trip of the printed form |
| C42 | Expr::eval, Value::matches | induction on expressions, all operators |
| C38 | numeric/core.rs NumExpr evaluation over unbounded integers | equivalence with an inductive meaning relation |
| C39, C40 | bitwise casts, machine representations | congruence mod 2^width; case analysis lifted to all values |
| C41 | numeric/eval.rs function tables | per-table arithmetic against the mathematical result |
| C43 | loc_decoder.rs: evaluation and parsing with locations | erasure of locations; simulation of the two interpreters, eval then parse, by induction on fuel |
| C44 | loc_decoder.rs locations of parsed values | invariant on every part of every value in scope; exact spans by induction on a class of formats |
| C45 | ParseLoc | algebra of the join; induction on contiguous lists, permutations |
| C46 | type inference of expressions, patterns and formats, definitions | induction on evaluation and on C25's description: preservation; monotonicity in the tests and in the levels defined |
| C47 | ValueType::unify | order on types; induction on types |
| C48 | record constructors | the meaning of the built format against a small inductive description of fields, by induction on the fields; decoding through C25 |
| C49 | RecordFormat, merge_records, remap_field | the view of a built record is its field list, by induction |
| C50 | bit field constructors | the built expressions evaluate to the bits, by induction on the layout |
| C51 | integer formats | meaning of the built format; decoding of every long enough input through C26 |
| C52 | UTF-8 formats in a module of their own | the built formats against RFC 3629's table: arithmetic per length, induction on the string; runs through C25, and C26 with its check evaluated |
| C53, C54 | code generation: the emitted program of every decoder over the parser runtime | simulation of the interpreter by the emitted program, by induction on fuel, with an invariant between the two cursors; for the programs accepted by a decidable check; composed with C26 |
| C55 | byte criteria, emitted lookahead | counting the bytes of a set; induction on the input |
| C56 | `Expr::eval` on values with and without wrappers | relation between values; induction on the expression |
| C57 | the printer of Rust expressions, its precedences | Rust's grammar as an inductive relation, proved unambiguous through a parser; induction on the printed expression |
| C58 | the arithmetic part of `embed_expr`; Rust evaluation with overflow checks | C57 for what is printed; induction on the expression for the values |
| C59 | typecheck/base_set.rs: ranked sets of base and integer types | membership of each operation's result, by case analysis over the places and arithmetic on ranks |
| C60 | typecheck.rs: alias classes, constraints, variant maps and their unification, as operations on a state with fuel | types as sets of solutions; soundness and completeness of all seven mutually recursive operations by induction on fuel, with a frame for the variables being unified and a bound on fuel from the sizes of the types assigned; induction on histories |
| C61 | typecheck.rs: reading a type off the engine's state | from any solution, two assignments are built by recursion on the sizes of its types that take the reported type where there is one and differ where there is none; induction on fuel for agreement, end of reading and independence of fuel |
| C62 | typecheck.rs: the requests that expressions, patterns, views and formats make of the engine; `typecheck` | typing rules for ground types (InferSpec); induction over the program: any assignment meeting the requests satisfies the rules (InferProofs); another induction shows that the requests are proper (InferWf); decoding preserves the rules (InferSafe), by induction on the reference semantics of C25 |
| C63 | codegen/mod.rs: `Elaborator`, the numbering of typed trees; typecheck.rs: `infer_module` | a lockstep relation between inference and elaboration (same count, same levels), by induction over the program (ElabLock); typing rules with the types of all parts (ElabSpec); with any assignment that meets the requests the trees satisfy them (ElabProofs) |
| C64 | codegen/name.rs, path_names.rs; codegen/mod.rs: what `generate_code` does with names of types | a machine of naming steps (NameModel) against an account of which declaration was asked for in which place (NameSpec); an invariant of the tables kept by every request; names are only ever added, so they are stable; injectivity of spelling plus mark |
| C65 | codegen/rust_ast/mod.rs: `sanitize_label`; codegen/mod.rs: naming of decoder functions | induction over strings; an invariant of the loop that names functions |
| C66 | codegen/mod.rs: `elaborate_format` as it makes typed formats; codegen/typed_decoder.rs: `GTCompiler`; typed_format.rs bounds; lib.rs: typed lookahead | elaboration followed by forgetting types is the identity (induction over the format); a relation between typed and plain decoders kept by the two compilers (an invariant of both compile queues, which number decoders differently), and a simulation of one program by the other by induction on fuel; composed with C53, C54 |
| C67 | lib.rs: `from_gt_format`, `MaybeTyped` in `Next`; typed_format.rs: `match_bounds`, `lookahead_bounds`, `is_nullable` | a relation between what follows with and without types, kept by every step of the construction; trees compared by what they choose on every input; induction on fuel |
| C68 | doodle-formats deflate.rs, all of it | a relational reading of RFC 1951 over lists of bits as the specification; each item of the format shown equivalent to the part of the RFC it is for, by inversion and construction of meanings (FormatSpec), inductions over codes, code lengths, blocks; prefix-freeness (C12) and the copy lemma (C11) for uniqueness of the reading; acceptance of every conforming stream through C26, its check evaluated on the eight items |
| C69 | doodle-formats gzip.rs and zlib.rs, all of them | the headers, optional parts, trailers and checksums of RFC 1952 and RFC 1950 as relations on positions of a list of bytes, over C68's reading of RFC 1951; each item of the formats shown to mean its part, through C48 (records), C50 (packed bytes), C51 (integers) and C68; acceptance through C26, its check evaluated on the items |
| C70 | src/numeric/{elaborator,codegen}.rs, `elaborate_num_tree` of codegen/mod.rs, and the 614 functions of eval.rs by name | the Rust compiler as a type of the generated expression (a function must exist and be given what it takes), its run as a value, an error or a panic; the table of functions checked once for all operations and types by evaluation (8 types: finite and complete), the rest by induction over typed trees; the value of a tree as a relation on integers, shown to be the interpreter's (C38); the trees of inference (C62's requests) shown to be such trees |
| C71 | `copy_hint` and the table of answers of src/codegen/rust_ast/analysis.rs; resolve.rs from `OwnedRustExpr` on | Rust's rule for Copy as an inductive predicate on the parts of a type; an invariant of the table (every answer in it is right) kept by every question, by induction over types and fuel; termination by induction over the finite structure of a type; places typed by a relation that sees through references |
| C72 | `size_hint`, `align_hint` and `niches` of analysis.rs, `aligned_size` | layouts as offsets without overlap; the sum of the sizes rounded up is the least layout: a bound by counting the bytes covered, attained by stacking the parts in order of falling alignment, which works as alignments are powers of two and sizes multiples of them; the same invariant of the table |
| C73 | src/codegen/rust_ast/analysis/read_width.rs | the numbers of bytes a type can be read from as a relation; fixed means one and varying means two or more, kept by sequence and choice |
| C74 | src/output/tree.rs 81-170 | the judgement as a function with fuel; equality of all readings by induction over the fuel, records through the fields they are made of |
| C75 | src/output/flat.rs | the check and the listing as functions with fuel, titles as levels; absence of panics by induction over the reading of the value; coverage as: in the module whose titled items match nothing, no reading consumes a byte |
| C76 | src/output.rs | fragments as a tree, texts as lists of characters; the text of each constructor, and of every history of a builder by induction over it |
| C77 | src/output/tree.rs 220-286, 812-850, 1040-1062, 1199-1226, 1422-1537, 1578-1736 | the values without formats; a separate definition of the tree shown and of its drawing; equality by induction over values; unique reading by induction over trees, drawings being self-delimiting |
| C78 | src/output/tree.rs 1738-2127, src/precedence.rs | what is shown as a separate tree and regrouping as the least congruence with the rotation of chains; the text as a sequence of words and separators, of operands and operators; unique reading by induction over sizes, uniqueness of grouping through forms grouped to the left |
| C79 | src/numeric/printer.rs 21-38, 75-179; src/numeric/core.rs 179-195, 237-242, 411-417 | regrouping as the least congruence with the rotation of chains (NumShowSpec); the text as a sequence of tokens, which a lexer gets back as each is followed by one it cannot be confused with (NumShowLex); a deterministic reading relation over tokens that yields the expression with its chains grouped to the left (NumShowTree) |
| C80 | src/typecheck/inference.rs 36-41, 115-119, 144-256, 266-302, 324-501, 541-563, 571-760, 762-823; src/numeric/elaborator.rs 548-571, 632-682 | right types as a predicate on typed trees (NumInferSpec); the tables of the engine denote a set of assignments of types to variables, and each step cuts this set down to those that meet the new constraint, or reports an error where none does (NumInferProofs); by induction on the expression the set is that of the right typings, and a class is read exactly if all members of the set agree on it (NumInferSound) |
| C81 | doodle-formats/src/format/riff.rs, all of it | chunks, form type and padding of the RIFF specification as relations on positions of a list of bytes (RiffSpec); a chunk of any contents shown to mean what it should once its contents do, used for the file and for the chunks in it (RiffProofs), through C48 (records) and C51 (integers); acceptance through C26, its check evaluated on the items; one reading by induction on the chunks |
| C82 | doodle-formats/src/format/run_length.rs, all of it | run-length encoding as lists of a count and a byte, with an encoder (RleSpec); each item shown to mean its part, the repeated computations by induction on the count and the concatenation by the meaning of flat_map (RleProofs); acceptance through C26, its check evaluated on the items |
| C83 | doodle-formats/src/format/numbers.rs, all of it | tagged numbers as a tag and bytes, and the integer they stand for (NumsSpec); each branch through C51 (unsigned and signed integers), the list by induction (NumsProofs); acceptance through C26, its check evaluated on the items |
| C84 | doodle-formats/src/format/peano.rs, all of it | digits as bytes (PeanoSpec); a digit through the chain of its bytes, sequences by induction (PeanoProofs); soundness of decoders through C25; that every sequence is read is refuted for each digit from 1 to 8 |

## Trusted base

* Coq 8.16.1's kernel (and `vm_compute`, part of it), used for every theorem.
* `Print Assumptions` stands under each property theorem; every one prints
  `Closed under the global context`. No axiom, of the standard library or other,
  is used by any theorem. (The axioms that a whole-library check lists are those
  declared inside `Coq.ssr.ssrunder`, which is loaded but not used.)
* The translation from Rust to Gallina, made by hand: each definition cites the
  lines it models, and states its simplifications. Not trusted, and checked by
  the mutation runs in `seeded/LOG.jsonl`: that the theorems notice wrong models.
* The specifications: the right-hand sides of the theorems and the `*Spec.v`
  files.

## What is modelled

| code | model | not modelled there |
|------|-------|--------------------|
| src/byte_set.rs, byte_set/{mem,pretty_print}.rs | ByteSetModel | Debug output |
| src/bounds.rs | BoundsModel | |
| src/read.rs, decoder/seq_kind.rs, decoder/search.rs, SubSeqInflate, slice_ext | DataModel | |
| src/parser/{offset,view}.rs, parser.rs, util.rs, error.rs (WithErr) | ParserModel, ProgModel | error message texts |
| huffman code construction in decoder.rs; codegen runtime `prelude` Huffman | HuffmanModel | |
| src/numeric/{core,eval}.rs | NumericModel | the macros that make the functions of eval.rs: their results are listed in NumCodeModel |
| src/numeric/{elaborator,codegen}.rs, src/codegen/mod.rs 4736-4786 | NumCodeModel | the text of the generated closures beyond the operation they do |
| src/codegen/rust_ast/analysis.rs, analysis/read_width.rs, resolve.rs 235-250 and 253-415 | LayoutModel | analysis/heap_optimize.rs (it only writes a comment); the walk of `resolve` over the generated code; sizes of 2^64 and more |
| src/output/flat.rs; src/output/tree.rs 81-170 | OutputModel | the names and titles (a line is the level of an item); errors of the writer; that the same format can carry different hints in different places |
| src/output.rs; src/output/tree.rs 220-286, 812-850, 1040-1062, 1199-1226, 1422-1537, 1578-1736, each without a format | FragModel | what Rust's own Display and Debug make of numbers and characters, and Display of tolerated failures (texts given); values printed with their formats, tables, strings; locations; the printing of formats |
| src/output/tree.rs 1738-2127; src/precedence.rs | ShowModel | fragments are taken as their texts (C76); numeric expressions within expressions (their text is given); expressions within printed formats are printed by the same function, the formats around them are not modelled |
| src/numeric/printer.rs 21-38, 75-179 | NumShowModel | fragments are taken as their texts (C76); the printing of elaborated expressions (181-310) and of generated code is not modelled |
| src/typecheck/inference.rs | NumInferModel (the aliases: UnifyModel) | `Equiv` of a variable, which no caller makes; `NumConstraint` and the module `__unused`, which nothing uses; the texts of errors |
| src/decoder.rs values, patterns, scopes, `Expr::eval`; lib.rs `Expr` bounds and shadowing; pattern.rs | ValueModel | |
| src/format.rs, lib.rs `Format`, `FormatModule` items | FormatModel | style hints, documentation |
| src/lib.rs `infer_type`, `infer_format_type`, `define_format_args_views`, `ViewExpr::check_type`, `TypeScope`; valuetype.rs `unify`; pattern.rs `build_scope` | TypeModel | error messages; the copies for alternative formats (alt.rs); typecheck/ |
| lib.rs `Next`, `MatchTreeStep`, `MatchTreeLevel`, `MatchTree` | MatchTreeModel | the copies for generated code (TypedModel), the iteration order of hash sets (theorems hold for every order) |
| src/decoder.rs `Decoder`, `Compiler`, `parse` | DecoderModel | |
| src/helper.rs records, bit fields, byte formats; record_fmt.rs; integer formats | RecordModel | the text of labels beyond equality and the prefixes that select them |
| doodle-formats/src/format/text.rs | TextModel | the other items of the module it is added to; the ASCII formats |
| doodle-formats/src/format/deflate.rs | DeflateModel | nothing left out; the names under which the items are defined |
| doodle-formats/src/format/{gzip,zlib}.rs | GzipModel | nothing left out; the names under which the items are defined |
| doodle-formats/src/format/riff.rs | RiffModel | nothing left out; the names under which the items are defined |
| doodle-formats/src/format/run_length.rs | RleModel | nothing left out; the names under which the items are defined |
| doodle-formats/src/format/numbers.rs | NumsModel | nothing left out; the names under which the items are defined |
| doodle-formats/src/format/peano.rs | PeanoModel | nothing left out; the names under which the items are defined |
| src/codegen/mod.rs `translate` and `to_ast`, codegen/model.rs, prelude.rs `repeat_between_finished` | CodegenModel | the text and types of the emitted code, `embed_expr` (expressions evaluate as in the interpreter), Huffman formats, boxing, names of types |
| src/precedence.rs; codegen/rust_ast/mod.rs printing of expressions; codegen/mod.rs `embed_expr` for arithmetic | PrintModel | statements, macros, `match`, `if`, struct literals, strings and characters, numeric constants, types of closure parameters; text is a list of tokens |
| src/loc_decoder.rs | LocModel | ordering of whole values, error trace contents (as in DecoderModel) |
| src/typecheck/base_set.rs | BaseSetModel | Display; `mixed` number types of numeric trees |
| src/typecheck.rs (unification engine) | UnifyModel | inference over formats and expressions (its calls are the requests; InferModel), the feature `__unify_mixed_to_int` |
| src/typecheck.rs (`reify`) | ReifyModel | step-wise expansion (`expand_var`), log messages |
| src/typecheck.rs (inference over expressions, patterns, views, formats and items) | InferModel | error messages; the first refused request stops the code, the model refuses at the end |
| src/codegen/{name,path_names}.rs; `sanitize_label`; names in `generate_code` | NameModel | declarations beyond equality, the walk that makes the requests (`lift_uvar`, `elaborate_…` are histories of requests), characters beyond ASCII |
| src/codegen/{typed_format,typed_decoder}.rs; lib.rs `MaybeTyped`, `from_gt_format`; codegen/mod.rs `elaborate_format` (the shape of its result) | TypedModel | the types themselves (numbers; ElabModel has them), types of expressions and patterns, names and locations; `Pos` and other types derived by `get_type` |

## Findings

Statements that a user would expect and that the model shows false; each is a
theorem named `…_refuted` with a concrete witness, under the property's id.

* C02/C37 `ByteSet::max_elem` negates three of its four words: wrong for sets
  without a member ≥ 192; `bounds`, `span` and the display of such sets panic or
  are wrong. The display also loses 255.
* C05/C06/C22 `Bounds` of `&`, `<<` (and `|` of exact operands for exactness) are
  unsound; the static size of a slice of `5 & x` bytes is wrong; `%` by a range
  that is exactly zero panics.
* C07 `split_at` overflows when offset + n ≥ 2^64.
* C08 sub-ranges of a lazily represented integer range that reach its end panic.
* C12 code construction panics on an empty table, lengths above 63 and tables of
  more than 65536 symbols.
* C14/C18 the generated-code parser may read up to 8 bits past a slice in bit
  mode; `remaining` counts them.
* C15/C16/C20 recovery points left behind by a successful alternation, a violated
  negative lookahead or a tolerated failure make a later alternative or peek
  rewind to the wrong place, and slices close at the wrong place.
* C22/C29 the bounds of a tolerated failure (`Permit`) ignore that it may consume
  nothing, so that the compiler accepts a repetition of it and the decoder loops
  forever.
* C25 a negative peek of `"0" | "012"` accepts `"013"`, an ordered choice passes over
  that branch there, and a tolerant format reports a failure: the failure of a
  format is not the absence of a match.
* C26 lookahead computed without the continuation prefers the longer of two
  branches: `"0" | "012"` fails on `"013"`; naming a part of a format (making it
  an item) changes what is accepted.
* C27 padding that may be any bytes makes an ambiguous format compile.
* C28 approximated formats (alignment, counts that are not constant) make a union
  choose a branch that does not match.
* C29 loops with a stopping condition over a body that consumes nothing are
  accepted and do not terminate.
* C30 a bounded repetition decodes none or exactly `max` elements, because its
  lookahead is always run on the original input; with equal bounds the compiler
  may reach `unreachable!`.
* C34 shadowing analysis of records, C35 matching below nested wrappers, C36 left
  shifts that lose bits, shift amounts of the width or more and lengths ≥ 2^32,
  C38 and C41 numeric boundary cases (least value divided by −1, negated, made
  absolute).
* C43 the interpreter with locations does not see the default of a tolerated
  failure when matching, does not match machine-integer patterns against numeric
  values, sees mapped values under tuple patterns differently, and panics on
  records without fields and loops over mapped sequences.
* C44 the location of a repetition ended by a condition on the sequence has length
  zero; a record that mentions a value twice is located past the input; locations
  inside decoded bytes and bits are relative to those; a mapped value carries its
  source's location. C45 joining locations with a gap gives a location that is
  too short.
* C46 an argument's type need only unify with the parameter's: a union with other
  alternatives is accepted; the current position and ranges are given the type of
  the integers beside them; the declared element type of a flat-map over the list
  made so far is not compared with the elements; the update of an accumulation is
  typed with the condition's argument in scope; a character pattern is never
  accepted; arithmetic that is accepted panics on signed integers.
* C48 a record with a name used twice shows the last value twice.
* C49 merging a record whose captured name is not its field's name gives a format that
  panics; the order of fields is that of decoding and not the one written; a local
  value with the name of a later field becomes a field; records without kept fields
  or with computed ones make merging panic.
* C50 reserved bits asked to be zero are not checked; a field as wide as the word is
  refused with a panic.
* C52 malformed UTF-8 after some text ends the text without an error if its first byte
  begins no character, and is an error otherwise.
* C53/C54 generated code and the interpreter differ. Lookahead: an optional byte is an
  error at the end of the input, and between several bytes and nothing the node's own
  answer is forgotten. Loops: one-or-more and at-least-two accept nothing at the end
  of the input. A tolerated failure is not rewound. In a view, positions and
  alignment count from the start of the view; a view taken inside a slice, bits read
  inside a slice and going back from a slice see past the end of the slice. Skipping the
  rest of a bit format and bits inside bits fail. `base + offset` is computed in the
  operands' type and overflows; capturing more bytes than there are panics. Emitted
  temporaries (`inner`, `sz`, `accum`, …) capture user variables of that name, which
  makes a condition always true. Patterns below an alternative match in generated code
  and not in the interpreter.
* C57 the printer writes no parentheses around a right operand of its parent's class:
  `a / (b / c)`, `a - (b - c)`, `a - (b + c)`, `a << (b << c)`, `a % (b / c)` are printed
  as their left-nested namesakes; nor around a logical operand of a comparison
  (`(a && b) == c`), a borrow or dereference under a field, method, index or `?`, or a
  field that is called; chained comparisons and ranges of ranges are no expressions.
* C58 through these, `8 / (4 / 2)` is 4 in the interpreter and 1 in generated code, and
  right-nested products may overflow. The interpreter shifts by the amount modulo 2^32
  where generated code panics; it panics where a generated cast truncates, and evaluates
  the right operand of `&&` and `||` always.
* C59 the type that is preferred among the candidates depends on the order in which the
  constraints arrive; unifying a set of unsigned types with `Bool` or `Char` panics;
  disjoint sets unify to an empty set instead of an error.
* C60 a variable can be made a part of its own type without an error (the occurs check is
  made on one path only), and two disjoint candidate sets unify: histories without a
  solution are carried out. A projection of a type of another kind, or a variant of a
  variable that is no union, panics instead of failing. A union refuses the empty type,
  and loses its variants when the other variable has that type; an unknown part of a
  tuple or record breaks the link to the variable projected from it.
* C61 when two unions are unified, variables other than the two named keep the number of
  the map of variants that is removed; reading a tuple, record, sequence or option with
  such a variable in it panics. A type is reported though the requests about another
  variable contradict each other. A variant only known to have the empty type is left out
  of the reported union. (A variable left with projections panics, as documented.)
* C62 an accumulator declared with a union of no variants may have any type. The fields of a record are typed with the earlier fields in scope and computed
  without: `let a = true in {a: 1, b: a}` is reported as `{a: u8, b: u8}`. An item is
  typed once, at its first use: if a parameter is declared with an open type or a union,
  other uses may pass values of other types and get the type of the first. Lengths and
  positions are reported with the integer type they are used at, and keep their width.
* C63 elaboration numbers the nodes of its trees by counting as inference does, but does
  not count the variables that a fold's or `accum-until`'s accumulator takes when it is
  declared with a union inside another type: all later nodes get the types of other
  nodes. `Sequence` of no formats, and an item that applies a dynamic format of its
  caller, have types but panic in elaboration. An item with parameters that is never
  called makes inference for the module fail.
* C64 all arguments of a call are elaborated in one place, so that two records of
  different types that are passed to one format are declared under one name; a name
  made unique by `__dupX1` clashes with a format that has that name.
* C65 types of formats called `a.b` and `a_b` are printed under one name; labels `self`,
  `Self`, `super` and `crate` are printed as raw identifiers that Rust does not allow.
* C66 the interpreter compiles `Maybe` as if nothing followed, the code generator before
  what follows: `Maybe(true, a*)` then `ab` is accepted by generated code and rejected by
  the interpreter. Alignment to a multiple of one is looked through by the interpreter's
  lookahead only: a choice before it is decided differently. A count that is a converted
  constant has bounds in the interpreter only: its repetition is refused by the code
  generator; negative lookahead of unbounded reach is refused by the interpreter only.
  Elaboration drops variants that always fail, so that later branches are renumbered.
* C68 the deflate format does not check the complement of the length of stored data,
  passes over the reserved symbols 286 and 287, and accepts code lengths beyond the
  announced number; a copy from before the start of the data and a repeat code with
  nothing to repeat make the decoder panic rather than fail. Beyond 4 GiB of data the
  length of the buffer wraps around.
* C69 the gzip format does not look at the method, the reserved flags (the check that
  the source asks for is never made, see C50), the header's checksum, the checksum and
  the length of the data; the zlib format does not look at its check bits nor at the
  checksum, and accepts a preset dictionary that it then ignores.

Seen while reading, not stated as theorems: a `peek_not` whose tree is
over-approximated rejects everything; `Slice` drops an alternative that is
already accepted inside; `Byte` errors report the offset after the byte.
* C70 code for a binary operation on two different types, one of 64 bits, into a type
  that holds both calls a function that does not exist (`add_u64_u8_u64`); so does the
  negation of an unsigned number into a signed type that does not hold it (`neg_u8_i8`),
  because `negate_is_nonlossy` says yes for every unsigned type; successor and predecessor
  have no functions, and their fallback names a trait that does not exist. Such code does
  not compile (C70_wide_refuted, C70_negate_refuted, C70_successor_refuted).
* C70 the remainder by a negative number is a value of the generated code and an error of
  the interpreter (C70_remainder_refuted).
* C70 the negation of the least number of a signed type at that type panics with overflow
  checks and is the number itself without (C70_own_negation_refuted); its absolute value
  as an unsigned number panics with overflow checks although it is a value of that type
  (C70_absolute_refuted).
* C71 a value of a `Result` is copied in place whenever its success type is Copy, though its
  error type may not be (C71_result_refuted); no generated place holds one now.
* C71 a type that contains itself other than in a vector is analysed for ever, as the table
  is only filled after the answer (C71_recursive_refuted); Rust would reject such a type.
* C72 the size stated for an enum may be more than needed, as the tag is put behind the
  largest variant (C72_enum_size_refuted); an enum without contents is given no niche
  (C72_plain_enum_refuted); `UTF16_SCALAR_MAX` is 0x10FFF where the largest scalar value is
  0x10FFFF, so more niches are counted for `char` than there are (C72_char_niches_refuted).
* C73 the read width of an enum without variants is not answered: the program panics
  (C73_empty_enum_refuted).
* C74 values of repetitions whose elements are implied are left out although their number is not
  (C74_repeat_refuted), results of functions of the scope although they differ (C74_map_refuted),
  and whether a failure was tolerated (C74_permit_refuted).
* C75 the rest of a slice is covered but not listed (C75_slice_refuted); titled items below functions,
  conditions and earlier steps are covered and not listed (C75_unlisted_refuted); negative peeks,
  tolerated successes and record hints without a kept field make the listing panic
  (C75_panic_refuted).
* C76 atoms that read as nothing count as something (C76_atoms_refuted); a line end followed by empty
  fragments is not called a single line (C76_single_line_refuted); an empty fragment pushed after
  another is a piece, and has separators, but not after something appended (C76_separated_refuted).
* C77 names with spaces make drawings ambiguous (C77_names_refuted); tuples and sequences look alike,
  and sequences of more than eleven elements are cut (C77_shown_refuted).
* C78 `9 - (4 - 2)` and `(9 - 4) - 2` are printed alike, as are all chains of operators of one level
  (C78_grouping_refuted); so are matches with other cases (C78_hidden_refuted). Names with spaces can be
  taken for expressions (C78_names_refuted). Printing a destructuring by a literal pattern runs into
  `unreachable!` although it can be evaluated (C78_pattern_refuted).
* C79 numeric expressions lose the grouping of chains in the same way, and with it the value
  (C79_grouping_refuted); the operator `abs` is glued to its operand, so that the absolute value of a variable
  `x` is printed like a variable `absx` (C79_names_refuted). Within other expressions, a numeric sum is printed
  like the sum of numeric expressions, which cannot be evaluated (C79_embedded_refuted).
* C80 in `unify_var_pair` of src/typecheck/inference.rs:353-356 a debug assertion tests `v2`, which is always an
  alias of the variable in question, where src/typecheck.rs tests `v1`: equating a variable with an alias of a
  later one panics in debug builds, and in the other order it does not (C80_equate_refuted). Inference of
  expressions never comes to it (C80_no_panic). A constant is not compared with the representation it declares:
  300 as `u8` is of type `u8` (C80_constants_refuted). Inference can succeed where no types are right, which shows
  only when they are read (C80_success_refuted), and where several are right none is chosen
  (C80_several_refuted).
* C81 the codes of RIFF chunks may be any bytes, though they are called ASCII (C81_ascii_refuted), and a file
  without the zero byte after a last chunk of odd length is refused although all that its lengths count is there
  (C81_unpadded_refuted).
* C82 a run-length text followed by a byte is refused and not read up to there (C82_cut_refuted).
* C84 the decoder of Peano numbers refuses a file of one digit from 1 to 8, and reads 0 and 9, because of C30 (C84_reads_refuted); whatever it returns is made of the digits 0 and 9 (C84_zero_or_nine).
