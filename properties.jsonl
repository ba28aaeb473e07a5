{"id": "C01", "title": "Byte sets are exactly sets of bytes", "statement": "After any sequence of constructions and updates (empty, full, singleton, insert, remove, union, intersection, difference, complement), asking whether a byte is contained gives the answer of the corresponding mathematical set; in particular union/intersection/difference/complement obey the boolean algebra laws and insert/remove change the answer for the given byte only.", "quantifier": "every byte set representable in the structure, every pair of sets, every byte", "why_tests_cant": "there are 2^256 sets; a quadrant or mask mistake only shows for particular words and boundary bytes", "anchors": ["src/byte_set.rs: ByteSet::{insert,remove,contains,union,intersection,difference,complement,empty,full}"]}
{"id": "C02", "title": "Byte-set queries describe the set", "statement": "len is the number of members, is_empty holds iff there is no member, min_elem/max_elem are the least/greatest member, and iteration enumerates every member once in ascending order.", "quantifier": "every byte set", "why_tests_cant": "2^256 sets; depends on which of four words is the first/last non-empty one", "anchors": ["src/byte_set.rs: ByteSet::{len,is_empty,min_elem,max_elem,iter}"]}
{"id": "C03", "title": "Byte sets built from ranges contain exactly the range", "statement": "Converting a half-open or inclusive range of bytes to a byte set yields a set containing b iff lo <= b (and b < hi, resp. b <= hi), including empty, reversed, one-element and quadrant-crossing ranges.", "quantifier": "every pair of bytes lo, hi and every byte b", "why_tests_cant": "the code special-cases same-quadrant, equal and reversed endpoints; the claim ranges over all 2^24 triples", "anchors": ["src/byte_set.rs: From<Range<u8>>, From<RangeInclusive<u8>>"]}
{"id": "C04", "title": "Serialized byte sets lose nothing", "statement": "The serialized form of a byte set (an 'includes' list or an 'excludes' list) determines the set: reading the form back as the listed members, or as everything but the listed members, gives the original set, so two different sets never serialize to the same form.", "quantifier": "every byte set", "why_tests_cant": "2^256 sets; the two branches switch at cardinality 128", "anchors": ["src/byte_set.rs: impl Serialize for ByteSet"]}
{"id": "C05", "title": "Interval arithmetic on integer bounds is sound", "statement": "If x lies in bounds a and y lies in bounds b and the machine operation x op y does not overflow, then x op y lies in the bounds computed for a op b, for each supported operator.", "quantifier": "all bounds (bounded or unbounded above), all 64-bit x, y in them, every operator (+,-,*,/,%,<<,>>,|,&, union, bits-to-bytes, clamp)", "why_tests_cant": "ranges over all intervals and members; the corner cases are overflow, unbounded ends, and shared bit prefixes", "anchors": ["src/bounds.rs: impl Add/Sub/Mul/Div/Rem/Shl/Shr/BitOr/BitAnd for Bounds; Bounds::{union,clamp,bits_to_bytes,bitwise_bounds}"]}
{"id": "C06", "title": "Static bounds of an expression contain its run-time value", "statement": "Whenever evaluating an integer-valued expression succeeds with value n, n lies within the bounds statically computed for that expression.", "quantifier": "every expression, every scope, every successful evaluation", "why_tests_cant": "expressions are arbitrary trees over arbitrary scope values", "anchors": ["src/lib.rs: Expr::bounds", "src/decoder.rs: Expr::eval"]}
{"id": "C07", "title": "Input cursors read the buffer in order and never past the end", "statement": "Reading bytes and big-endian integers from an input cursor returns the bytes at the cursor's offset in order and advances by exactly the width read; every read, split and seek that would go past the end fails and returns nothing; splitting gives a first part that ends exactly at the split point and a second part that starts there.", "quantifier": "every buffer, offset and length", "why_tests_cant": "buffers and offsets are unbounded", "anchors": ["src/read.rs: ReadCtxt::{read_byte,read_u16be,read_u32be,read_u64be,split_at,seek_to,skip_remainder,remaining}"]}
{"id": "C08", "title": "Lazy repeated sequences behave like the materialised sequence", "statement": "A sequence produced by duplicating a value n times is indistinguishable, through length, indexing, iteration, sub-sequence and append, from the list of n copies; in particular out-of-range accesses fail in the same cases.", "quantifier": "every sequence, every index, start, length and pair of sequences", "why_tests_cant": "lengths are unbounded and the two representations are handled by different code", "anchors": ["src/decoder/seq_kind.rs: SeqKind::{len,get,into_vec,sub_seq,iter,append}"]}
{"id": "C09", "title": "Sorted key search is safe on any data and complete on sorted data", "statement": "Searching a sequence by key with the binary search never reads outside the sequence and never underflows, whatever the data; any index it returns holds an element whose key equals the query; and if the keys are in ascending order it returns an index whenever some element has the query as key.", "quantifier": "every sequence (sorted or not), every key function result, every query", "why_tests_cant": "unbounded lengths; index arithmetic mid-1/mid+1 at the boundaries", "anchors": ["src/decoder/search.rs: find_index_by_key_sorted", "src/prelude.rs: find_by_key_sorted"]}
{"id": "C10", "title": "Unsorted key search returns the first match", "statement": "Searching a sequence by key linearly returns the least index whose key equals the query, and nothing iff no element has it.", "quantifier": "every sequence and query", "why_tests_cant": "unbounded lengths", "anchors": ["src/decoder/search.rs: find_index_by_key_unsorted", "src/prelude.rs: find_by_key_unsorted"]}
{"id": "C11", "title": "Overlapping back-references expand as repeated copying", "statement": "Taking a run of len bytes starting at distance dist from the end of the data already produced yields the sequence in which every byte equals the one dist positions before it, even when len exceeds dist; the expression evaluator and the generated-code runtime produce the same bytes.", "quantifier": "every history, distance and length", "why_tests_cant": "lengths and distances are unbounded and overlap arbitrarily", "anchors": ["src/decoder.rs: Expr::SubSeqInflate in Expr::eval", "src/prelude.rs: slice_ext, extend_from_within_ext"]}
{"id": "C12", "title": "Huffman code construction gives a prefix code with the requested lengths", "statement": "For every table of code lengths accepted by the construction, symbol n with non-zero length l gets a code of exactly l bits, symbols of equal length get consecutive codes in symbol order, shorter codes precede longer ones, and no code is a prefix of another whenever the lengths satisfy the Kraft inequality.", "quantifier": "every table of code lengths", "why_tests_cant": "tables are arbitrary lists of lengths", "anchors": ["src/prelude.rs: make_huffman_decoder, bit_range", "src/decoder.rs: make_huffman_codes"]}
{"id": "C13", "title": "The generated-code Huffman decoder inverts the code", "statement": "For every accepted table of code lengths, decoding the bits of the code of symbol n, followed by any further bits, returns n and consumes exactly the bits of that code; tables whose codes collide are rejected when the decoder is built, never mis-decoded.", "quantifier": "every table of code lengths, every symbol, every following bit stream", "why_tests_cant": "arbitrary tables and arbitrary continuations", "anchors": ["src/prelude.rs: huffman::{HuffmanDriver,HuffmanNode}"]}
{"id": "C14", "title": "The parser runtime never reads outside the innermost open slice", "statement": "Whatever sequence of runtime operations generated code performs, a byte (or bit) that is successfully read lies inside the buffer and inside every slice that is open at that moment and not hidden by a seek.", "quantifier": "every finite history of parser-runtime calls on every buffer", "why_tests_cant": "histories are unbounded; the check compares byte offsets with bit offsets", "anchors": ["src/parser/offset.rs: BufferOffset::try_increment, ViewStack::get_limit, PartialOrd for ByteOffset", "src/parser/mod.rs: Parser::read_byte"]}
{"id": "C15", "title": "Peek contexts restore the offset where they were opened", "statement": "Closing a peek context returns the parser to the offset and bit/byte mode it had when that context was opened and leaves the contexts opened before it untouched, whatever well-nested operations happened in between.", "quantifier": "every parser state and every well-nested history between open and close", "why_tests_cant": "histories are unbounded and nest arbitrarily", "anchors": ["src/parser/offset.rs: open_peek/close_peek, ViewStack::restore", "src/parser/mod.rs: Parser::{open_peek_context,close_peek_context}"]}
{"id": "C16", "title": "Failed alternatives rewind to the start of their own alternation", "statement": "When one branch of a non-deterministic union fails in generated code, moving to the next branch puts the parser back at the offset at which that union was entered.", "quantifier": "every parser state and every history of the failed branch, including nested alternations that succeeded inside it", "why_tests_cant": "only visible for particular nestings of succeeded and failed alternations", "anchors": ["src/parser/mod.rs: Parser::{start_alt,next_alt}", "src/parser/offset.rs: ViewStack::recover", "src/codegen/mod.rs: ParallelLogic::Alts"]}
{"id": "C17", "title": "Bit mode reads the bits of each byte from least to most significant", "statement": "After entering bit mode at byte k, the i-th bit read is bit (i mod 8) of byte k + i div 8; leaving bit mode resumes at the first byte no bit of which has been read.", "quantifier": "every buffer, starting offset and number of bits", "why_tests_cant": "unbounded bit counts", "anchors": ["src/parser/offset.rs: ByteOffset::{as_bytes,enter_bits_mode,escape_bits_mode}", "src/parser/mod.rs: Parser::read_byte"]}
{"id": "C18", "title": "Remaining is the largest legal advance", "statement": "The number reported as remaining is the largest n for which advancing by n succeeds; it is 0 iff reading a byte reports an overrun.", "quantifier": "every reachable parser state", "why_tests_cant": "depends on the whole context stack and mode", "anchors": ["src/parser/mod.rs: Parser::remaining", "src/parser/offset.rs: BufferOffset::rem_local"]}
{"id": "C19", "title": "Alignment skips the least number of positions", "statement": "Aligning to n advances by the least amount that makes the position (bytes since start of buffer, or bits since entering bit mode) a multiple of n, and the interpreter and generated-code runtime skip the same amount.", "quantifier": "every position and every non-zero n", "why_tests_cant": "unbounded positions and moduli", "anchors": ["src/parser/mod.rs: Parser::skip_align", "src/decoder.rs: Decoder::Align"]}
{"id": "C20", "title": "Closing a slice leaves the parser exactly at the end of the slice", "statement": "Opening a slice of a given size succeeds iff it fits in the current limit; closing it puts the parser at the opening offset plus the size whatever was read inside, and restores the previous limit.", "quantifier": "every parser state, size and well-nested history inside the slice", "why_tests_cant": "unbounded histories", "anchors": ["src/parser/mod.rs: Parser::{start_slice,end_slice}", "src/parser/offset.rs: BufferOffset::close_slice"]}
{"id": "C21", "title": "Decoding never invents or skips input", "statement": "When the interpreter decodes successfully, the remaining input it returns is the same buffer with the same end, at an offset that has not moved backwards and is not past the end.", "quantifier": "every decoder program, scope and input", "why_tests_cant": "decoders are arbitrary recursive programs", "anchors": ["src/decoder.rs: Decoder::parse"]}
{"id": "C22", "title": "The number of bytes consumed is within the static match bounds", "statement": "When a format is decoded successfully, the number of bytes consumed lies between the minimum and maximum that the library computes statically for that format (which it uses to reject nullable repetition and to build lookahead tables).", "quantifier": "every format, module, scope and input", "why_tests_cant": "formats and inputs are arbitrary", "anchors": ["src/format.rs: Format::match_bounds, Format::is_nullable", "src/decoder.rs: Decoder::parse"]}
{"id": "C23", "title": "A slice consumes exactly its size and sees only its bytes", "statement": "Decoding a slice of size n advances exactly n bytes on success, fails if fewer remain, and its result does not depend on bytes after the slice.", "quantifier": "every inner decoder, size, scope and pair of inputs that agree up to the end of the slice", "why_tests_cant": "relates two runs on arbitrary inputs", "anchors": ["src/decoder.rs: Decoder::Slice"]}
{"id": "C24", "title": "Lookahead does not consume", "statement": "A peek, negative peek, view read, re-decoding of bytes and parse at a relative offset all leave the input position where it was; a negative peek succeeds exactly when its inner decoder fails.", "quantifier": "every inner decoder, scope and input", "why_tests_cant": "inner decoders are arbitrary", "anchors": ["src/decoder.rs: Decoder::{Peek,PeekNot,WithRelativeOffset,DecodeBytes,ParseFromView,CaptureBytes}"]}
{"id": "C25", "title": "Whatever the decoder accepts belongs to the format", "statement": "If decoding with a compiled format succeeds consuming u, then u is a string described by the format as documented (union as alternation, tuple as concatenation, repeat as Kleene star, ...) and the value returned is a value of that string.", "quantifier": "every format, module and input", "why_tests_cant": "formats are arbitrary grammars", "anchors": ["src/format.rs: Format (doc comment)", "src/decoder.rs: Compiler::compile_format, Decoder::parse"]}
{"id": "C26", "title": "Whatever belongs to a compiled format is decoded", "statement": "If a format compiles (its unions and repetitions were judged deterministic with bounded lookahead) then every string described by the format, followed by any string described by what follows it, is decoded successfully with the value the format gives it.", "quantifier": "every format that compiles, every string of its language", "why_tests_cant": "lookahead trees are built symbolically to depth 80; correctness is about all grammars and strings", "anchors": ["src/lib.rs: MatchTree::build, MatchTreeStep::from_format, MatchTreeLevel::grow, MatchTree::matches", "src/decoder.rs: Compiler::compile_format"]}
{"id": "C27", "title": "Compiled formats are unambiguous", "statement": "If a format compiles, no string has two different values (or two different splits) under the format and its continuation.", "quantifier": "every format that compiles, every string", "why_tests_cant": "ambiguity is undecidable in general; tests cannot exclude it", "anchors": ["src/lib.rs: MatchTree::build", "src/decoder.rs: Compiler::compile_format"]}
{"id": "C28", "title": "The lookahead tree picks the branch that matches", "statement": "If a lookahead tree was built for a list of branches and a continuation, then on any input that is matched by branch i followed by the continuation, the tree selects i.", "quantifier": "every list of branches, continuation and input", "why_tests_cant": "trees are built by symbolic derivative over arbitrary formats", "anchors": ["src/lib.rs: MatchTree::{build,matches}, MatchTreeLevel::{grow,merge_step,merge_branch,merge_accept}"]}
{"id": "C29", "title": "Repetition terminates", "statement": "Decoding a repetition of a format that the compiler accepts as non-nullable performs at most as many iterations as there are input bytes, so it terminates on every input.", "quantifier": "every compiled repetition and input", "why_tests_cant": "non-termination is not observable by a test", "anchors": ["src/decoder.rs: Decoder::{While,Until}, Compiler::compile_format (Repeat/Repeat1)", "src/format.rs: Format::is_nullable"]}
{"id": "C30", "title": "Bounded repetition stops at the right element", "statement": "Decoding between min and max repetitions of a format consumes as many repetitions as the input offers up to max and leaves the rest for what follows.", "quantifier": "every inner format, bounds and input", "why_tests_cant": "arbitrary inner formats and inputs", "anchors": ["src/decoder.rs: Decoder::RepeatBetween, Compiler::compile_format (RepeatBetween)"]}
{"id": "C31", "title": "Bit formats consume whole bytes, least significant bit first", "statement": "Decoding a bit-level format presents the bits of the remaining bytes, least significant first within each byte, and afterwards advances by the number of bits used rounded up to whole bytes.", "quantifier": "every inner decoder and input", "why_tests_cant": "unbounded inputs", "anchors": ["src/decoder.rs: Decoder::Bits"]}
{"id": "C32", "title": "Recoverable errors are never lost or promoted", "statement": "Combining results that carry non-fatal errors keeps every error exactly once; a result is accepted in strict mode iff it carries none; downgrading a fatal error yields the fallback with that error recorded.", "quantifier": "every chain of computations", "why_tests_cant": "chains are unbounded", "anchors": ["src/util.rs: WithErr::{map,join,fold,lift,into_strict}, downgrade_error_with"]}
{"id": "C33", "title": "Names resolve to the latest binding of the right kind", "statement": "Looking up a variable, a dynamic decoder or a view in a scope returns the most recent binding of that name and of that kind, through any nesting of scopes, and nothing iff there is none.", "quantifier": "every nesting of scopes and every name", "why_tests_cant": "scopes are unbounded chains of three kinds of frames", "anchors": ["src/decoder.rs: Scope, MultiScope, SingleScope, DecoderScope, ViewScope"]}
{"id": "C34", "title": "Shadowing analysis is conservative", "statement": "If an expression is reported not to need an outer variable, its value does not change when the value of that variable changes.", "quantifier": "every expression, name and pair of scopes that differ only there", "why_tests_cant": "relates two evaluations over arbitrary expressions", "anchors": ["src/lib.rs: Expr::is_shadowed_by", "src/pattern.rs: Pattern::shadows"]}
{"id": "C35", "title": "Pattern matching ignores provenance wrappers", "statement": "Whether a value matches a pattern, and what it binds, does not depend on the bookkeeping wrappers (mapped-from, branch index, permit) that decoding adds around values, at any depth.", "quantifier": "every value, every pattern", "why_tests_cant": "wrappers can occur at any depth", "anchors": ["src/decoder/value.rs: Value::{matches,matches_inner,coerce_nominal_value,coerce_mapped_value}"]}
{"id": "C36", "title": "Integer operations are exact or fail", "statement": "Arithmetic on values gives the mathematical result when it is representable at the operand width and otherwise fails loudly; comparisons agree with the mathematical order; conversions preserve the number or fail; byte-composition operators agree with the documented endianness.", "quantifier": "all operands at all widths", "why_tests_cant": "2^128 operand pairs", "anchors": ["src/decoder/value.rs: __arith, __rel, __unary", "src/decoder.rs: Expr::eval casts and U16Be..U64Le"]}
{"id": "C37", "title": "A displayed byte set denotes that set", "statement": "Formatting a byte set for display never panics, and the printed union of named sets, ranges and lists denotes exactly the members.", "quantifier": "every byte set", "why_tests_cant": "2^256 sets; the printed form depends on the maximal runs of the set and on its extreme members", "anchors": ["src/byte_set/pretty_print.rs: ByteSet::{to_best_string,as_range_string,str_fallback,partition_ranges,bounds,span}, impl Display for ByteSet"]}
{"id": "C38", "title": "Numeric expressions denote exact integers", "statement": "Evaluating a numeric expression yields the unbounded-integer result of its operators (division truncating, remainder only by positive divisors), tagged with the declared or unified representation; strict evaluation returns the same value and its flag says whether every sub-expression's value is representable; only the reported variables influence the result.", "quantifier": "every numeric expression, every scope", "why_tests_cant": "expressions nest without bound and values are unbounded integers", "anchors": ["src/numeric/core.rs: NumExpr::{eval,eval_strict,iter_vars}, TypedConst"]}
{"id": "C39", "title": "Bitwise casts are machine casts", "statement": "A bitwise cast of a representable value gives the unique value of the target type congruent to it modulo 2^width.", "quantifier": "every source and target machine type and every value of the source type", "why_tests_cant": "up to 2^64 values for each of 64 type pairs", "anchors": ["src/numeric/core.rs: TypedConst::bitwise_cast / eval of Expr::Cast"]}
{"id": "C40", "title": "Machine-type inclusion is inclusion of value sets", "statement": "One machine type is reported to encompass another iff every value of the second is a value of the first, and unifying intervals gives the least interval containing both.", "quantifier": "every pair of machine types and of intervals", "why_tests_cant": "intervals are over unbounded integers", "anchors": ["src/numeric/core.rs: MachineRep::is_superset, Bounds::{encompasses,unify}"]}
{"id": "C41", "title": "Machine arithmetic reports exactly the mathematical result", "statement": "Each generated binary, unary and cast function returns the plain result when it fits the output type, the exact out-of-range integer otherwise, and 'not a number' only for a zero divisor; it never panics.", "quantifier": "all operands of every supported combination of operand and output types", "why_tests_cant": "up to 2^128 operand pairs; overflow only at the extreme values", "anchors": ["src/numeric/eval.rs: Eval, add/sub/mul/div/rem/neg/abs/cast functions"]}
{"id": "C42", "title": "Evaluation keeps values in range", "statement": "Evaluating an expression whose literals fit their types, in a scope whose values are in range, yields a value all of whose machine integers fit their width and all of whose characters are Unicode scalar values, at every depth; pattern matching binds only such values.", "quantifier": "every expression, scope and successful evaluation", "why_tests_cant": "expressions nest without bound and every operator has boundary values at every width", "anchors": ["src/decoder.rs: Expr::eval", "src/decoder/value.rs: Value::{arith,unary,matches}"]}
{"id": "C43", "title": "Decoding with locations computes the same values", "statement": "Decoding an input with source locations attached accepts, rejects and consumes exactly as decoding without them, and yields the same value once locations and provenance wrappers are removed, with the same recorded errors.", "quantifier": "every module, format, input and starting position", "why_tests_cant": "two separate interpreters over unbounded formats and inputs", "anchors": ["src/loc_decoder.rs: Program::run_with_loc, Decoder::parse_with_loc, Expr::{eval_with_loc,eval_value_with_loc,eval_lambda_with_loc}, ParsedValue", "src/decoder.rs: Program::run"]}
{"id": "C44", "title": "A location says where the value was read", "statement": "The location attached to a value read from the input lies within the input and a scalar with a location is the number stored there; the location of what a format yields starts where it started and ends where it stopped.", "quantifier": "every format, input and value inside the result, at any depth", "why_tests_cant": "formats, inputs and results nest without bound", "anchors": ["src/loc_decoder.rs: ParsedValue, Parsed, ParseLoc, Decoder::parse_with_loc"]}
{"id": "C45", "title": "Locations combine to their span and are ordered", "statement": "Joining locations is commutative and associative with a synthesized location as unit; any number of adjacent locations in any order combine to the location that spans them; locations are totally ordered by offset then length, synthesized ones last.", "quantifier": "all locations, all lists of locations in all orders", "why_tests_cant": "lists, orders and offsets are unbounded", "anchors": ["src/loc_decoder.rs: ParseLoc::{join,accum,get_offset,get_length}, impl Ord for ParseLoc"]}
{"id": "C46", "title": "A decoded value has the inferred type", "statement": "When a module's definitions are all accepted and a format is given a type, every value the compiled format decodes, from any input, is a value of that type, at every depth.", "quantifier": "every module, format and input, and every successful decoding", "why_tests_cant": "formats, types and inputs are unbounded; inference and decoding are separate programs", "anchors": ["src/lib.rs: Expr::infer_type, FormatModule::{define_format_args_views,infer_format_type}, TypeScope", "src/pattern.rs: build_scope", "src/valuetype.rs: ValueType::unify"]}
{"id": "C47", "title": "Alternatives have their least common type", "statement": "Unifying two types gives the least type that covers both and fails exactly when none does; the type of a union or sequence does not depend on the order of its parts; every value of a part has the type of the whole.", "quantifier": "all types and all lists of parts, in all orders", "why_tests_cant": "types nest without bound", "anchors": ["src/valuetype.rs: ValueType::unify", "src/lib.rs: FormatModule::infer_format_type"]}
{"id": "C48", "title": "A record decodes its fields in order and keeps the named ones", "statement": "A format built as a record decodes its fields one after the other in the order given, each able to refer to the named fields before it; the decoded value has exactly the kept fields, under their names, in that order, with the values decoded for them.", "quantifier": "every list of fields, input and starting position", "why_tests_cant": "field lists, their formats and inputs are unbounded", "anchors": ["src/helper.rs: record, record_ext, record_auto, pseudo_record, chain_record"]}
{"id": "C49", "title": "Merging and rewriting records acts on their fields", "statement": "Merging records gives the record with the fields of all of them in order; looking up a field finds the format of the kept field of that name; rewriting a field changes that field and no other.", "quantifier": "all lists of records and field names", "why_tests_cant": "records have any number of fields of any format", "anchors": ["src/helper.rs: merge_records, remap_field", "src/record_fmt.rs: RecordFormat"]}
{"id": "C50", "title": "Packed bit fields are the bits they name", "statement": "A format of packed bit fields reads one word and yields for each field the number (or flag) made of its bits, counted from the most significant one; layouts are accepted exactly when they fill the word; reserved bits asked to be zero are zero in every word accepted.", "quantifier": "every layout, word and input", "why_tests_cant": "layouts and inputs are unbounded", "anchors": ["src/helper.rs: bit_fields_u8, bit_fields_u16, BitFieldKind"]}
{"id": "C51", "title": "Fixed-width integers are the numbers their bytes write", "statement": "The formats of 8-, 16-, 32- and 64-bit integers take exactly their width in bytes and yield the number written by them in the stated byte order, the signed ones in two's complement; every input that is long enough is decoded.", "quantifier": "every width, byte order, input and position", "why_tests_cant": "all 2^64 words in all positions", "anchors": ["src/helper.rs: base::{u8,u16be,u16le,u32be,u32le,u64be,u64le,i8,i16be,i32be,i64be}", "src/decoder.rs: Expr::eval"]}
{"id": "C52", "title": "UTF-8 text formats accept exactly UTF-8", "statement": "The UTF-8 character format matches exactly the encodings of the Unicode scalar values and yields that character; the text format decodes every well-formed UTF-8 input, whole, to its characters, reads an input to its end only if it is well-formed, and whatever it decodes is encoded by exactly the bytes it consumed.", "quantifier": "every byte sequence and every string of scalar values", "why_tests_cant": "strings are unbounded and the 1112064 characters occur in every context", "anchors": ["doodle-formats/src/format/text.rs: main, drop_n_msb, shift6_2, shift6_3, shift6_4", "src/helper.rs: byte_in, lambda_tuple"]}
{"id": "C53", "title": "Generated parsers return what the interpreter decodes", "statement": "When the interpreter decodes an input with a compiled format, the parser generated from the same program accepts that input, returns the same value (without the interpreter's provenance wrappers) and stops at the same place.", "quantifier": "every program, input and amount of recursion", "why_tests_cant": "programs, inputs and loops are unbounded; two implementations of one language have to agree on all of them", "anchors": ["src/codegen/mod.rs: translate, to_ast, embed_matchtree, embed_view_expr", "src/codegen/model.rs", "src/decoder.rs: Decoder::parse"]}
{"id": "C54", "title": "Generated parsers reject what the interpreter rejects", "statement": "When the interpreter rejects an input, so does the generated parser; whatever the generated parser accepts, the interpreter decodes to the same value.", "quantifier": "every program, input and amount of recursion", "why_tests_cant": "the inputs to be rejected are unbounded and each is rejected at its own point of the program", "anchors": ["src/codegen/mod.rs: translate, to_ast", "src/decoder.rs: Decoder::parse"]}
{"id": "C55", "title": "Byte tests and lookahead of generated code follow the byte sets and trees", "statement": "The test emitted for a byte set holds for exactly its bytes and there is one for every non-empty set; the emitted lookahead picks the branch the match tree picks on the input left, and leaves the parser where it was.", "quantifier": "every byte set and byte; every match tree, input and position", "why_tests_cant": "2^256 byte sets; trees and inputs are unbounded", "anchors": ["src/codegen/mod.rs: ByteCriterion, embed_matchtree, expand_matchtree"]}
{"id": "C56", "title": "Expressions do not see how a value was obtained", "statement": "Evaluating an expression gives the same result, up to provenance wrappers, whether or not the values of its variables carry the wrappers the interpreter adds for alternatives, maps and tolerated formats.", "quantifier": "every expression and every scope", "why_tests_cant": "expressions and values nest without bound", "anchors": ["src/decoder.rs: Expr::eval, Value::coerce_mapped_value", "src/codegen/mod.rs: embed_expr"]}
{"id": "C57", "title": "Generated expressions are read by Rust as they were meant", "statement": "The text printed for a generated Rust expression, in any surroundings, is by Rust's precedences the text of that expression and of no other, or of one that computes the same.", "quantifier": "every expression of the generated code's syntax and every precedence it is printed at", "why_tests_cant": "expressions nest without bound; a missing pair of parentheses shows only for particular pairs of operators", "anchors": ["src/precedence.rs: Precedence::relate, cond_paren", "src/codegen/rust_ast/mod.rs: RustExpr::to_fragment_precedence, RustOp, InfixOperator"]}
{"id": "C58", "title": "Generated arithmetic computes what the interpreter computes", "statement": "When the interpreter evaluates an arithmetic, comparison or logical format expression to a value, the Rust text generated for it, read and run as Rust with overflow checks, evaluates to the same value.", "quantifier": "every expression over variables, literals, arithmetic, comparisons, logic and casts, and all values of the variables", "why_tests_cant": "expressions nest without bound and the values range over all machine integers", "anchors": ["src/codegen/mod.rs: embed_expr", "src/decoder.rs: Expr::eval", "src/decoder/value.rs: Value::arith", "src/codegen/rust_ast/mod.rs: RustExpr::to_fragment_precedence"]}
{"id": "C59", "title": "Candidate integer types are narrowed without loss", "statement": "Unifying two sets of candidate base or integer types keeps exactly the types that are in both, in either order; a set is resolved to a type exactly when that type alone has the best rank; the set made for a literal or range holds exactly the types that can hold all its numbers.", "quantifier": "every pair of candidate sets, every rank assignment and every range of integers", "why_tests_cant": "the ranks are unbounded numbers that intersection adds up; ranges go over all integers", "anchors": ["src/typecheck/base_set.rs: BaseSet::unify, IntSet::unify, IntSet::from_bounds, to_base_set, try_from_base_set, UintSet, PrimIntSet, Rank"]}
{"id": "C60", "title": "Type inference keeps exactly the solutions of what it is asked", "statement": "A history of requests to the unification engine (new variables, equal variables, a variable's type, two equal types, candidate sets, union variants, tuple, record, sequence and option projections) that some assignment of types meets is carried out without error or panic and in finitely many steps; the assignments the resulting state allows are exactly those that meet every request, whatever the order of hash tables and of the requests; a refused history is met by no assignment.", "quantifier": "every history of requests, every assignment of types, every hash order", "why_tests_cant": "histories, types and alias classes are unbounded; hash iteration order differs from run to run", "anchors": ["src/typecheck.rs: TypeChecker, unify_utype, unify_constraint_pair, unify_var_constraint, unify_var_pair, transfer_constraints, unify_varmaps, recanonicalize, repoint, add_uvar_variant, unify_var_proj_index, unify_var_proj_field, unify_var_proj_elem, unify_var_proj_param, occurs_in"]}
{"id": "C61", "title": "Reported types are a solution, and missing ones are open", "statement": "After a history of requests to the type inference engine that can be met, all types it reports (of variables and of compound types) are those of one assignment meeting every request, whatever the order of hash tables; when no type is reported, two assignments meeting every request disagree on it; reading a type ends, and panics only when a variable is left with projections only. If a type is reported for every variable, the reported types meet every request, without assuming that the history can be met.", "quantifier": "every history of requests, every type asked for, every hash order", "why_tests_cant": "histories and types are unbounded; a type is read off through chains of variables of any length", "anchors": ["src/typecheck.rs: reify, reify_union, substitute_uvar_vtype, to_whnf_vtype, is_infinite_type, proj_shape_to_vtype", "src/typecheck/base_set.rs: get_unique_solution", "src/valuetype.rs: AugValueType"]}
{"id": "C62", "title": "Types inferred by constraints are types of the decoded values", "statement": "Whatever types the requests that type inference makes for a format allow, the format has them by the typing rules of expressions and formats, and every value it decodes has the type of the format; in particular the type that is reported, if the requests can be met, or if a type is reported for every variable. Integers have exactly the reported width when none comes from a length, a range, a position, an open constant or a dynamic format.", "quantifier": "every module, format, input and decoded value, every assignment of types and every order of hash tables", "why_tests_cant": "formats and expressions nest without bound, and items are called from any number of places", "anchors": ["src/typecheck.rs: TypeChecker::infer_utype_format, infer_var_expr, infer_var_format, infer_var_format_level, infer_var_expr_acc, UType::from_valuetype, reify", "src/decoder.rs: Decoder::parse, Expr::eval"]}
{"id": "C63", "title": "Generated code is made from well-typed trees", "statement": "The typed tree made of a module for code generation has at each node (formats, expressions, patterns, arguments, view offsets, dynamic formats) the type that was inferred for that node: with any types that meet the requests of inference, in particular the reported ones, each node's type follows from those of its children by the typing rules, for the format, the items it calls and those it does not call.", "quantifier": "every module and format, every assignment of types and every order of hash tables", "why_tests_cant": "the trees and the inference run are matched by counting alone; a miscount shows only in nodes after it", "anchors": ["src/codegen/mod.rs: Elaborator, elaborate_module, elaborate_format, elaborate_expr, elaborate_pattern, elaborate_numeric_expr, increment_index, get_gt_from_index", "src/typecheck.rs: infer_module"]}
{"id": "C64", "title": "Generated types have one name each", "statement": "Whatever formats and types are walked, asking for the name of a type never panics; a type gets the same provisional name and number each time; in the generated program every type asked for is declared once, under the name that all references to it are renamed to. Two types are declared under different names, each after a place where it occurs, and under the name of a format if it occurs as one, and never after a place without a label if it occurs in another.", "quantifier": "every history of naming requests over any paths, every hash order", "why_tests_cant": "histories, paths and labels are unbounded; the hash order of the renaming table differs between builds", "anchors": ["src/codegen/name.rs: NameCtxt, PHeap, is_refinement, synthesize_name, find_name_for, register_path, refine_path, dedup", "src/codegen/path_names.rs: NameGen::get_name, manifest_renaming_table", "src/codegen/mod.rs: lift_uvar, generate_code", "src/codegen/rust_ast/rebind.rs: Rebindable"]}
{"id": "C65", "title": "Labels are printed as different identifiers", "statement": "What is printed for a label in generated code has no dash, dot or blank, does not start with a digit and is no reserved word; different identifiers are printed differently, and printing again changes nothing; different types are printed under different names; the decoder functions of a generated program have different names.", "quantifier": "every label, every program and every list of decoder functions", "why_tests_cant": "labels are arbitrary strings and clashes arise between any two of them", "anchors": ["src/codegen/rust_ast/mod.rs: sanitize_label, remap, is_valid, replace_bad", "src/codegen/mod.rs: generate_code, decoder_fname"]}
{"id": "C66", "title": "Code is generated from the decoders that the interpreter runs", "statement": "The code generator compiles formats with types by a compiler of its own. Elaborating a format and forgetting the types gives the format back. Whenever both compilers accept, the two programs decode every input alike: the same value at the same place with the same soft errors, the same error, or both panic. Hence what the interpreter decodes, the generated code parses to the same value without wrappers and stops at the same place, and what it rejects it rejects.", "quantifier": "every module, format, elaboration and input, whatever decoders are shared", "why_tests_cant": "the two compilers are separate copies over different formats; a difference shows only on formats and inputs where it matters", "anchors": ["src/codegen/typed_decoder.rs: GTCompiler, compile_program, queue_compile, compile_gt_format", "src/codegen/typed_format.rs: GTFormat, TypedFormat", "src/codegen/mod.rs: elaborate_format, elaborate_format_union, generate_code", "src/decoder.rs: Compiler"]}
{"id": "C67", "title": "Lookahead with types chooses as without", "statement": "For alternatives before typed formats, the code generator's lookahead tree exists whenever the interpreter's before the same formats without types does, and on every input both choose the same alternative; a typed format may be empty when the format may.", "quantifier": "every module, list of alternatives, continuation and input", "why_tests_cant": "continuations and inputs are unbounded and the two constructions are separate copies", "anchors": ["src/lib.rs: Next, MaybeTyped, MatchTreeStep::from_gt_format, from_next, MatchTree::build", "src/codegen/typed_format.rs: match_bounds, lookahead_bounds, is_nullable"]}
{"id": "C68", "title": "Deflate streams are decompressed to their data", "statement": "The deflate format describes exactly the streams of RFC 1951 (read leniently), each with the data it stands for: every stream of stored, fixed and dynamic blocks has a value whose inflated field is its data, and every value comes from such a stream. A conforming stream can be read in one way only, even leniently. So a decoder that accepts a conforming stream returns the data that was compressed and has read exactly the bytes that hold it; malformed streams are rejected.", "quantifier": "every sequence of bytes, number and kinds of blocks, code tables, and data under 4 GiB; every module holding the format", "why_tests_cant": "code tables, copies that overlap themselves and block sequences combine without bound; a wrong boundary in one of the tables shows only on streams that use it", "anchors": ["doodle-formats/src/format/deflate.rs: main, bits8, bits16, length_record, length_record_fixed, fixed_code_lengths, reference_record", "src/decoder.rs: make_huffman_codes, Decoder::Dynamic, Expr::SubSeqInflate, Expr::FlatMapList", "src/helper.rs: record, tuple"]}
{"id": "C69", "title": "Gzip files and zlib streams are read to their members and data", "statement": "The gzip format describes exactly the sequences of gzip members of RFC 1952 (read leniently) and the zlib format the streams of RFC 1950: the value has, for every member in order, the subfields of its extra field, its name, its comment and its uncompressed data, each present exactly when the header says so. Every conforming gzip file is decoded to its end, and every conforming zlib stream is decoded whatever follows it; files that do not conform (wrong checksum, unknown method, reserved flags) are rejected.", "quantifier": "every sequence of bytes, number of members, combination of header flags, lengths of optional fields, and data under 4 GiB per member; every module holding the formats", "why_tests_cant": "the optional parts, the extra subfields and the members combine without bound, and each position depends on all the lengths before it", "anchors": ["doodle-formats/src/format/gzip.rs: main", "doodle-formats/src/format/zlib.rs: main", "src/helper.rs: asciiz_string, bit_fields_u8, cond_maybe, record_lens, where_lambda, slice, byte_seq"]}
{"id": "C70", "title": "The code generated for numeric expressions computes their value", "statement": "The Rust code generated for a numeric expression compiles and has the type of the expression, returns the value of the expression whenever every operation has a result in its type, fails whenever one has not, and never panics; so it returns what the interpreter computes. The types that inference gives to the parts of the expression agree with each other and with the representations written in it.", "quantifier": "every numeric expression, typing of its parts and values of its variables, with and without overflow checks", "why_tests_cant": "there are 8 types, hence hundreds of combinations for each operation, each with its own function, and expressions nest without bound", "anchors": ["src/numeric/codegen.rs: synthesize, classify_binary, classify_unary, negate_is_nonlossy, absval_is_nonlossy", "src/numeric/elaborator.rs: TypedExpr, Elaborator", "src/numeric/eval.rs: homogenous, widening, mixed_widening, negate_as_signed, abs_as_signed, direct_cast, attempt_cast", "src/codegen/mod.rs: elaborate_num_tree", "src/typecheck.rs: infer_var_num_tree"]}
{"id": "C71", "title": "Generated types are Copy exactly when they can be, and their values are taken accordingly", "statement": "In the generated file a type is declared Copy exactly when all its parts are, through declared types and options but not vectors; the answer does not depend on what was asked before. A value taken out of a place (a field, a position, an element, the contents of an option, through any references) is copied only if its type is Copy and it is no reference, and dereferenced only if it is a reference to a Copy value; a value without references is cloned only if its type is not Copy.", "quantifier": "every list of type declarations, history of questions and place", "why_tests_cant": "declarations nest and refer to each other without bound and in any order, and answers are remembered between questions", "anchors": ["src/codegen/rust_ast/analysis.rs: SourceContext, cache_get, CopyEligible", "src/codegen/rust_ast/resolve.rs: OwnedRustExpr::resolve, solve_type, expand_lens, get_field, get_elem, get_param, get_pos", "src/codegen/mod.rs: generate_code"]}
{"id": "C72", "title": "The sizes stated for generated types are those of their best layout", "statement": "The size stated beside a struct is the least number of bytes in which its fields can be laid out, each at a multiple of its alignment, without overlap and in any order; an enum has room for its largest variant and a tag; an option has the size of its contents if these leave a bit pattern unused and one alignment more if not. Sizes are multiples of the alignment, which is the largest of the parts'. Answers do not depend on what was asked before.", "quantifier": "every list of type declarations and history of questions", "why_tests_cant": "layouts range over all orders and offsets of any number of fields, and declarations nest without bound", "anchors": ["src/codegen/rust_ast/analysis.rs: MemSize, CanOptimize, aligned_size, niche_product, niche_sum, SourceContext"]}
{"id": "C73", "title": "A fixed read width is the only one", "statement": "A type is given a fixed read width exactly when every value of it, read leaf by leaf, takes that many bytes of input.", "quantifier": "every list of type declarations, type and way of reading it", "why_tests_cant": "values choose among the variants of enums independently at every depth", "anchors": ["src/codegen/rust_ast/analysis/read_width.rs: ReadWidth, ValueWidth", "src/codegen/model/traits.rs: ReadFixedSizeDep"]}
{"id": "C74", "title": "Values left out of the tree output are implied by their format", "statement": "A value that the tree output leaves out, because its format implies it, is the same in every reading of that format: of any input, at any place and in any scope. Nothing that could differ is hidden.", "quantifier": "every module, format, input and scope", "why_tests_cant": "the judgement is about all values the format could have, and formats nest without bound", "anchors": ["src/output/tree.rs: is_implied_value_format, is_implied_value_format_old_style_record, is_implied_value_format_new_style_record"]}
{"id": "C75", "title": "The flat listing leaves nothing out and does not panic", "statement": "If a format passes the check that precedes the flat listing, bytes are only consumed within items that have a title, and any value decoded by it is listed without a panic.", "quantifier": "every module, choice of titled items, format, input and decoded value", "why_tests_cant": "a value has the shape of the path taken through the format, of which there is no bound", "anchors": ["src/output/flat.rs: print_decoded_value, is_show_format, check_covered, Context::write_flat, write_record"]}
{"id": "C76", "title": "Fragments of output read as what they were put together from", "statement": "A fragment of output, however it was put together by the constructors or a builder, reads as the texts of its parts in order, with separators between each two parts that are there; what is called vacuous reads as nothing, what is called a single line is one, and what is said to fit a line has no line ends and symbols.", "quantifier": "every fragment and every history of a builder", "why_tests_cant": "fragments nest without bound, and the constructors simplify by cases that differ in performance alone", "anchors": ["src/output.rs: Fragment::seq, cat, delimit, intervene, append, group, cat_break, is_vacuous, is_single_line, fits_inline, join_with_wsp, join_with_wsp_eol, Display", "src/output.rs: FragmentBuilder"]}
{"id": "C77", "title": "The tree printed for a value is the tree of the value, and can be read off the text", "statement": "The text printed for a value without a format is the drawing of its tree: one line for each part, at the depth of the part, corners and columns connecting the parts of the same whole, and values of one line on the line of their name. The texts of two values are equal only if their trees are.", "quantifier": "every value, and every set of columns it is printed under", "why_tests_cant": "trees have any depth and breadth, and the margin of each line depends on all the parts it is within", "anchors": ["src/output/tree.rs: compile_value, compile_tuple, compile_seq, compile_record, compile_bool_flags, compile_variant, compile_gutter, compile_field_value, compile_field_value_continue, compile_field_value_last, compile_field_skipped, is_atomic_value"]}
{"id": "C78", "title": "The text printed for an expression tells how it is put together", "statement": "Printing an expression does not panic, and the texts printed for two expressions, on their own or as an operand at any precedence, are equal exactly if what is shown of them is the same: the same operations on the same operands, but for the grouping of chains of operators of one level. What is shown leaves out the types of numbers, the cases of a match and the elements of tuples, records and sequences.", "quantifier": "every two expressions and precedences", "why_tests_cant": "where parentheses are put is decided by pairs of an operator and the one around it, at any depth, and a text could be read in ways that no test looks for", "anchors": ["src/output/tree.rs: compile_expr, compile_pattern, binary_op, prefix_op", "src/precedence.rs: Precedence::relate, cond_paren"]}
{"id": "C79", "title": "The text printed for a numeric expression tells how it is put together", "statement": "The texts printed for two numeric expressions are equal exactly if the expressions are the same, down to the representations of their constants and results and the kinds of casts, but for the grouping of chains of operators of one level.", "quantifier": "every two numeric expressions", "why_tests_cant": "where parentheses are put is decided by pairs of an operator and the one around it, at any depth; operators, representations and names stand next to each other without spaces, so that a text could be read in ways that no test looks for", "anchors": ["src/numeric/printer.rs: compile_expr, compile_bin_op, compile_unary_op, compile_prefix, compile_cast_op, compile_binop, show_expr", "src/numeric/core.rs: MachineRep::to_static_str, NumRep::to_static_str, Display for TypedConst"]}
{"id": "C80", "title": "A numeric expression is given machine types exactly if there is one right way to", "statement": "Type inference for a numeric expression followed by elaboration yields a typed expression exactly if the expression can be given types in only one right way, and then those types: constants have their representation or a type that holds their value, operations the type they are marked with or that of their operands, operands without a representation the type of the result. It never panics, reports an error only if there is no right way, and the value of the typed expression is the one the interpreter computes.", "quantifier": "every numeric expression and every order of the hash tables", "why_tests_cant": "types are found by merging classes of variables in the order the expression is walked, and a constraint at one end of the expression decides the type at the other", "anchors": ["src/typecheck/inference.rs: InferenceEngine::infer_var_expr, unify_var_pair, unify_var_constraint, unify_constraint_pair, transfer_constraints, recanonicalize, reify; Constraint::get_unique_solution", "src/numeric/elaborator.rs: Elaborator::elaborate_expr"]}
{"id": "C81", "title": "The RIFF format reads exactly the RIFF files", "statement": "The RIFF format describes exactly the files that the specification of the Resource Interchange File Format does: a chunk with the code RIFF, within it a form type and chunks, each with a code, a length and as many bytes of contents, and a zero byte after contents of odd length. There is a decoder that reads every such file to its end, whatever follows, and returns the form type and the codes and data of the chunks in order. A file can be read in one way only.", "quantifier": "every sequence of bytes and every position in it", "why_tests_cant": "the lengths of chunks, which decide where everything after them is, come from the input, and there are any number of chunks", "anchors": ["doodle-formats/src/format/riff.rs: main", "src/helper.rs: record, slice, cond_maybe, opaque_bytes, tuple_repeat, is_bytes"]}
{"id": "C82", "title": "The run-length format decodes what was encoded", "statement": "The run-length format describes exactly the texts that are a byte for the style and pairs of a count and a byte, and its value says the bytes encoded: each byte repeated as often as its count, in order. There is a decoder that reads every such text to its end; what an encoder writes is decoded to what it was given, in both styles; and a text can be read in one way only.", "quantifier": "every sequence of bytes, every position in it, and every string to encode", "why_tests_cant": "the length of the result comes from the input and there are any number of runs", "anchors": ["doodle-formats/src/format/run_length.rs: main", "src/helper.rs: record, record_auto, flat_map, repeat_count, mk_ascii_string"]}
{"id": "C83", "title": "The format of tagged numbers reads every number as what it is", "statement": "The format of tagged numbers describes exactly the files that are the bytes NUMS and any number of numbers, each a tag for its signedness and width and its bytes, the most significant first; its value says these numbers in order, signed ones read in two's complement. There is a decoder that reads every such file to its end, and a file can be read in one way only.", "quantifier": "every sequence of bytes, every position in it, and every list of numbers", "why_tests_cant": "there are 2^64 numbers of the widest kind and any number of numbers in a file", "anchors": ["doodle-formats/src/format/numbers.rs: main", "src/helper.rs: alts, record_auto, map_numeric, u8, u16be, u32be, u64be"]}
{"id": "C84", "title": "The format of Peano numbers reads digits as what they are", "statement": "The format of Peano numbers describes exactly the sequences of at least one digit, each written as up to nine bytes S and a byte Z; its value says these digits in order, and whatever a decoder of it returns says the digits it has read. Bytes can be read as digits in one way only. The decoder reads every such sequence.", "quantifier": "every sequence of bytes, every position in it, and every list of digits", "why_tests_cant": "there are sequences of any length, and ten choices for each digit", "anchors": ["doodle-formats/src/format/peano.rs: main", "src/helper.rs: repeat_between, lambda_tuple, seq_length", "src/decoder.rs: Decoder::RepeatBetween"]}
