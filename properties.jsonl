{"id": "C01", "title": "Unsigned LEB-128 decoding is exact", "statement": "Parsing a u8/u16/u32/u64 from a byte iterator returns Ok(v) and leaves `rest` exactly when the input is a LEB-128 group sequence (continuation bit on every byte but the last) followed by `rest`, the little-endian base-128 value of the sequence is v, and v fits the type.", "quantifier": "all byte sequences, all four widths, all trailing input", "why_tests_cant": "infinitely many byte strings and encodings of each number; off-by-one in the last partial group only shows on specific bytes", "anchors": ["whasm/src/binary/core/unsigned.rs: parse_unsigned_leb_128"]}
{"id": "C02", "title": "Signed LEB-128 decoding is exact", "statement": "Parsing an i8/i16/i32/i64 returns Ok(v) and leaves `rest` exactly when the input is a LEB-128 group sequence followed by `rest` whose two's-complement value (sign = top payload bit of the last byte) is v and v fits the type.", "quantifier": "all byte sequences, all four widths, all trailing input", "why_tests_cant": "sign extension interacts with every split of the value over groups and every padding length", "anchors": ["whasm/src/binary/core/signed.rs: parse_signed_leb_128"]}
{"id": "C03", "title": "Out-of-range and unterminated integers are rejected with the documented error", "statement": "If the input starts with a terminated LEB-128 sequence whose value does not fit the requested type, parsing fails with OutOfRangeUnsignedInteger / OutOfRangeSignedInteger; if the input ends before a terminating byte, it fails with UnexpectedEndOfFile as long as some groups more could bring the value into the range (unsigned: the value so far fits; signed: it fits, or it does with all higher bits set) and with the out-of-range error otherwise; no other result is possible.", "quantifier": "all byte sequences, all widths", "why_tests_cant": "needs every overflow position and every truncation", "anchors": ["whasm/src/binary/core/unsigned.rs: parse_unsigned_leb_128", "whasm/src/binary/core/signed.rs: parse_signed_leb_128"]}
{"id": "C04", "title": "Integer encodings are at most ceil(N/7) bytes long", "statement": "The WebAssembly binary format bounds a uN/sN encoding to ceil(N/7) bytes, so a successful integer parse consumes at most that many bytes. (The code accepts arbitrarily long padding: expected to be refuted.)", "quantifier": "all byte sequences", "why_tests_cant": "unbounded: a single integer may swallow arbitrarily many bytes", "anchors": ["whasm/src/binary/core/unsigned.rs: parse_unsigned_leb_128", "whasm/src/binary/core/signed.rs: parse_signed_leb_128"]}
{"id": "C05", "title": "Floats are decoded bit-exactly from little-endian IEEE-754 bytes", "statement": "Parsing an f32 (f64) succeeds exactly when 4 (8) bytes are available, consumes exactly these, and yields the float whose bit pattern is the little-endian reading of the bytes, NaN payloads and signs included - on every host.", "quantifier": "all byte sequences, all 2^32 / 2^64 patterns, hosts of both endiannesses", "why_tests_cant": "2^64 patterns; the implementation writes through a raw pointer so the result depends on host endianness", "anchors": ["whasm/src/binary/core/float.rs: parse_float_iee754"]}
{"id": "C06", "title": "String parsing accepts exactly length-prefixed UTF-8", "statement": "Parsing a String returns Ok(s) exactly when the input is a u32 length n followed by n bytes that are the UTF-8 encoding of a sequence of Unicode scalar values, and s is these bytes; with a good length and bad UTF-8 it returns InvalidUtf8Encoding.", "quantifier": "all byte sequences", "why_tests_cant": "surrogates, overlong forms, truncated sequences at every position", "anchors": ["whasm/src/binary/core/string.rs: impl WasmBinaryParse for String", "whasm/src/binary/core/error.rs: From<FromUtf8Error>"]}
{"id": "C07", "title": "Vectors and arrays decode exactly the announced number of elements, in order", "statement": "Parsing Vec<T>/UnwrappingVec<T>/[T;N] returns Ok(v) exactly when the input is the u32 count (none for arrays) followed by the concatenated encodings of v's elements in order, for any element parser that is itself exact.", "quantifier": "all element types, counts and byte sequences", "why_tests_cant": "unbounded element counts and arbitrary element parsers", "anchors": ["whasm/src/binary/core/vec.rs: Vec<T>, UnwrappingVec<T>", "whasm/src/binary/core/array.rs"]}
{"id": "C08", "title": "CompactVec expands runs exactly", "statement": "Parsing CompactVec<T> returns Ok(v) exactly when the input is a u32 number of runs followed by (u32 repeat count, element) pairs and v is the concatenation of the runs, each element repeated its count (zero included).", "quantifier": "all run lists and byte sequences", "why_tests_cant": "unbounded runs and repetition counts", "anchors": ["whasm/src/binary/core/vec.rs: CompactVec<T>"]}
{"id": "C09", "title": "Sized elements consume exactly their declared size and cannot read past it", "statement": "Parsing Sized<T> returns Ok(v) exactly when the input is a u32 size s followed by s bytes that T parses completely; bytes after the declared size never influence the value or the error; if T succeeds without using exactly s bytes the error is SizeMissmatch.", "quantifier": "all inner parsers, sizes and byte sequences", "why_tests_cant": "the window can nest, be too long, too short or run past the input", "anchors": ["whasm/src/binary/core/sized.rs: Sized<T>, Consume"]}
{"id": "C10", "title": "Instruction decoding is exact with respect to the WebAssembly opcode table", "statement": "Parsing an instruction sequence terminated by `end` returns Ok(e) exactly when the input is a binary encoding of e in the instruction grammar (opcode table, immediates in binary order, nested block/loop/if/else structure), and leaves exactly the bytes after `end`.", "quantifier": "all byte sequences and all nestings of instructions", "why_tests_cant": "172 opcodes x arbitrary nesting x arbitrary immediates", "anchors": ["whasm/src/binary/instr.rs: Expr, Instr, SubExpr, IfInstr"]}
{"id": "C11", "title": "Parsed code is structurally well nested", "statement": "No instruction tree returned by the parser contains an End or Else pseudo instruction at any depth, and every block type it contains has at most one result.", "quantifier": "all byte sequences that parse", "why_tests_cant": "arbitrary nesting depth", "anchors": ["whasm/src/binary/instr.rs: SubExpr", "whasm/src/binary/ty.rs: RetVal"]}
{"id": "C12", "title": "Reserved opcodes and type bytes are rejected with the offending byte", "statement": "If the next byte is not an assigned opcode (value type, limits flag, element type, mutability, import/export kind, function-type tag), parsing the corresponding element fails with InvalidVariantId carrying that byte and the name of the type, whatever follows.", "quantifier": "all bytes and all continuations", "why_tests_cant": "all 256 bytes x all continuations x each variant type", "anchors": ["whasm/src/binary/instr.rs: Instr", "whasm/src/binary/ty.rs", "whasm/src/binary/module.rs: desc::Import, desc::Export"]}
{"id": "C13", "title": "Module parsing is exact with respect to the binary module grammar", "statement": "Parsing a Module from an iterator returns Ok(m) exactly when the whole input is: magic, version, then sections (id, size, content) whose non-custom ids strictly increase, and m is assembled from the section contents; on success the iterator is exhausted.", "quantifier": "all byte sequences", "why_tests_cant": "the set of module binaries is infinite and structured", "anchors": ["whasm/src/binary/module.rs: impl WasmBinaryParse for module::Module"]}
{"id": "C14", "title": "Every WebAssembly 1.0 binary parses to the module it denotes", "statement": "If a byte string is a module in the official WebAssembly 1.0 binary grammar (with its stricter rules: bounded LEB length, zero reserved bytes, equal function/code counts, fewer than 2^32 locals) denoting m, parsing returns Ok(m).", "quantifier": "all byte strings in the official grammar", "why_tests_cant": "completeness over an infinite language", "anchors": ["whasm/src/binary/module.rs: Module", "whasm/src/binary/instr.rs"]}
{"id": "C15", "title": "Every representable module is reachable: encode/parse round trip", "statement": "For every module value whose numbers are in range, whose names are UTF-8 and whose code is well nested there is a byte string (computed by a canonical encoder) that parses back to exactly that module.", "quantifier": "all module values", "why_tests_cant": "surjectivity over all ASTs", "anchors": ["whasm/src/binary/module.rs: Module"]}
{"id": "C16", "title": "Section order and uniqueness are enforced", "statement": "A section whose non-zero id is not larger than that of an earlier non-custom section makes parsing fail with UnexpectedSectionId carrying the id; an id above 11 greater than all earlier ones fails with InvalidSectionId; hence no section kind can appear twice in an accepted module.", "quantifier": "all section sequences", "why_tests_cant": "all orders and multiplicities of sections", "anchors": ["whasm/src/binary/module.rs: Module (last_id)"]}
{"id": "C17", "title": "Custom sections are transparent", "statement": "Inserting or deleting any number of well-formed custom sections at any section boundary does not change the parsed module.", "quantifier": "all modules, all custom sections, all positions", "why_tests_cant": "arbitrary payloads at arbitrary positions", "anchors": ["whasm/src/binary/module.rs: Module (0x00 arm)", "whasm/src/binary/core/sized.rs: Consume"]}
{"id": "C18", "title": "Function declarations and bodies are paired in order", "statement": "In a parsed module the i-th function has the i-th type index of the function section and the i-th body of the code section; a code section with a different number of bodies than declarations is rejected. A function section without a code section must be rejected as well. (Last clause expected to be refuted.)", "quantifier": "all section contents", "why_tests_cant": "all counts and mismatches", "anchors": ["whasm/src/binary/module.rs: Module (0x03, 0x0A arms)"]}
{"id": "C19", "title": "Parsing is total: no input makes it panic or run forever", "statement": "For every finite byte input, parsing a Module (and every element type) terminates with Ok or Err; unwraps, shifts and indexing in the implementation never panic.", "quantifier": "all finite byte sequences", "why_tests_cant": "absence of panic/divergence over all inputs", "anchors": ["whasm/src/binary/core/unsigned.rs", "whasm/src/binary/core/signed.rs", "whasm/src/binary/module.rs: Module", "whasm/src/binary/instr.rs"]}
{"id": "C20", "title": "Parsers are local: later bytes never influence an already decoded element", "statement": "If parsing an element (not a whole module) succeeds on some input leaving rest, then on that input followed by any extra bytes it succeeds with the same value leaving rest plus the extra bytes; whatever the outcome, the iterator is left at a suffix of the input.", "quantifier": "all elements, inputs and extensions", "why_tests_cant": "quantifies over all continuations", "anchors": ["whasm/src/binary/core/traits.rs: WasmBinary::parse", "whasm/src/binary/core/sized.rs"]}
{"id": "C21", "title": "Truncation is always detected", "statement": "Cutting the encoding of an element at any interior point makes parsing fail (with UnexpectedEndOfFile, or SizeMissmatch when the cut is inside a sized window); cutting an accepted module at any point that is not a section boundary makes parsing fail.", "quantifier": "all accepted inputs and all cut points", "why_tests_cant": "every truncation point of every input", "anchors": ["whasm/src/binary/core/byte.rs", "whasm/src/binary/core/sized.rs", "whasm/src/binary/module.rs"]}
{"id": "C22", "title": "Preamble is checked before anything else", "statement": "Input not starting with 00 61 73 6D is rejected with InvalidPreambleMagic (UnexpectedEndOfFile if shorter than four bytes); with good magic and a version other than 01 00 00 00 it is rejected with InvalidPreambleVersion; at most eight bytes are read in these cases.", "quantifier": "all byte sequences", "why_tests_cant": "all prefixes", "anchors": ["whasm/src/binary/module.rs: Module", "whasm/src/binary/core/byte.rs: PartialEq<char>, PartialEq<u8>"]}
{"id": "C23", "title": "Resources requested by the parser are bounded by the input size", "statement": "The number of locals in a parsed function, and the vector capacity reserved before reading elements, are bounded by (a constant times) the number of input bytes. (Expected to be refuted: run-length encoded locals and unchecked counts.)", "quantifier": "all byte sequences", "why_tests_cant": "worst case over all inputs", "anchors": ["whasm/src/binary/core/vec.rs: Vec::with_capacity, CompactVec"]}
{"id": "C24", "title": "Parsed numbers are in range", "statement": "Every index, limit, alignment, offset in a parsed module is below 2^32, integer constants are in the range of their signed type, float constants are 32/64-bit patterns, names are UTF-8.", "quantifier": "all byte sequences that parse", "why_tests_cant": "all values", "anchors": ["whasm/src/binary/idx.rs", "whasm/src/binary/ty.rs", "whasm/src/binary/instr.rs"]}
{"id": "C25", "title": "Nesting depth of parsed code is bounded by the input length but by no constant", "statement": "The nesting depth of a parsed expression (recursion depth of the parser) is at most the number of bytes consumed, and for every d there is an input of length linear in d that parses with nesting depth d.", "quantifier": "all byte sequences; all depths", "why_tests_cant": "unbounded depth", "anchors": ["whasm/src/binary/instr.rs: Instr, SubExpr, IfInstr"]}
{"id": "C26", "title": "Function body validation decides the WebAssembly typing rules", "statement": "For well nested code, validating a function succeeds exactly when its body has type [] -> results in the declarative WebAssembly type system (stack-polymorphic rules for unreachable code included) under the module's context, up to the listed deviations (no alignment premise, no label for the function body).", "quantifier": "all contexts and all instruction trees", "why_tests_cant": "infinitely many programs; stack polymorphism", "anchors": ["whasm/src/validation/instr.rs: Instr", "whasm/src/validation/stacks.rs: Stacks", "whasm/src/validation/module.rs: Func"]}
{"id": "C27", "title": "Accepted code is well typed in WebAssembly 1.0", "statement": "If validation accepts a module, every function body is well typed according to the official typing rules. (Expected to be refuted by alignment; proved for code whose alignments are natural.)", "quantifier": "all modules", "why_tests_cant": "soundness over all programs", "anchors": ["whasm/src/validation/instr.rs: validate_load, validate_store"]}
{"id": "C28", "title": "Code well typed in WebAssembly 1.0 is accepted", "statement": "If a function body is well typed according to the official rules it is accepted. (Expected to be refuted: branches to the function's own label are rejected; proved for code without such branches.)", "quantifier": "all contexts and instruction trees", "why_tests_cant": "completeness over all programs", "anchors": ["whasm/src/validation/idx.rs: idx::Label"]}
{"id": "C29", "title": "Validation is total: no module value makes it panic", "statement": "For every module value (hand built or parsed), Module::validate() terminates with Ok or Err: operand pops, frame accesses and index lookups never panic; on every supported pointer width.", "quantifier": "all module values (including stray End/Else)", "why_tests_cant": "absence of panic over all ASTs and histories of the two stacks", "anchors": ["whasm/src/validation/stacks.rs: pop_operand, pop_frame, unreachable", "whasm/src/validation/idx.rs"]}
{"id": "C30", "title": "Accepted modules contain no dangling index", "statement": "In an accepted module every type, function, table, memory, global and local index used by code, elements, data, start, imports and exports is within the corresponding index space, and branch labels within the enclosing blocks.", "quantifier": "all accepted modules", "why_tests_cant": "every occurrence of an index at any depth", "anchors": ["whasm/src/validation/idx.rs", "whasm/src/validation/context.rs"]}
{"id": "C31", "title": "Index spaces put imports first and the validation result lists externals in order", "statement": "On success validate returns, for the i-th import (export), the external type it denotes, where function/table/memory/global indices count imports in order first and then definitions in order.", "quantifier": "all modules", "why_tests_cant": "all interleavings of import kinds", "anchors": ["whasm/src/validation/context.rs: Context::from", "whasm/src/validation/module.rs: desc::Import, desc::Export"]}
{"id": "C32", "title": "Export names are unique", "statement": "A module is accepted only if no two exports share a name, and a module all of whose other conditions hold is never rejected when names are distinct.", "quantifier": "all export lists", "why_tests_cant": "sort/dedup correctness over all lists", "anchors": ["whasm/src/validation/module.rs: Module (export_names)"]}
{"id": "C33", "title": "The start function takes and returns nothing", "statement": "A start section is accepted exactly when its function index denotes a function of type [] -> [].", "quantifier": "all modules", "why_tests_cant": "all index spaces", "anchors": ["whasm/src/validation/module.rs: Start"]}
{"id": "C34", "title": "Limits are checked as in WebAssembly 1.0", "statement": "A memory type is accepted exactly when min <= max and both are at most 65536 pages; a table type exactly when min <= max. (Memory part expected to be refuted: 65536 is rejected.)", "quantifier": "all limits", "why_tests_cant": "boundary values", "anchors": ["whasm/src/validation/ty.rs: Limits, Mem, Table"]}
{"id": "C35", "title": "At most one table and one memory", "statement": "An accepted module has at most one table and at most one memory, counting imports. (Expected to be refuted: imports are not counted; proved for definitions.)", "quantifier": "all modules", "why_tests_cant": "all combinations of imports and definitions", "anchors": ["whasm/src/validation/module.rs: Module"]}
{"id": "C36", "title": "Global initialisers are constant expressions over imported globals", "statement": "An accepted global's initialiser is a constant expression of the global's type that only reads immutable imported globals. (Expected to be refuted: it is checked against the module's own globals.)", "quantifier": "all modules", "why_tests_cant": "self and forward references in any position", "anchors": ["whasm/src/validation/module.rs: Module (ctx_globals), Global", "whasm/src/validation/instr.rs: ConstExpr"]}
{"id": "C37", "title": "Element and data segments have constant i32 offsets and valid targets", "statement": "A segment is accepted exactly when its table/memory exists, its offset is a constant expression of type i32 over immutable globals, and (for elements) every function index exists.", "quantifier": "all modules", "why_tests_cant": "all offset expressions", "anchors": ["whasm/src/validation/module.rs: Elem, Data", "whasm/src/validation/instr.rs: ConstExpr"]}
{"id": "C38", "title": "Validation of one item never affects another", "statement": "Functions (and globals, segments) are validated independently: whether a function is accepted depends only on the module's index spaces, not on its position or on the functions validated before; permuting elements/data segments does not change acceptance.", "quantifier": "all modules and orders", "why_tests_cant": "shared mutable context: state leaks only show in particular histories", "anchors": ["whasm/src/validation/module.rs: Func, Elem, Data (ctx.stacks, ctx.locals, ctx.ret)"]}
{"id": "C39", "title": "Immutable globals are never assigned by accepted code", "statement": "No function of an accepted module contains, at any depth, a global.set whose global is immutable (imported or defined).", "quantifier": "all accepted modules", "why_tests_cant": "arbitrary nesting, dead code included", "anchors": ["whasm/src/validation/instr.rs: GlobalSet"]}
{"id": "C40", "title": "Module validation decides WebAssembly 1.0 module validity up to the listed deviations", "statement": "validate() succeeds exactly when every clause of the declarative module validity judgement (in the dialect of the code) holds; acceptance implies WebAssembly 1.0 validity, and conversely, for modules that avoid the listed deviations.", "quantifier": "all modules with well nested code", "why_tests_cant": "conjunction of all checks over all modules", "anchors": ["whasm/src/validation/module.rs: Module"]}
{"id": "C41", "title": "Stray End/Else pseudo instructions are rejected", "statement": "A hand-built module whose code contains an End or Else pseudo instruction is rejected by validation. (Expected to be refuted for Else, proved for End.)", "quantifier": "all module values", "why_tests_cant": "arbitrary position and depth", "anchors": ["whasm/src/validation/instr.rs: Instr::Else, Instr::End"]}
{"id": "C42", "title": "The command line tool exits 0 exactly for readable, well-formed, valid modules", "statement": "The parser binary exits with status 0 exactly when a file name is given, the file can be opened and read, its content parses and the module validates; it prints the module exactly when additionally -p/--print is present; otherwise it exits with 1.", "quantifier": "all argument vectors, file systems and file contents", "why_tests_cant": "all combinations of arguments and contents", "anchors": ["parser/src/main.rs: main, Config::new"]}
{"id": "C43", "title": "From file bytes to exit status", "statement": "The tool exits with 0 exactly when the named file is an encoding (in the dialect of the code) of a module that is valid (in the dialect of the code). Files in the official format whose module is officially valid are accepted if they avoid the listed deviations, and accepted files that avoid them hold officially valid modules.", "quantifier": "all argument vectors, file systems and file contents", "why_tests_cant": "composition of parser, validator and command line over all byte strings", "anchors": ["parser/src/main.rs: main", "whasm/src/binary/module.rs: Module", "whasm/src/validation/module.rs: Module"]}
{"id": "C44", "title": "The parser reads in one pass and its errors are final", "statement": "What a parser reported and consumed depends only on the bytes it consumed: if it stopped with bytes left over, it stops at the same place with the same outcome whatever follows. Hence, when parsing a module fails before the end of the file, no continuation of the consumed bytes is a module.", "quantifier": "all byte strings, all parsers of the crate", "why_tests_cant": "quantifies over all continuations of all inputs", "anchors": ["whasm/src/binary/core/traits.rs: Parse", "whasm/src/binary/core/sized.rs: Sized", "whasm/src/binary/module.rs: Module"]}
{"id": "C45", "title": "A file has one meaning", "statement": "The abstract module the parser returns is the only module the bytes encode, both in the official format and in the dialect of the code; encoded code is prefix-free, so that the boundary of an expression is determined by its bytes.", "quantifier": "all byte strings and modules", "why_tests_cant": "uniqueness over all modules", "anchors": ["whasm/src/binary/module.rs: Module", "whasm/src/binary/instr.rs: Expr"]}
{"id": "C46", "title": "The verdict does not depend on the host's pointer width", "statement": "Validation (and the program's exit status) is the same on 32-bit and 64-bit hosts, with and without overflow checks.", "quantifier": "all argument vectors, files, module values; both widths; overflow checks on and off", "why_tests_cant": "tests run on one host; the difference needs a particular index", "anchors": ["whasm/src/validation/idx.rs: Label", "whasm/src/validation/instr.rs: Instr", "parser/src/main.rs: main"]}
{"id": "C47", "title": "Accepted code does not get stuck", "statement": "Every function of an instance of an accepted file, called with arguments of its parameter types in a store that fits the module, returns results of its result types, traps or runs forever; execution never reaches a point where the specification relies on a fact that validation should have established (missing or ill-typed operands, locals, globals, labels, functions, memories, tables), and immutable globals keep their values.", "quantifier": "all files and module values, stores, host functions that respect types, functions, arguments and lengths of execution", "why_tests_cant": "a statement about all executions of all accepted programs; the crate does not execute code", "anchors": ["whasm/src/validation/instr.rs: Instr", "whasm/src/validation/module.rs: Module"]}
{"id": "C48", "title": "Instantiation of accepted modules does not get stuck", "statement": "Instantiating an accepted module with imports that fit evaluates every initialiser, copies every segment or reports that it is out of bounds, and runs the start function, without getting stuck; the resulting store fits the module (for files that are also officially valid, without exception); element segments change the entries that they are for and nothing else, and no table changes its length.", "quantifier": "all module values, imports and lengths of execution", "why_tests_cant": "quantifies over all modules and stores; the crate does not instantiate", "anchors": ["whasm/src/validation/module.rs: Module", "whasm/src/validation/module.rs: Global"]}
{"id": "C49", "title": "What a file denotes has a canonical file, the only shortest one", "statement": "Re-encoding what the parser returned, canonically, gives a file that parses to the same module; every other file of that module is strictly longer, so each freedom of the format (padding, custom and empty sections, splitting of locals, empty else branches, functions without code) costs bytes; the modules that files denote are exactly the representable ones, and those with an official file are exactly the ones among them whose reserved indices are zero (fewer than 2^32 locals per function). A representable module has files of the length of its canonical one and of every greater length, but that the empty module has none that are longer by one byte or two.", "quantifier": "all byte strings and module values", "why_tests_cant": "minimality and the exact image of the parser quantify over all files", "anchors": ["whasm/src/binary/module.rs: Module", "whasm/src/binary/core/vec.rs: WasmBinaryParse", "whasm/src/binary/core/unsigned.rs: parse_unsigned_leb_128"]}
{"id": "C50", "title": "Exact verdict of the validator on every module value", "statement": "A module value, pseudo instructions included, is accepted exactly when no function body contains End and, reading each Else as a separator between alternatives of the enclosing block or function (each of which must deliver the results on its own), every choice of alternatives is valid under the project's typing rules.", "quantifier": "all module values, contexts and function bodies of any size and nesting", "why_tests_cant": "an exact characterisation over arbitrarily nested code cannot be sampled; modules with stray Else do not come from files", "anchors": ["whasm/src/validation/stacks.rs: Stacks", "whasm/src/validation/instr.rs: Instr", "whasm/src/validation/module.rs: Module"]}
{"id": "C51", "title": "The older declarative parser reads the same files", "statement": "The declarative parser in whasm/src/grammar reads exactly a preamble followed by sections of the format up to the end of the input, in any order and number; it never panics; and the current parser accepts a file exactly when the older one does with ordered sections and matching numbers of functions and bodies, with the module of these sections as its result.", "quantifier": "all byte strings", "why_tests_cant": "equivalence of two parsers quantifies over all files; the older one has only a handful of samples and its macro crate is absent", "anchors": ["whasm/src/grammar/module.rs: Module", "whasm/src/grammar/section.rs: Section", "whasm/src/grammar/core/list.rs: List", "whasm/src/binary/module.rs: Module"]}
{"id": "C52", "title": "Elements of the declarative parser are exact and agree with the current ones", "statement": "Every element of the declarative parser (integers, floats, names, types, expressions, imports, exports, tables, memories, globals, segments, sections) is read exactly in its binary format whatever follows it, ends with a value or an error, and the shared elements end exactly like those of the current parser at every integer width.", "quantifier": "all byte strings, all integer widths, all element parsers for vectors", "why_tests_cant": "exactness of a format and equality of two parsers range over all byte strings and nesting depths", "anchors": ["whasm/src/grammar/core/unsigned.rs: deserialize_unsigned_leb_128", "whasm/src/grammar/core/signed.rs: deserialize_signed_leb_128", "whasm/src/grammar/core/vec.rs: VecVec", "whasm/src/grammar/instr.rs: InstrList", "whasm/src/grammar/ty.rs: Limits"]}
{"id": "C53", "title": "The list of deviations from WebAssembly 1.0 validity is complete and exact", "statement": "A module (from a file, or built without pseudo instructions) that the code accepts is valid in WebAssembly 1.0 exactly when all alignments are natural, globals initialised from a global read an immutable imported global of their type, and imports included there is at most one table and one memory; a valid module is accepted exactly when no branch targets the function's own label, globals initialised from a global read an immutable global of their type at that position among the module's own globals, and all memory limits are below 65536 pages.", "quantifier": "all files and all module values", "why_tests_cant": "absence of further discrepancies is a statement about all modules", "anchors": ["whasm/src/validation/module.rs: Module", "whasm/src/validation/instr.rs: Instr", "whasm/src/validation/ty.rs: Mem"]}
{"id": "C54", "title": "Constants, offsets, data bytes and names do not influence the verdict", "statement": "Two modules that differ only in the values of constants, the immediates of loads and stores, the bytes of data segments, and the names of imports and exports (the exports of both, or of neither, having distinct names) get the same verdict and the same external types.", "quantifier": "all pairs of module values", "why_tests_cant": "relates the verdicts of infinitely many pairs of modules", "anchors": ["whasm/src/validation/instr.rs: Instr", "whasm/src/validation/module.rs: Module", "whasm/src/validation/context.rs: Context"]}
{"id": "C55", "title": "Modules assembled from accepted parts are accepted", "statement": "If every component of a module is, up to a consistent renumbering of indices, a component of some accepted module, and the module defines at most one table and one memory and has distinct export names, it is accepted. In particular the order of definitions, segments, imports and exports makes no difference to the verdict, when indices are renumbered to match, and two accepted modules without imports can be put together exactly when they do not define two tables, two memories or one export name twice.", "quantifier": "all module values, renumberings and lists of parts", "why_tests_cant": "relates the verdicts of infinitely many modules and all renumberings", "anchors": ["whasm/src/validation/context.rs: Context", "whasm/src/validation/idx.rs: Type", "whasm/src/validation/module.rs: Module", "whasm/src/validation/instr.rs: Instr"]}
{"id": "C56", "title": "The text printed on failure identifies the failure", "statement": "Whenever the tool exits with status 1 it prints a text, and for the same command line two runs print the same text only if they failed in the same way: same step, and for parse errors the same error with the same payload.", "quantifier": "all command lines, file systems, operating system error texts", "why_tests_cant": "compares the texts of all pairs of failing inputs; names in messages are arbitrary strings", "anchors": ["parser/src/main.rs: main", "whasm/src/binary/core/error.rs: Error", "whasm/src/validation/error.rs: Error", "whasm/src/binary/core/byte.rs: Byte"]}
{"id": "C57", "title": "The parser fails in exactly the listed ways", "statement": "The errors with which parsing of a module can end are exactly: the payload-free ones; UnexpectedOpcode with Else or Unknown; UnexpectedSectionId with 1 to 11; InvalidSectionId with 12 or more; and InvalidVariantId with the name of a kind of element and a byte that cannot start such an element. In particular SectionSizeMissmatch and FunctionSizeMissmatch never occur.", "quantifier": "all byte sequences, all error values", "why_tests_cant": "that an error never occurs is a statement about all inputs", "anchors": ["whasm/src/binary/core/error.rs: Error", "whasm/src/binary/core/sized.rs: Sized", "whasm/src/binary/module.rs: Module", "whasm/src/binary/instr.rs: Instr", "whasm/src/binary/ty.rs: Limits"]}
{"id": "C58", "title": "Any iterator is parsed like the list of the bytes it yields", "statement": "Parsing a module, or any element, from an arbitrary iterator gives the outcome of parsing the list of the bytes that were pulled: either these bytes settle the outcome whatever would follow, or the iterator ended there and the outcome is that of a file of these bytes. After the first None the iterator is never asked again, and a module is accepted only at that point. An iterator that ends is always parsed to an answer.", "quantifier": "all iterators (any state, endless or not, fused or not), all elements", "why_tests_cant": "quantifies over all iterators, including ones that yield bytes again after None; the tests use slice iterators only", "anchors": ["whasm/src/binary/core/traits.rs: WasmBinary", "whasm/src/binary/core/sized.rs: Sized", "whasm/src/binary/core/sized.rs: Consume", "whasm/src/binary/module.rs: Module", "whasm/src/binary/core/byte.rs: Byte"]}
{"id": "C59", "title": "On an endless iterator parsing stops exactly when a prefix settles an error", "statement": "On an iterator that never ends no module is ever accepted, and parsing returns an error exactly when some finite prefix settles that error whatever follows. Otherwise it does not return: there are endless iterators on which reading one integer, and so reading a module, never stops.", "quantifier": "all endless iterators, all errors", "why_tests_cant": "no test can observe an endless run, and the equivalence quantifies over all iterators", "anchors": ["whasm/src/binary/core/unsigned.rs: parse_unsigned_leb_128", "whasm/src/binary/core/sized.rs: Consume", "whasm/src/binary/module.rs: Module", "whasm/src/binary/core/traits.rs: WasmBinary"]}
{"id": "C60", "title": "The printout of a module identifies the module", "statement": "With -p or --print the text written for an accepted file determines the parsed module: two accepted files have the same printout exactly when they parse to the same module, whatever names, code and data it contains.", "quantifier": "all command lines, file systems and accepted files; any float texts that tell numbers apart and any set of unprintable characters", "why_tests_cant": "compares the printouts of all pairs of modules, with arbitrary nesting, indentation and names that need escapes", "anchors": ["parser/src/main.rs: main", "whasm/src/structure/module.rs: Module", "whasm/src/structure/instr.rs: Instr", "whasm/src/structure/ty.rs: Limits", "whasm/src/structure/idx.rs: Type"]}
{"id": "C61", "title": "Standard output alone tells the verdict", "statement": "The tool prints nothing exactly when the file is accepted and printing was not asked for, and no printout of a module is ever equal to the text of a failure: runs with the same output have the same exit status, whatever the command lines, file names and operating system texts.", "quantifier": "all command lines, file systems, operating system error texts, library texts", "why_tests_cant": "file names, module names and error texts are arbitrary strings; all pairs of runs are compared", "anchors": ["parser/src/main.rs: main", "parser/src/main.rs: Config"]}
{"id": "C62", "title": "== on modules is equality of modules", "statement": "The derived PartialEq of the structure types decides equality: two modules compare equal exactly when they are the same module, so every module is equal to itself, and the relation is symmetric and transitive.", "quantifier": "all pairs and triples of module values, parsed or built by hand", "why_tests_cant": "quantifies over all pairs of modules with code of any depth; the tests compare one module, which contains no floating point constant", "anchors": ["whasm/src/structure/module.rs: Module", "whasm/src/structure/instr.rs: Instr", "whasm/src/structure/ty.rs: Limits", "whasm/src/structure/idx.rs: Type", "whasm/src/binary/instr.rs: Instr"]}
{"id": "C63", "title": "Errors in code and types are reported at the first offending byte", "statement": "Parsing an element that contains no names and no announced sizes (numbers, types, instructions, expressions, function bodies, globals, element and data segments, descriptors and vectors of these) reports UnexpectedEndOfFile exactly for the inputs that are incomplete but can still be completed, having read all of them; any other error is reported exactly when some byte makes completion impossible, and then all bytes up to the first such byte, and it, have been read and none behind it.", "quantifier": "all such elements, all inputs of any length, all positions of the first offending byte", "why_tests_cant": "that a prefix can be completed, and that no continuation behind the offending byte could have, quantifies over all continuations; nesting of code is unbounded", "anchors": ["whasm/src/binary/instr.rs: Expr", "whasm/src/binary/instr.rs: SubExpr", "whasm/src/binary/instr.rs: IfInstr", "whasm/src/binary/core/unsigned.rs: parse_unsigned_leb_128", "whasm/src/binary/core/signed.rs: parse_signed_leb_128", "whasm/src/binary/core/vec.rs: Vec", "whasm/src/binary/ty.rs: Limits"]}
{"id": "C64", "title": "No host runs out of address space while parsing", "statement": "The memory that the parser asks for, in advance for announced vectors and while vectors grow, never exceeds what a host can address, so on every host the outcome of parsing is that of the ideal parser (never a panic): at most two announced vectors are ever unfilled, none in accepted files, growing vectors are bounded by the bytes read, and an accepted file can be read wherever the file and each function's local variables fit. (The call stack is the subject of C68.)", "quantifier": "all byte sequences of any length, all hosts (address space, element sizes, growth policy)", "why_tests_cant": "hosts with 32-bit addresses and requests for gigabytes are outside any test run, and the bound concerns every file at once", "anchors": ["whasm/src/binary/core/vec.rs: Vec", "whasm/src/binary/core/vec.rs: CompactVec", "whasm/src/binary/core/vec.rs: UnwrappingVec", "whasm/src/binary/instr.rs: SubExpr", "whasm/src/binary/module.rs: Module"]}
{"id": "C65", "title": "Which error is reported, and where", "statement": "Whether reading fails, with which error, and how much of the input is left unread then, is determined by the binary grammar alone: the input consists of complete elements followed by the element to blame (an integer cut off or out of range, a reserved tag or opcode, a misplaced else, a name that is not UTF-8, an announced size that is too small or too large, a section out of order or unknown, a wrong number of bodies), the error is the one for that element, and every input is either a module or blamed in exactly one way.", "quantifier": "all byte sequences of any length, for the module parser and for every element parser", "why_tests_cant": "every rejected byte string at every nesting depth has its own error and position; tests look at a few", "anchors": ["whasm/src/binary/core/error.rs: Error", "whasm/src/binary/core/sized.rs: Sized", "whasm/src/binary/core/vec.rs: Vec", "whasm/src/binary/instr.rs: Instr", "whasm/src/binary/ty.rs: Limits", "whasm/src/binary/module.rs: Module"]}
{"id": "C66", "title": "The whole program on its host never crashes", "statement": "The program of parser/src/main.rs, run on a host with a word size of 32 or 64 bits, with or without overflow checks, and with whatever its memory allocator answers (to the parser and to the validator) and wherever its call stack overflows, either crashes or behaves as on an unlimited machine; given a file name it never crashes. (The second half holds on 64-bit hosts for files below 512 MiB, and on 32-bit hosts for accepted files whose bytes and local variables fit into memory, when the code is not nested too deeply for the stack; it is false on 32-bit hosts in general, for rejected and for accepted files, and for files that can be read and then not be checked.)", "quantifier": "all files, all command lines, all allocators that answer as Vec documents, both word sizes, with and without overflow checks", "why_tests_cant": "tests run on one 64-bit host with enough memory", "anchors": ["parser/src/main.rs: main", "whasm/src/binary/core/vec.rs: Vec", "whasm/src/binary/module.rs: Func", "whasm/src/validation/stacks.rs: label"]}
{"id": "C67", "title": "Files of WebAssembly 2.0 are rejected or read as what they are", "statement": "WebAssembly 2.0 uses the magic number and version of 1.0. If a file is a module of 2.0 and whasm reads it, then whasm's module is that of 2.0, apart from element and data segments, and different modules stay different; if moreover whasm accepts it, it is that of 2.0. (The last part is proved for modules with at most one table and one memory, and false with more tables: an element segment that begins with the flag 2 is taken for one of table 2, and a file exists that is accepted as a module that puts 11 functions into table 2 instead of 9 into table 65.)", "quantifier": "all byte sequences that are modules in the binary format of WebAssembly 2.0, in all encodings of integers", "why_tests_cant": "it relates two grammars over all files; a file that both read differently has to be constructed", "anchors": ["whasm/src/binary/module.rs: Elem", "whasm/src/binary/module.rs: Data", "whasm/src/binary/module.rs: Module", "whasm/src/binary/instr.rs: Instr", "whasm/src/binary/ty.rs: RetVal"]}
{"id": "C68", "title": "No file exhausts the call stack", "statement": "Reading, validating, printing and dropping nested code recurs, and no file makes the recursion exceed the call stack of the host. (What holds: while a file is read, calls nest at most half as deeply as the file has bytes and never 2^31 levels deep, and exactly as deeply as the code of the file when it is accepted, so that files short compared to the stack never crash the program; valid code can be nested exactly 1431655762 levels deep and no deeper. The claim itself is false: for every host with fewer levels of stack than that there is a valid file of nested empty blocks, three bytes for each level of its stack and 35 more, that crashes the program, however much memory there is.)", "quantifier": "all files, all hosts (stack, memory, word size)", "why_tests_cant": "the depth of recursion is not an observable result, and a test would have to crash its own process", "anchors": ["whasm/src/binary/instr.rs: SubExpr", "whasm/src/binary/instr.rs: Instr", "whasm/src/validation/instr.rs: Instr", "whasm/src/structure/instr.rs: Instr", "parser/src/main.rs: main"]}
{"id": "C69", "title": "The verdict on a component depends only on what its indices denote", "statement": "A module is accepted exactly if each of its components (types, functions, tables, memories, globals, segments, start, imports, exports) is a component of some accepted module, with indices that denote the same things as far as the component uses them, and there is at most one table and one memory defined and no export name twice. Hence an accepted module stays accepted when definitions that nothing uses are removed, closing up the indices, and of equal types any one can be used without changing the verdict.", "quantifier": "all modules; all sources of components and all renumberings; all sets of definitions closed under use; all maps of type indices to indices of equal types", "why_tests_cant": "it relates the verdicts of infinitely many modules; a test sees one pair", "anchors": ["whasm/src/validation/context.rs: Context", "whasm/src/validation/module.rs: Module", "whasm/src/validation/instr.rs: Instr"]}
{"id": "C70", "title": "Memory used by validation", "statement": "While a module is validated, the operand stack never holds more operands than one expression has instructions, the control stack no more frames than its code is nested deeply plus one, the context no more entries than the module has components, and the remaining vectors are those of imports, exports and of the parameters and local variables of each function; for a module read from a file all but the last are bounded by the length of the file. In accepted modules the vectors of imports, exports, parameters and local variables are requested at exactly these sizes and the control stack reaches every height up to its bound, and valid modules pile up operands without bound. Want of memory never changes the verdict, except into a crash.", "quantifier": "all modules with well-nested code, all files, all hosts (address space, element sizes, allocator), both word sizes, with and without overflow checks", "why_tests_cant": "memory use is not an observable result, and the bound concerns every module at once", "anchors": ["whasm/src/validation/stacks.rs: push_operands", "whasm/src/validation/stacks.rs: push_frame", "whasm/src/validation/context.rs: Context", "whasm/src/validation/module.rs: Module", "whasm/src/validation/module.rs: Func"]}
{"id": "C71", "title": "Public validation calls on one context", "statement": "No sequence of calls of the public validation interface on one context (validate of instructions, expressions, types, indices, module components and modules, the methods of Stacks and Context), applied to any values and whichever of them fail, panics, provided that the frames recorded in the context are in order at the beginning, as they are in a new one; they stay in order. Validation of a module accepts exactly when the corresponding calls, one after another, all succeed, the module has at most one table and memory, and its export names differ. Calls that only look (validate of types, limits, indices, imports, exports, start functions, tables, memories and modules) change nothing and accept exactly what the text of the rule says: an index below the number of entries, limits in range and in order, at most one result, a start function without parameters and results. The methods of Stacks do what a small inductive definition says, on success and on failure.", "quantifier": "all contexts with frames in order, all sequences of public calls with all arguments, including code with stray pseudo instructions, and all their outcomes", "why_tests_cant": "states left behind by failed calls are unboundedly many, and tests only validate whole modules in fresh contexts", "anchors": ["whasm/src/validation/mod.rs: Validate", "whasm/src/validation/stacks.rs: Stacks", "whasm/src/validation/context.rs: Context", "whasm/src/validation/instr.rs: Instr", "whasm/src/validation/module.rs: Module"]}
{"id": "C72", "title": "Verdicts in a used context", "statement": "For components whose code has no pseudo instructions: what is accepted in a context after the validation of any other components, with whatever results, is accepted in the context as it was; if none of them failed, the converse holds as well. Once a function whose type exists has failed, no function, global, element segment or data segment is accepted in that context any more, not even valid ones; with pseudo instructions, or for local indices, something invalid can be accepted after a failure.", "quantifier": "all contexts with empty stacks, all sequences of components, all outcomes", "why_tests_cant": "concerns every history of a context, including failed ones that no test keeps", "anchors": ["whasm/src/validation/module.rs: Func", "whasm/src/validation/module.rs: Global", "whasm/src/validation/module.rs: Elem", "whasm/src/validation/module.rs: Data", "whasm/src/validation/stacks.rs: pop_frame"]}
{"id": "C73", "title": "Time of validation", "statement": "Counting as a step each instruction visited, operand or frame pushed or popped, index looked up and element that a loop visits, compares or collects (but not the library's sorting of export names): validating an accepted module takes exactly the number of steps that follows from its text, namely one for each instruction, index in it, operand that its type takes or gives and frame, one for each local variable and parameter of each function, and a fixed number for each component; a rejected module takes no more than that. For a module read from a file the steps are at most the square of the length of the file plus the number of local variables declared, and there are accepted files without local variables whose steps do grow with the square of the length, so that no fixed number of steps for each byte (up to 2^20) is enough.", "quantifier": "all modules without pseudo instructions in their code, accepted or not; all files that can be read", "why_tests_cant": "a bound on the running time is a statement about all inputs; tests measure a few", "anchors": ["whasm/src/validation/module.rs: Module::validate, Func::validate", "whasm/src/validation/instr.rs: Instr::validate", "whasm/src/validation/stacks.rs: Stacks", "whasm/src/validation/context.rs: Context::from"]}
{"id": "C74", "title": "Time of parsing", "statement": "Counting as a step each call of next on the iterator or on an adapter around it, each round of a loop, each element pushed and each byte looked at as part of a string: parsing calls next on the iterator that it is given once for every byte that it consumes, never again after the iterator has ended, and exactly one time more than the file has bytes if it is accepted; it takes at most eight steps for each byte consumed and one more, whether it succeeds or fails, apart from the copies of types of local variables. Of these there are exactly as many as the accepted module declares, which can be 2^32-1 for a file of 30 bytes, and in any case at most (2^32-1)/6 for each byte consumed. Parsing and validation together take at most n^2+8n+1 steps and two for each local variable declared, for a file of n bytes.", "quantifier": "all byte sequences, accepted or not, and all iterators, ending or not", "why_tests_cant": "a bound on the running time is a statement about all inputs, and the calls of an iterator are not observed by any test", "anchors": ["whasm/src/binary/module.rs: Module::parse, sections", "whasm/src/binary/instr.rs: Instr::parse, sub-expressions", "whasm/src/binary/core/vec.rs: Vec, compact vectors", "whasm/src/binary/core/sized.rs: windows", "whasm/src/binary/core/string.rs: String"]}
{"id": "C75", "title": "Errors and modules as values, and their debug texts", "statement": "Two errors of the parser are equal for == exactly when they are the same variant with the same fields. The debug text of an error, in one line ({:?}) or in several ({:#?}), tells it apart from every other error, unlike the text that is shown to the user; in particular for any two files that fail. The one-line debug text of a module contains no line end and determines the module, up to the payload of NaNs. A Byte equals an integer or a character exactly when that is what it converts to, and equals another Byte exactly when it is the same.", "quantifier": "all errors, all modules with UTF-8 names, all bytes, all files that fail to parse", "why_tests_cant": "that different values have different texts is a statement about all pairs of values; names may contain any text, including quotes and brackets", "anchors": ["whasm/src/binary/core/error.rs: Error", "whasm/src/binary/core/byte.rs: PartialEq, Debug, From", "whasm/src/binary/core/sized.rs: PartialEq, Debug", "whasm/src/structure/module.rs: Module", "whasm/src/validation/error.rs: Error"]}
{"id": "C76", "title": "Validation stops at the first instruction that cannot be part of valid code", "statement": "Take any beginning of a function body, ending anywhere, also inside nested blocks. Either it can be completed to a body that the validator accepts, or every body that begins so is rejected after the same number of steps, with the same error and the same contents of the stacks: the validator never looks at anything after the first instruction that makes the code invalid. For naturally aligned code this holds with the typing rules of WebAssembly 1.0: a beginning that no well typed body has is never passed.", "quantifier": "all contexts, all types and locals of the function, all beginnings without pseudo instructions, and all that may follow", "why_tests_cant": "that no continuation is valid quantifies over all continuations, and tests do not observe how far the validator gets", "anchors": ["whasm/src/validation/instr.rs: Instr::validate", "whasm/src/validation/module.rs: Func::validate", "whasm/src/validation/stacks.rs: Stacks"]}
{"id": "C77", "title": "The stacks describe exactly the types that code can leave", "statement": "Validating a sequence of instructions from any state of the stacks turns a description of the operand types before it into one of those after it. On success the operand lists that the new state stands for are exactly those that the typing rules allow the code to leave, from some list that the old state stands for: an unknown operand stands for every type, and the mark of unreachable code for any operands below. The sequence is rejected exactly if the rules allow no result from any list that the old state stands for. The operands and frames below are untouched. The premise on the alignment of memory accesses is left out: the code does not check it as the rules say (C26).", "quantifier": "all contexts, all sequences of instructions without pseudo instructions, all ordered states with at least one frame, and all lists of types", "why_tests_cant": "a test sees whether one body is accepted, not that the state between two instructions stands for all and only the possible types", "anchors": ["whasm/src/validation/instr.rs: Instr::validate", "whasm/src/validation/stacks.rs: Stacks"]}
{"id": "C78", "title": "Code can be replaced exactly by code with the same types", "statement": "Take two sequences of instructions, the labels around them, the type and the locals of a function. The second can take the place of the first everywhere in the bodies of such functions, at any depth below those labels, without an accepted function becoming rejected, exactly if it has every type that the first has by the typing rules (without alignment). The same holds for modules with such a function: they stay accepted. So nop can be put in and taken out anywhere, local.tee is as good as local.set and local.get, the branches of an if can be exchanged behind i32.eqz, and code after a jump can be removed.", "quantifier": "all contexts, function types, locals, labels, places in code and sequences of instructions without pseudo instructions", "why_tests_cant": "quantifies over all surrounding code, with nesting of any depth", "anchors": ["whasm/src/validation/instr.rs: Instr::validate", "whasm/src/validation/module.rs: Func::validate", "whasm/src/validation/stacks.rs: Stacks"]}
{"id": "C79", "title": "The complete list of differences from validity in WebAssembly 2.0", "statement": "A module that the validator accepts is valid by the rules of WebAssembly 2.0, which share the version number of 1.0, exactly if every memory access has at most its natural alignment, initialisers of globals that read a global read an imported constant of the right type (and offsets too, where 2.0 does not show them the module's own globals), and there is at most one memory counting imported ones. A module that is valid in 2.0 is accepted exactly if its function types have at most one result, no branch targets the label of the function itself, the labels of every br_table have one type, initialisers of globals that read a global read one of the module's own globals at that index, it defines at most one table, and no memory exceeds what the validator allows. Both hold for every file that is read, and for the module that 2.0 sees in the file if that has at most one table and memory.", "quantifier": "all modules without pseudo instructions and with block results of at most one type; all files; all typings of the instructions with a prefix byte", "why_tests_cant": "an exact list of the differences between two verdicts over all modules; a test exhibits one module", "anchors": ["whasm/src/validation/module.rs: Module::validate", "whasm/src/validation/instr.rs: Instr::validate", "whasm/src/validation/ty.rs: FuncType::validate, Limits::validate"]}
{"id": "C80", "title": "The complete list of differences from the official binary format", "statement": "A file that the parser reads is a module file by the binary format of WebAssembly 1.0 exactly if it keeps four restrictions that the parser does not check: no integer takes more bytes than its size allows, the reserved index of call_indirect, memory.size and memory.grow is a single zero byte, no function has 2^32 or more locals, and every declared function has a body. No other restriction separates the two formats, none of the four follows from the other three, and a file means the same module with and without them. Together with C53: a file that is read and accepted is an official file of an officially valid module exactly if it keeps the four and what the validator does not check; an official file of an officially valid module is read and accepted exactly if it satisfies what the validator demands in addition.", "quantifier": "all byte strings; all dialects of the format for the claim that a file has one meaning", "why_tests_cant": "an exact list of the differences between two sets of byte strings; a test exhibits one file", "anchors": ["whasm/src/binary/core/unsigned.rs: parse_unsigned_leb_128", "whasm/src/binary/core/signed.rs: parse_signed_leb_128", "whasm/src/binary/instr.rs: Instr", "whasm/src/binary/core/vec.rs: CompactVec<T>", "whasm/src/binary/module.rs: impl WasmBinaryParse for module::Module"]}
{"id": "C81", "title": "Sections can be exchanged between files", "statement": "A file that the parser reads is cut into sections (an identifier, a size, that many bytes) in exactly one way. Sections picked by kind from two such files make a file that is read as the module that has the picked components, provided function and code section are picked from the same file or both files have the same, non-zero number of functions; likewise a section can be replaced where it stands by one of the same kind of another such file, and sections of any kind but the function section can be left out. Whether a file is read is decided by the order of its sections and by each section alone, function and code section together.", "quantifier": "all byte strings; all sequences of sections; all choices of kinds", "why_tests_cant": "quantifies over all pairs of files and all 2^12 choices of kinds; a test fixes two files", "anchors": ["whasm/src/binary/module.rs: impl WasmBinaryParse for module::Module", "whasm/src/binary/core/sized.rs: Sized"]}
{"id": "C82", "title": "Every request for memory of validation follows from the text", "statement": "For a module without pseudo instructions in its code and with immediates in range, such as every module read from a file, the requests for memory that validation makes of its vectors (how many references, frames, operands or externals a vector is to hold) are, in order, those of a list that follows from the text of the module alone: the lengths of its index spaces, the numbers of parameters, results and local variables of its functions, and for each instruction the numbers of operands that it takes and gives, where instructions after an unconditional branch may take operands that are not there. If the module is accepted, exactly these requests are made, the same on all hosts, with and without overflow checks; if it is rejected, a beginning of the list. Hence an allocator lets a valid module pass exactly if it grants every request of the list, and granting them all is enough for any such module to get the result that it gets without want of memory.", "quantifier": "all modules whose code has no pseudo instructions and whose immediates are in range, accepted or not; all files that can be read; all allocators; word sizes of at least 32 bits; with and without overflow checks", "why_tests_cant": "requests for memory are not an observable result, and the list is claimed for every module and every allocator", "anchors": ["whasm/src/validation/stacks.rs: push_operands", "whasm/src/validation/stacks.rs: push_frame", "whasm/src/validation/instr.rs: Instr", "whasm/src/validation/context.rs: Context", "whasm/src/validation/module.rs: Module"]}
{"id": "C83", "title": "How long the printout of a module is", "statement": "The number of lines that `--print` writes for a module follows from the text of the module alone: each component takes a fixed number of lines plus those of what it contains, whatever the standard library writes for floating point numbers and unprintable characters. For a module read from a file of n bytes that declares d local variables, three times the number of lines is at most 14 n + 3 d - 76; nested conditionals with a result reach fourteen lines for every three bytes, and a file of at most 38 bytes can declare any number of local variables below 2^32 and print a line for each. No line is so long that the number of characters exceeds lines times (6 n + 46 + k), where k is the length of the longest floating point number; files of at most 3 j + 32 bytes of j nested blocks, all valid, print at least 54 j^2 characters, so that the text can grow with the square of the file.", "quantifier": "all modules whose names are UTF-8 (lines), all files that can be read (bounds), all behaviours of the standard library that write distinct texts for distinct numbers", "why_tests_cant": "the bounds are over all files and the families that reach them are unbounded", "anchors": ["parser/src/main.rs: main", "whasm/src/structure/module.rs: Module", "whasm/src/structure/instr.rs: Instr", "whasm/src/structure/ty.rs: Limits", "whasm/src/structure/idx.rs"]}
{"id": "C84", "title": "An iterator that panics makes parsing panic exactly if it is asked for the byte that it cannot give", "statement": "If the iterator that a module is parsed from panics after yielding the bytes l, as `reader.bytes().map(|b| b.unwrap())` does when reading fails, then parsing panics exactly if no beginning of l settles an error, that is, makes parsing report it whatever follows; otherwise it reports that error and the panic is not met. So a file that can only be read in part is never taken for a module, not even when all of its bytes but not its end could be read, and an error that is reported is that of the whole file. Parsing panics exactly if the number of bytes before the panic is smaller than the number of calls of `next` that the file takes. Whatever else an iterator does, the last call it gets settles the outcome, ends the input or panics; the same holds for each element that can be parsed, and an iterator that does not panic is parsed as in C58.", "quantifier": "all iterators over bytes, with any state, that may panic, end or resume at any call; all elements and modules", "why_tests_cant": "iterators, files and the places where reading fails are unbounded in number", "anchors": ["whasm/src/binary/core/traits.rs: WasmBinary", "whasm/src/binary/core/byte.rs: Byte", "whasm/src/binary/core/sized.rs: Sized", "whasm/src/binary/module.rs: Module"]}
{"id": "C85", "title": "What can be appended to a file", "statement": "Bytes can be appended to a file that the parser accepts, giving one that it accepts, exactly if they are a sequence of sections such that the sections of both together are in order, each of them but function and code sections could stand alone, and the function and code sections of both together are accepted; no component that the module had before is changed by that. One byte or two can never be appended: the error is UnexpectedSectionId with the first byte, unless that is 0, if a section of that or of a later kind is in the file already, InvalidSectionId if it is above 11, and UnexpectedEndOfFile otherwise, so that for a newline at the end of a file it is one of the first and the last; the first two errors are reported at once, whatever follows. A file can be padded, without a change to its module, by any number of bytes but one and two; zeros are no padding, and two modules in one file are an error, both as UnexpectedEndOfFile.", "quantifier": "all byte strings that are accepted, all that can follow them", "why_tests_cant": "files and what can be appended to them are unbounded", "anchors": ["whasm/src/binary/module.rs: Module", "whasm/src/binary/core/sized.rs: Sized", "whasm/src/binary/core/error.rs: WasmBinaryParseError"]}
{"id": "C86", "title": "Modules can be linked statically", "statement": "If two modules are accepted and every import of the second is the name of an export of the first that has exactly the type asked for, then the linked module, which has everything of the first and behind it everything of the second except the imports, with every reference to an import replaced by one to the export of its name and every other index moved, is accepted exactly if the two do not define two tables, two memories or one export name twice. More generally a module put together from components of accepted modules is accepted if every reference leads to something of the same type as before, even if equal types have different indices.", "quantifier": "all pairs of module values, all lists of parts and renumberings", "why_tests_cant": "relates the verdicts of infinitely many pairs of modules", "anchors": ["whasm/src/validation/context.rs: Context", "whasm/src/validation/module.rs: Module", "whasm/src/validation/instr.rs: Instr", "whasm/src/validation/idx.rs: Type"]}
{"id": "C87", "title": "Every request for memory of reading a file follows from what the file says", "statement": "The vectors that reading an accepted file asks for, and the depths of its calls, are exactly, and in this order, those that follow from its sections: room for all elements of a vector at its beginning, for the name of each custom section, for the instructions of a sequence one after the other and for local variables group by group. How a module is written only matters for custom sections, empty sections, the grouping of local variables and empty branches. The shortest file of a module asks for nothing that another file of it does not ask for, so that on any host on which some file of a module can be read the shortest one can be read, and on which the program accepts some file of a module it accepts the shortest one.", "quantifier": "all accepted byte sequences, all cuts into sections, all allocators", "why_tests_cant": "about infinitely many files of a module and all allocators; requests are not visible from outside", "anchors": ["whasm/src/binary/core/vec.rs: Vec", "whasm/src/binary/core/vec.rs: CompactVec", "whasm/src/binary/instr.rs: SubExpr", "whasm/src/binary/module.rs: Module"]}
{"id": "C88", "title": "How long reading a file takes, to the step", "statement": "The number of steps (bytes taken from the iterator and through each adapter around it, rounds of loops, elements pushed) that reading an accepted file takes is determined, to the step, by what the file says: one for each byte, one more behind the preamble, two more for each size that the byte is behind, two for each element of a vector and each instruction, one for each end of a sequence, for each group of local variables, for the type of each function and for each section, three for each byte of a name, three for the rest of each custom section, and three at the end. The bound of eight steps per byte (C74) is reached: there are files of any length up to 2 GiB that take eight steps per byte up to a constant.", "quantifier": "all accepted byte sequences, all cuts into sections, all lengths up to 2 GiB", "why_tests_cant": "steps are not visible from outside, and equality is claimed for infinitely many files", "anchors": ["whasm/src/binary/core/vec.rs: Vec", "whasm/src/binary/core/sized.rs: Sized", "whasm/src/binary/core/string.rs", "whasm/src/binary/instr.rs: SubExpr", "whasm/src/binary/module.rs: Module"]}
{"id": "C89", "title": "A call can be replaced by the body of the function", "statement": "Replacing a call of a function of the module, wherever it is, by the body of that function - the arguments and other variables of the function in fresh variables of the caller, the latter set to zero, and returning made a branch out of a block around the body - keeps officially valid modules valid and accepted modules accepted; when the fresh variables are there already and the function itself stays, exactly the same modules are accepted with the call and with the body. On any machine on which constants 0 are 0, every call of every function of an instance then has the same result, effect on the store and use of fuel as before, unless it got stuck before, which it does not for accepted modules.", "quantifier": "all modules, places, functions called (also recursively), machines, stores, arguments, fuel", "why_tests_cant": "the claim is about all pairs of modules related by the replacement and all their executions", "anchors": ["whasm/src/validation/instr.rs: Instr::Call", "whasm/src/validation/instr.rs: Instr::LocalSet", "whasm/src/validation/module.rs"]}
{"id": "C90", "title": "Code that does the same can be exchanged", "statement": "If a sequence of instructions does whatever another one does, given enough fuel, among any functions, labels and from any configuration, then with the one in the place of the other, anywhere in a function of a module, every call of a function of an instance gives what it gave before, including traps and not ending; a call that ends with some fuel ends the same with more. This holds for the exchanges under which acceptance is invariant (C78): nop, tee, exchanged branches, removed code after jumps.", "quantifier": "all modules, places, sequences of instructions, machines, stores, arguments", "why_tests_cant": "the claim is about all contexts and all executions", "anchors": ["whasm/src/validation/instr.rs", "whasm/src/structure/instr.rs: Instr"]}
{"id": "C91", "title": "The numbers of the variables of a function do not matter", "statement": "If the variables that a function names are given other numbers, under which variables of the same types are declared, the verdict on the module and its validity in WebAssembly 1.0 are the same, even if several variables fall together. If different variables stay different, parameters stay where they are and no other variable becomes one, every call of every function of an instance, and instantiation, does exactly the same with the same fuel. In particular variables that are not named can be left out, and variables can be declared in any order.", "quantifier": "all modules, functions, numberings, machines, stores, arguments", "why_tests_cant": "the claim is about all numberings of all functions and all executions", "anchors": ["whasm/src/validation/instr.rs: LocalGet, LocalSet, LocalTee", "whasm/src/validation/idx.rs: LocalIdx", "whasm/src/validation/module.rs: Func"]}
{"id": "C92", "title": "A block to which no branch goes can be dissolved", "statement": "If no branch in the code of a block goes to the end of the block, the code can stand in the place of the block, with the labels outside one closer: a valid module stays valid and an accepted one stays accepted. Every call that ends ends the same without the block, with the same fuel, and so does instantiation; a call that ends without the block ends the same with it, or gets stuck, with at most twice the fuel and one more. So in accepted modules exactly the same calls end, with the same results.", "quantifier": "all modules, functions, places in them, blocks, machines, stores, arguments", "why_tests_cant": "the claim is about all blocks at all places of all functions and all executions", "anchors": ["whasm/src/validation/instr.rs: Block, Loop, If, Br, BrIf, BrTable", "whasm/src/validation/idx.rs: LabelIdx", "whasm/src/validation/module.rs: Func"]}
{"id": "C93", "title": "A loop to which no branch goes is a block", "statement": "If no branch in the code of a loop goes to the loop, the loop can be written as a block and the block as the loop: the module is valid with the one exactly if it is valid with the other, and accepted with the one exactly if it is accepted with the other. With the same fuel the two do the same in every configuration, and so every call of a function of an instance gives the same result with the one as with the other.", "quantifier": "all modules, functions, places in them, loops, machines, stores, arguments, amounts of fuel", "why_tests_cant": "the claim is about all loops at all places of all functions and all executions", "anchors": ["whasm/src/validation/instr.rs: Block, Loop, Br, BrIf, BrTable", "whasm/src/validation/idx.rs: LabelIdx", "whasm/src/validation/module.rs: Func"]}
{"id": "C94", "title": "Simpler code for short pieces of code", "statement": "Eleven short pieces of code have simpler ones that may be written for them anywhere in a function: a local or global read and dropped, a local.tee whose value is dropped or set again, an if with the same code or no code in both branches, a br_table whose last entry is the default or which has only the default, and empty blocks and loops. A valid module stays valid, an accepted one stays accepted, with the same fuel the simpler piece does in every configuration what the other does unless that gets stuck, and every call of a function of an instance gives the result that it gave.", "quantifier": "all modules, functions, places in them, variables, labels, codes, machines, stores, arguments", "why_tests_cant": "the claim is about all places of all functions and all executions", "anchors": ["whasm/src/validation/instr.rs: Drop, LocalGet, LocalSet, LocalTee, GlobalGet, Block, Loop, If, Br, BrTable", "whasm/src/validation/module.rs: Func"]}
