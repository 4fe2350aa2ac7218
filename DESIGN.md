# Formal model of jprendes/whasm in Rocq (Coq 8.16.1)

## What is modelled

The crate compiles `structure`, `binary` and `validation` (`whasm/src/lib.rs`) and the CLI
`parser/src/main.rs`. All of it is modelled, function by function, as total computable Gallina:

| Rust | model file |
|---|---|
| `structure/*.rs` | `Structure.v` (abstract syntax) |
| `binary/core/{traits,byte,unsigned,signed,float,array,vec,sized,string,error,result}.rs` | `ParserCore.v` |
| `binary/{idx,ty,instr}.rs` | `ParserInstr.v` |
| `binary/module.rs` | `ParserModule.v` |
| `validation/{stacks,idx,ty,instr}.rs` | `Validator.v` |
| `validation/{context,module}.rs` | `ValidatorModule.v` |
| `parser/src/main.rs` | `Cli.v` |
| `binary/core/error.rs` and `validation/error.rs` (`display`), `byte.rs:60-64`, `println!` of `main.rs` | `Display.v` |
| `println!("{:#?}", module)` of `main.rs:46-48`, the derived `Debug` of `structure/*.rs` | `DebugText.v` |
| `{:?}`; `Debug` and `PartialEq` of both `Error` types; `Debug`, `PartialEq`, `From` of `Byte`; `Debug`, `PartialEq` of `Sized` | `DebugLine.v` |
| the derived `PartialEq` of `structure/*.rs` (`==` on modules; on instructions also `binary/instr.rs:256,264`) | `Equality.v` |
| the parser again on arbitrary iterators, with `Take`, `Inspect`, `Peekable` and `count` | `ParserIter.v` |
| the parser on iterators whose `next` may panic | `ParserFaulty.v` |
| the parser with its vectors: `Vec::with_capacity`, `push` | `ParserAlloc.v` |
| the validator with its vectors: `push`, `collect` | `ValidatorAlloc.v` |
| the validator and CLI again with a `usize` of 32 or 64 bits | `ValidatorHost.v` |
| the CLI on a host: word size, overflow checks, memory | `ProgramHost.v` |
| `grammar/**` (an older declarative parser, no longer declared in `lib.rs`) | `Grammar.v` |

`grammar/**` is not compiled and its derive macro lives in the absent crate `whasm_grammar_derive`. The hand-written parts
(integers, floats, strings, vectors, lists, expressions, `if`) are modelled line by line; what the macro generates is modelled after its
documentation in `grammar/core/derive.rs` (fields in order, `discriminant`, `sized`, `forward`, `matching`). C51 and C52
depend on that documentation being right; nothing else does.

Not modelled: `#[cfg(test)]` code.

### Modelling conventions
* A byte iterator is the finite list of bytes still to be yielded (C58 proves that this loses nothing); a parser is
  `list byte -> outcome A * list byte`, the second component being the iterator after the call, also after an
  error. `outcome` is `Ok | Err e | Panic | OutOfFuel`. Every `unwrap`, indexing and over-wide shift of the
  Rust code is an explicit `Panic` branch; recursion that is not structural uses fuel and reports `OutOfFuel`.
  Theorems prove both are unreachable.
* `u32`/`u64` are `N`, `i32`/`i64` are `Z`, machine wrap-around is written out in the LEB code; floats are
  their bit patterns (`N`). Ranges are theorems (C24), not types.
* Rust `String` is its UTF-8 byte list; `String::from_utf8` (std) is modelled by Unicode table 3-7.
* Operand and frame stacks are lists whose head is the top (Rust: end of the `Vec`).
* Not modelled: I/O (an oracle in `Cli.v`). Memory and the call stack are unlimited in the parser
  model proper; `ValidatorState.v` is the validator with the context that a failed call leaves behind (C71-C72), `ValidatorCost.v`
  the validator with the steps it takes, where indexing, comparing two types and an amortised `push` take one step and the
  library's `sort` and `dedup` of export names are left out (C73), `ParserCost.v` the parser with the steps it takes, where
  a number costs a step for each of its bytes, `push` one on the average, and moving a value that was read none (C74); `ParserAlloc.v`, `ValidatorAlloc.v` and `ProgramHost.v` add them (C64, C66, C68, C70).
* In `ParserIter.v` an iterator is any state with a `next` function; a parser is generic in it. Loops over such an
  iterator need not end, so each is bounded by a fuel; `OutOfFuel` means "still running", and more fuel never changes an
  answer (C58).
* In `ParserFaulty.v` a call of `next` may also panic. Nothing in the code catches a panic or implements `Drop`, so the outcome is `Panic`,
  and the state is the one in which the iterator was called (C84).

* In `DebugText.v` the pretty printer of the standard library (`PadAdapter`, `debug_struct`, `debug_tuple`, `debug_list`,
  `escape_debug`) is written out. The texts of floating point numbers and the set of unprintable characters depend on
  the library's version and are parameters (`std_texts`), the same for `{:?}` and `{:#?}`; C60 and C75 assume of them `honest` (`SpecDebug.v`): different numbers
  have different texts, all NaNs the same, made of letters, digits and `+-.`. A concrete instance is shown to meet it.

## Specifications (independent of the model)
* `SpecFormat.v`: the binary grammar as relations "these bytes encode this value", parameterised by a
  *dialect* (official WebAssembly 1.0 vs what whasm accepts).
* `SpecUtf8.v`: UTF-8 as encoding of Unicode scalar values.
* `SpecTyping.v`, `SpecModule.v`: declarative typing and module validity from the WebAssembly 1.0
  specification, again with a dialect record that makes each deviation of the code an explicit switch.

* `SpecRefs.v`: branch targets, references into index spaces, alignments; `SpecEdit.v`: modules that differ in
  one component; `SpecVerdict.v`, `SpecCli.v`: how verdicts and command lines are read.
* `SpecExec.v`: execution and instantiation (chapter 4 of the specification) as an interpreter with fuel that reports
  "stuck" wherever the specification relies on validation; numerics, memories and host functions are parameters.
* The 1.0 syntax has at most one block result; the abstract syntax of the code has a list. The typing rules here
  are the same rules for lists; parsed code has at most one (C11).

## Trusted base
The Coq 8.16.1 kernel and `vm_compute`; that the model files transcribe the Rust text (each definition cites file
and lines); that the `Spec*.v` files say what the WebAssembly specification says. No axioms: every property
theorem is followed by `Print Assumptions`, and all report "Closed under the global context".
Rust `usize` is exact in the validator model; C46 proves that a 64-bit host behaves like that, and what a 32-bit host
changes. `std::env::args` (panics on arguments that are not Unicode), `println!` (panics when standard
output is closed) and file reading are outside of the model.

## Proof files
`LebProof`, `Utf8Proof`, `ParserMeta` (combinators), `TypesProof`, `InstrProof`, `ModuleProof`, `SectionsProof`,
`CodeProof`, `DialectProof`, `EncodeProof`, `CoreClaims`, `ModuleClaims`, `ModuleClaims2` for the parser;
`TypingProof` (algorithm against typing rules), `ModuleValidProof`, `SafeProof` (no panic, arbitrary trees),
`DialectValidProof`, `ValidityClaims`, `ValidityWitnesses` for the validator; `CliProof`.
Property theorems: `Props_Core` (C01-C09), `Props_Module` (C10-C25), `Props_Validation` (C26-C41), `Props_Cli` (C42-C43),
`Props_Stream` (C44-C45, over `SpecStream`, proofs in `OnePass`), `Props_Host` (C46, proofs in `HostProof`), `Props_Exec`
(C47-C48, proofs in `ExecProof`, `InstProof`, runs in `ExecDemo`), `Props_Canon` (C49, proofs in `SizeProof`, `CanonProof`, `UniqueProof`, `LengthsProof`), `Props_Else` (C50, spec in `SpecElse`, proof in `ElseProof`),
`Props_Grammar` (C51-C52, spec in `SpecGrammar`, proof in `GrammarProof`), `Props_Deviations` (C53, spec in
`SpecDeviations`, proof in `DeviationProof`), `Props_Invariance` (C54-C55, spec in `SpecSkeleton` and `SpecLink`, proofs in
`SkeletonProof` and `LinkProof`), `Props_Display` (C56-C57, spec in `SpecDisplay` and `SpecErrors`, proofs in `DisplayProof` and
`ErrorsProof`), `Props_Iter` (C58-C59, spec in `SpecIter` and `IterElements`, proofs in `IterProof` and `IterClaims`), `Props_Debug` (C60-C61,
spec in `SpecDebug` and `SpecFloat`, proofs in `DebugLayout`, `DebugNames`, `DebugProof`, `DebugClaims`), `Props_Eq` (C62, spec in `SpecEq`
and `SpecFloat`, proof in `EqualityProof`), `Props_Prompt` (C63, spec in `SpecPrompt`, proof in `PromptProof`),
`Props_Alloc` (C64, model in `ParserAlloc`, spec in `SpecAlloc`, proof in `AllocProof`), `Props_Blame` (C65, spec in `SpecBlame`, proof in
`BlameProof`), `Props_Program` (C66, model in `ProgramHost`, proof in `ProgramProof`), `Props_Later` (C67, spec in `SpecLater`, proof in
`LaterProof` and `LaterClaims`), `Props_Stack` (C68, model in `ParserAlloc` and `ProgramHost`, spec in `SpecStack`, proofs in `NestProof`,
`StackProof` and `DeepProof`), `Props_Local` (C69, spec in `SpecLocal`, proof in `LocalProof`), `Props_Storage` (C70, model in
`ValidatorAlloc`, spec in `SpecStorage`, proofs in `StorageProof`, `StorageFileProof` and `StorageExactProof`), `Props_Session` (C71-C72, model in `ValidatorState`, spec in `SpecSession`, proofs in
`StateProof` and `SessionProof`), `Props_Cost` (C73, model in `ValidatorCost`, spec in `SpecCost`, proofs in `CostProof` and `CostFileProof`), `Props_Time`
(C74, model in `ParserCost`, proofs in `TimeProof` and, for the calls that an iterator gets, `TimeIterProof`, for the least number of steps `TimeLeastProof`), `Props_Line` (C75, model in `DebugLine`, spec in `SpecLine`, proof in `DebugLineProof`),
`Props_Beginning` (C76, spec in `SpecBeginning`, proof in `BeginningProof`), `Props_Principal` (C77, spec in `SpecPrincipal`, proof in `PrincipalProof`),
`Props_Replace` (C78, spec in `SpecReplace`, proof in `ReplaceProof`), `Props_LaterValid` (C79, spec in `SpecLaterValid`, proofs in
`LaterTypingProof`, `LaterValidProof`), `Props_FormatList` (C80, spec in `SpecFormatList`, proofs in `FormatListProof`, `FormatListClaims`), `Props_Pieces` (C81, spec in `SpecPieces`, proof in `PiecesProof`), `Props_Requests` (C82, spec in `SpecRequests`, proof in `RequestsProof`), `Props_PrintSize` (C83, spec in `SpecPrintSize`, proofs in `PrintSizeProof` and `PrintLengthProof`), `Props_Faulty` (C84, model in `ParserFaulty`, spec in `SpecFaulty`, elements in `FaultyElements`, proofs in `FaultyProof`, `FaultyClaims`, `FaultyFuel`), `Props_Append` (C85, spec in `SpecAppend`, proof in `AppendProof`), `Props_Static` (C86, spec in `SpecStatic`, proof in `StaticProof`), `Props_Reading` (C87, spec in `SpecReading`, proofs in `ReadingProof`, `LeanProof`), `Props_Steps` (C88, spec in `SpecSteps`, proof in `StepsProof`), `Props_Inline` (C89, spec in `SpecInline`, proofs in `InlineProof`, `InlineExecProof`), `Props_Same` (C90, spec in `SpecSame`, proof in `SameProof`), `Props_Vars` (C91, spec in `SpecVars`, proof in `VarsProof`), `Props_Dissolve` (C92, spec in `SpecDissolve`, proof in `DissolveProof`), `Props_Loop` (C93, spec in `SpecDissolve`, proof in `LoopProof`), `Props_Simpler` (C94, spec in `SpecSimpler`, proof in `SimplerProof`).
`TestVectors` replays every unit test, documentation example
and the test.wasm file of the repository on the model, `GrammarVectors` those of `grammar/core`.

## Plan per property
C01-C03 LEB: invariant over the loop relating accumulator/shift to the base-128 value; exactness is an iff. Integers that the input ends in: from the errors of C65 (`IntEndProof`).
C04 refuted by a family of padded encodings. C05 little-endian exact, big-endian host refuted.
C06 DFA vs scalar encoding, both directions. C07-C09 combinator lemmas (`exact p E`).
C10 soundness by induction on fuel, completeness by induction on the grammar derivation.
C11, C24, C25 corollaries by induction on the grammar. C12 case analysis over 256 bytes.
C13 loop invariant over sections; C14 dialect inclusion; C15 canonical encoder; C16-C18, C22 corollaries of the
loop and direct error-path lemmas. C19 fuel adequacy + no Panic compositional predicate. C20, C21 compositional
predicates (`local`, `truncation-safe`). C23 refuted by explicit families.
C26 algorithm <-> type system, via "instances" of the abstract operand stack. C27/C28 dialect inclusion + refutations.
C29 invariant on heights, for arbitrary ASTs; 32-bit `usize` label arithmetic analysed separately.
C30, C39 corollaries of typing. C31-C37 unfold the module-level functions against `SpecModule.v`.
C38 context-restoration lemma. C40 conjunction. C41 counting argument / witness. C42 `Cli.v` with oracle file system.
C43 composes C13, C11, C24 and C40. C44 compositional predicate `single` (suffix + one pass). C45 from C13/C14 and C44.
C46 simulation of the 64-bit validator; on success frames are bounded by nesting depth, which file length bounds.
C47 progress and preservation over the interpreter, by induction on fuel and the typing derivation, from C40.
C48 each step of instantiation keeps the store well formed; officially valid files satisfy the restriction by C53; refuted by a global initialised with itself.
C49 every encoder function is at most as long as any encoding of its argument (`shorter`), and any other encoding is longer (`least`); sections weighed and collected by identifier (`weight`, `slot`). Lengths: the size of a section can be written with any number of bytes more (`leb_stretch`).
C50 a stray `Else` pops and re-opens the frame of its block; induction on the number of alternatives (`body_run`), then on nesting (`same_run_all`).
C51, C52 the two parsers agree combinator by combinator (`agree`), so exactness transfers; the section list by induction on its fuel.
C53 initialisers are single instructions (`InitProof`); then clause by clause from C40 and the dialect theorems behind C27/C28.
C56 injectivity of the texts (bytes by enumeration). C57 closure over the parser combinators, and a witness per error.
C58 a simulation `sim` between the two parser models, closed under the combinators; C59 from it and the padding loop.
C60 unique reading of indented lines (`readable`), of escaped characters, and of the trees of modules. C61 first characters of the texts.
C62 discriminants identify instructions without immediates; case analysis otherwise, zeros and NaNs by their bits.
C63 compositional predicate `good` (an error leaves a completable prefix), code by induction on fuel; locality and one pass give the rest.
C64 the parser with its requests erases to the parser; predicates on the log (`econ`, `modest`, `tracks`) closed under the combinators.
C65 `blames p F` (errors of `p` are exactly `F`) closed under the combinators, given exactness; code by induction on fuel one way and on
the derivation of the failure the other way.
C66 composes C42, C46, C64 and C70.
C70 the validator with its requests erases to the validator; what each instruction adds to the stacks, by induction over nested code, and the
context by its construction; instructions are counted against bytes by C15.
C71 the validator with what it leaves behind agrees with the validator; invariants on the frames hold after errors as well (`stays`).
C72 code without pseudo instructions never takes a frame that it has not put there, and acceptance needs empty stacks.
C73 a logic for upper bounds that are exact on success (`costs`); the static time against the bytes of an encoding, section by section.
C74 the parser with its steps erases to the parser; credit for bytes is kept or paid (`lasts`), element by element; copies likewise
(`spends`); the calls by a simulation as in C58 that also counts (`tells`).
C75 the one-line text of a tree can be read off with whatever follows it (`legible`), by induction on the tree; injectivity of the trees from C60.
C76 by induction on the beginning: either both models with steps and with stacks stop, or `unreachable` at the end of every open block completes it.
C77 from soundness and completeness of the validator for segments of the operand stack (`v_seq_sound`, `v_seq_complete` in `TypingProof`).
C78 by induction on the place; conversely a place that makes constants of the given types and consumes the results, in blocks with the given labels, tells the types.
C79 the typing of 1.0 without the exception for the function's own label is that of 2.0 with equal labels in every `br_table`: types with `Bot` are related to all their instances, and modules part by part;
C80 two readings of the same bytes in two dialects have the same parts, since the parser of each part reads both; so a file of two dialects is one of their conjunction, and the official format is the conjunction of four;
C81 the size of a section is prefix-free, so a file has one cut (`cut_unique`); pieces and the sections they denote are filtered in parallel (`denotes`), and a component of a module comes from the sections of one kind (`components`, `assemble`).
C82 a logic of logs (`logs`: a beginning of a list, all of it on success) carried through the validator that records its requests (`ValidatorAlloc`); the state is known up to the widths of the labels and the number of operands above the innermost frame (`state`).
C83 the lines of a tree by induction on it (`pr_struct`, `pr_tuple`, `pr_list` of `DebugLayout`), those of a module by computation; for files, weights along the grammar of the format: three times the lines of a component against fourteen times its bytes. Characters: no line of the tree is longer than W (`within`), digits from the value of a number.
C84 the run on the panicking iterator is, up to the panic, the run on one that yields zeros from then on (`tracks`, `rel`; parsers are generic in the iterator), to which C58 applies: what it says of bytes that the panicking iterator never gave shows that those before settle nothing.
C85 by cutting into sections (C81): pieces in front of pieces (`cut_prefix`); the next byte meets the state that the sections of the file leave (`after_file`).
C86 static linking: C55 with functions compared by type instead of type index (`resolved_assembly`); the new indices meet its premises.
C87 requests of reading: what a successful run of each recording parser has recorded, as a relation to the value read; for the shortest file also which groups of local variables it has, from its bytes.
C88 exact time: the binary format annotated with steps, as relations between bytes, values and numbers; each counting parser takes the annotated number of steps on the bytes of its value, whatever follows.
C89 inlining: moved code has the types of the code in an environment that sees further variables and labels; for running, one simulation by induction on fuel relates both the caller with and without the body in place, and the body in place and in its own function (results equal up to variables that only one side has, a return being a branch to the outermost block).
C90 exchange: results are compared in the end (for all fuel from some amount on), by induction on the fuel of the code as it was.
C91 variables: one relation between codes that differ in the numbers of variables only; typing, the verdict and execution each respect it, with the same fuel.
C92 blocks: one relation between code with the block and code without it, with the distance of the label that is gone; execution respects it in both
directions (fuel `n` to `n`, and back from `n` to `2 n + 1`), with the stack around the block beneath that of its code.
C93 loops: code that does not go to a label runs the same under labels that differ there only, and never gives a branch to it.
C94 simpler code: each piece is a case of the exchange of C90, and typed as the piece it stands for.
C67 `agree`: an encoding of 1.0 and one of 2.0 that begin alike are equal, closed under the combinators;
instructions by mutual induction on the derivation in 2.0.
C68 the levels in the log are an interval from 1 (`upto`), by induction on fuel; the file is the encoding of `tower`, read by C15. The greatest depth: sections are windows of fewer than 2^32 bytes (`DeepProof`).
C54 equational, by induction over nested instructions. C55 the algorithm is monotone under renumbering (`v_instr_fits`); for the order of definitions (`ReorderProof`), injective renumberings of finite index spaces are onto, so both directions follow from assembly. C69 likewise, for
the indices that are used (`v_instr_kept`).

Concurrency, timing: the code has none. The call stack is counted in levels of nested code (`Nest` in `ParserAlloc.v`); a host
has room for at least `h_safe` and at most `h_levels` of them, since the frames differ in size. That the later phases (validation,
printing, dropping) also manage `h_safe` levels is part of what `h_safe` means (`copes` in `SpecStack.v`). Allocation is left out
of the models of parser and validator, and added by `ParserAlloc.v` and `ValidatorAlloc.v`: which vectors are asked for
(`Vec::with_capacity`, `push`, `collect`), in which order. `sort` on the names of exports needs room for at most as many
references again; it counts as part of the request for that vector. What `Vec` then does is trusted: it panics above `isize::MAX` bytes, and asks for
at most twice the elements it holds, or 8, when it grows. Element sizes are parameters.

## Reading `seeded/LOG.jsonl`
Each line is one wrong edit of a model or specification file, tried in a copy. A lemma is listed as stopped when its proof script no
longer goes through, and a theorem as failed when its proof uses such a lemma. So a listed theorem is one whose proof broke, which is
weaker than a proof that its statement became false; `breaks` names the properties whose claim the edit makes false as judged by hand. It is empty
for edits that change nothing observable, and some of those break proof scripts too. An edit with a claim in `breaks` and no failed theorem
would be a hole; such cases led to `theorems_tightened`.
Lines with `generated` are edits made by a program (one token exchanged). They were not judged by hand: their `breaks` is taken from the failed
proofs, so such a line says only which proofs notice the edit. Many runs stop at the first theorems meant to fail, so `theorems_failed` may be incomplete.
