# Design of the MiniRust model

The code base is the MiniRust specification (`/repo/spec`, Rust in markdown) and a little of its
tooling. The model is executable Gallina in `rocq/theories`, written function by function, with a
citation of the modelled file and lines on each definition.

## Modelling conventions

* Fallible code returns `Outcome A`: `Ret a`, `Stop t` (a `TerminationInfo`: UB, ill-formed, machine
  stop, abort, deadlock, leak), `Panic` (a failed assertion, `unwrap`, out-of-range index: a spec bug)
  or `NoBehavior` (a nondeterministic choice outside of the allowed set).
* `pick` and `predict` take the chosen value as an explicit argument and check it against the
  predicate of the code. Theorems quantify over all choices.
* `&mut self` becomes passing and returning the state.
* `Int` is `Z`, `Size`/`Offset` is `N`, `Align` is a record holding the exponent of the power of two,
  `u8` is `Byte.byte`. The memory trait is a record of functions.
* `Map` is an association list in iteration order, `Set` a list.
* `Target` is a record; theorems hold for every target satisfying `target_ok`, and x86_64 is shown to
  satisfy it.

## Plan per property

* **C01 Encoding fills exactly the type's size.** Repr model (layout, encode, check_value over a record of machine queries); structural induction on types.
* **C02 Decode after encode is the identity.** As C01; semantic coherence predicate for enums; induction on types. A refutation shows the unconditional law fails for an accepted enum.
* **C03 Encode after decode only loses definedness.** As C02, byte-wise definedness order defined separately.
* **C04 Decoding is monotone in definedness.** Induction on types, no coherence needed.
* **C05 Encoding is monotone in definedness.** Induction on types.
* **C06 Integer encoding is a bijection with the value range.** Endianness encode/decode modelled over lists of bytes; induction on the byte list.
* **C07 Pointers survive memory with address, metadata and provenance; integers carry no provenance.** encode_ptr/decode_ptr laws.
* **C08 Decoding only yields values of the right shape.** Shape predicate independent of check_value; induction on types.
* **C09 Typed store then typed load returns the stored value.** Combine C02 with memory load/store laws.
* **C10 Transmute is UB exactly for invalid bit patterns.** transmute over the Repr model.
* **C11 Wrapping integer arithmetic is arithmetic modulo 2^n.** Operators model over Z; modular arithmetic.
* **C12 Division, remainder, exact division and unchecked arithmetic are UB exactly when documented.** Same.
* **C13 Overflow-reporting arithmetic is exact.** Same.
* **C14 Comparisons form a total order that ignores provenance.** compare_ptr and RelOp model.
* **C15 Bit counting counts the bits of the two's-complement form.** count_ones model against Z.testbit.
* **C16 Integer casts preserve the value modulo 2^n.** IntToInt model.
* **C17 Live allocations never overlap.** BasicMemory with the address choice as an argument; invariant by induction over operation traces.
* **C18 Loads return the last stored bytes.** Refinement of BasicMemory to an abstract map.
* **C19 Stores change only the bytes they cover.** Frame lemmas.
* **C20 Invalid accesses are undefined behaviour.** Exact characterisation (iff).
* **C21 Freeing is exact and final.** Exact characterisation plus induction over later traces.
* **C22 Zero-sized accesses are always allowed.** Direct.
* **C23 Leak check reports exactly live heap memory.** iff.
* **C24 Fresh memory is uninitialised and allocation picks only legal addresses.** Specification of the allocator choice.
* **C25 In-bounds pointer arithmetic cannot overflow.** Uses the C17 invariant.
* **C26 Integer-to-pointer casts only yield exposed provenance.** Trace induction over IntPtrCast.
* **C27 A protected, written mutable reference is exclusive until the call ends.** Tree Borrows tree and state machines; induction over access sequences and trees.
* **C28 A protected, read shared reference forbids foreign writes.** Same.
* **C29 Permissions only get weaker.** Same.
* **C30 Strongly protected memory cannot be freed.** Same.
* **C31 Tree Borrows only adds undefined behaviour.** Simulation between TreeBorrowsMemory and BasicMemory over traces.
* **C32 An access only concerns the accessed bytes.** Induction on trees.
* **C33 Tree shape and node identity are stable.** Induction on trees.
* **C34 Reads never conflict with reads.** Case analysis lifted to trees (`TreeSwap`).
* **C35 Protector bookkeeping is exact.** Invariant over traces.
* **C36 Interior-mutability masks match the declared cells.** freeze_mask model, induction; refutation for unsized tuples.
* **C37 Retagging a valid reference does not crash the machine.** reborrow model; refutation (zero-sized pointee below the allocation), positive theorem for the rest.
* **C38 Locks are mutually exclusive and no waiter is lost.** Lock and thread state model; invariant by induction over operation traces, later on the full machine.
* **C39 Join waits exactly for termination.** Same.
* **C40 Deadlock is reported exactly when nobody can run.** Machine step model.
* **C41 Data races are reported.** Machine step model; refutation with a witness program or state, positive theorem with the exact condition.
* **C42 The race relation is symmetric and exact.** Access::races model.
* **C43 Layouts are consistent.** layout/check_wf model.
* **C44 Sizes of unsized values are consistent.** compute_size_and_align model.
* **C45 ABI compatibility is an equivalence that preserves layout.** check_abi_compatibility model.
* **C46 The overflow pair type is well-formed.** with_overflow model.
* **C47 Well-formed programs never crash the machine.** Full machine model; refutation witnesses for each gap; progress theorem under the explicit side conditions.
* **C48 Expressions evaluate to values of their static type.** Type soundness of evaluation.
* **C49 Stack frames own their locals.** Machine invariant.
* **C50 Unwinding visits only the blocks it may visit.** Machine invariant.
* **C51 Program output is append-only and only printing changes it.** Machine invariant.
* **C52 A run ends normally exactly at exit without leaks.** Machine model.
* **C53 Initial memory matches the program.** Machine::new model.
* **C54 Function and vtable pointers resolve exactly.** Machine model.
* **C55 Union chunks keep all data.** calc_chunks model; refutation for wide pointers, positive theorem otherwise.
* **C56 Union chunks are sorted, disjoint, in bounds and maximal.** calc_chunks model.
* **C57 Array interior-mutability ranges cover all elements.** cells_in_sized_ty model over an abstract Rust type; refutation and positive theorem.
* **C58 Enums as minimize translates them are coherent.** Model of minimize's enum translation (direct tags, niches, `Option<&T>`); the coherence hypothesis of C02/C03 follows.
* **C59 Only well-formed values are loaded, stored and transmuted.** Relational specification of well-formed pointers and values; induction on types.
* **C60 Stopping unwinding always finds a payload.** Machine invariant relating payloads and frames being unwound.
* **C61 Memory is allocated and freed only where the program says so.** Invariant linking stack allocations to frames, over both memories.
* **C62 Statements write their destination and nothing else.** Per statement: which bytes of memory change, over all of memory.
* **C63 Calls hand over the arguments**, **C64 Returns hand over the return value.** Same, with frames.
* **C65 Control goes where the program says.** Movement of the top frame per statement and terminator.
* **C66 A step concerns its own thread only.** Frame property over all other threads.
* **C67 Expressions mean what the language says.** A relational semantics of expressions (`ExprSpec`) without state passing; induction on expressions.
* **C68 Intrinsics yield what they say**, **C69 Memory comparison compares bytes.** As C62, on top of C67.
* **C70 Undefined behaviour of expressions is exactly the absence of a meaning.** Induction on the derivations of the relational semantics, over the basic memory; C47 excludes panics.
* **C71 Tree Borrows only adds undefined behaviour to whole programs.** A simulation: `SimSpec.v` says when two machine states correspond, `SimRepr.v`, `SimStep.v` and `SimMach.v` show every function of the machine keeps the correspondence for any two related memory models, `SimInst.v` gives the two instances, `SimRun.v` lifts it to executions.
* **C72 Initialising memory never adds undefined behaviour.** The same simulation, from the basic memory to itself.
* **C73 Functions made with the builder run the structured program they were written as.** `BuildSpec.v` has structured programs, what they do next, and the calls of builder methods that write them down. Induction on structured programs for code (`BuildProofs.v`), an invariant of reachable states for executions (`PlanProofs.v`).
* **C74 What the builder accepts, and how it numbers variables**, **C75 Built functions are well-formed exactly if their parts are**, **C76 The boolean expressions of the builder.** Induction on structured programs; computation for C76. Not covered: `stop_unwind`, whose next block the client has to make itself, and the builders of traits and vtables.
* **C77 The machine is never stuck unless memory is full.** `LiveSpec` says what each step allocates and what room for it means; everything that makes no choice is shown to act in any state, and addresses past all live objects can always be chosen.
* **C78 A step is undefined behaviour exactly if it is not allowed.** `UbSpec` lists, for each statement, terminator and intrinsic, what is allowed, in terms of `value_means`/`place_means` and live memory; a calculus (`judge`) carries, through the evaluation functions, that results imply the condition and undefined behaviour its negation. Basic memory model; with Tree Borrows there is more undefined behaviour (C72).
* **C79 Well-typed MIR becomes well-formed MiniRust.** `Mir` has MIR and what the compiler is asked as a record of functions; `MirSpec` has the typing rules of MIR. A calculus (`fine`) for "gives a result or says that something is not supported" runs through the translation of places, constants, operands, rvalues, statements, terminators, bodies and programs (`MiniWf` … `MiniProg`). The constructs for which it fails are listed in `MirSpec` (`covered`, `covered_vtables`), each with a refutation.
* **C80 Everything in a translated program has its own name and is what it should be.** Invariant of the work list (`MiniNames`), against `MiniSpec`.
* **C81 Translated functions do what their MIR does.** `MirMeans` gives places, constants, operands and rvalues of MIR a meaning of their own, over the states of the MiniRust machine; `MirCode` says which code does which statements and terminators. `MirMeanProofs` and `MirRvMeans` prove that translated expressions mean the same, in both directions; `MirCodeProofs`, `MirTermProofs` and `MirBodyProofs` carry that through statements, terminators, blocks, functions and programs. It is assumed that enum discriminants have the type of the translated enum (`discr_ok`).
* **C82 Executions of translated programs are executions of MIR.** `MirRunSpec` gives every frame a task (the rest of a MIR block, the entry of a function, a phase of catch_unwind, the start function) and says which steps of MIR there are, what each does to memory, variables and payloads, and which task comes next. `MirRunProofs` proves by induction over the execution that every frame of every thread is at a position where the code does its task (C81), and that each step of the machine is the step of the top task, from what single steps do (C62-C65). What the statements that put together the arguments of a function and those of catch_unwind do is left to C62 and C65.
* **C83 Rust types become well-formed types of the same layout.** `MirTy` has `translate_ty`, `pointee_info_of` and `translate_enum`, over a record of what the compiler says of types (kinds and layouts). `MirTySpec` says when layouts are sane (`ty_ok`; the conditions marked `plain` exclude what the code does not handle). A calculus (`yields`) for "returns with enough fuel" runs through the functions; the maps that the loops over variants build are rewritten to lists of their entries, from which the checks of `WfTypes` are discharged. `MirTyProofs` has fields, cells and ranges of bits, `MirTyEnum` the enums, `MirTyWf` the induction over types; `C83_compiler_partial` links to the assumptions of C79 to C82.
* **C84 Translated enums read and write the tags of Rust enums.** `tag_means` says what the bits of a tag mean, in terms of bits and wrap-around ranges only; the discriminator that the code builds is over signed or unsigned values. Same lemmas as C83.
* **C85 to C88 running programs.** `Run` has the loop that runs a program (for a number of rounds, with an oracle for the choices), the captured output, the command line and the assertions of the tests. `RunSpec` says which values an execution prints, how they are shown and what a command line asks for. Executions and oracles are turned into each other (`reach_oracle`, `loop_ends`); that the check of well-formedness only ever reports ill-formedness is a pass over all checks (`IllProofs`); that lines can be read back needs that numerals are unique.
* **C89 the check of well-formedness.** `CheckSpec` says which types have no layout and which constructs leave the check without an answer. That nothing else does (`CheckProofs`) is a pass over all checks that tracks when they can panic; it needs that the types of places are well-formed and the types of values sized. The converse, that these constructs are never accepted, is by inversion of the checks.
* **C90 to C93 the pretty printer.** `Pretty` has the functions that print types, expressions, functions and programs; the table of composite types is passed along as state. `PrettySpec` says what is printable, which types occur and what the text leaves out. `PrettyRead` has a reader, which gets expressions back from their text (`PrettyBack`, `PrettyStmts`; the check of well-formedness excludes the ambiguous ones, `PrettyWf`). `PrettyTable` is a calculus for what is added to the table, `PrettyLoop` the invariant of the loop over it, `PrettyGives` when there is a text. `PrettyOrder`: lists that are sorted by unique names are determined by the map. `PrettyAlike` says what the text of a program shows; `PrettyProg` composes texts that end where they end (codes) up to whole programs.
* **C94 Leaving out a read never adds undefined behaviour.** `XSim` is a simulation between two states of the same machine that agree in everything but the memory. `TreeDrop` orders the permissions by the reads they have seen and shows that trees that have seen more allow less. `DropSpec` says what is the same, `ReadExpr` treats expressions with any number of loads.
* **C95 The program builder puts together exactly what was declared.** `SessionSpec` has the calls that can be made to a `ProgramBuilder` and the builders it hands out, and reads off a list of calls what was declared. `SessionProofs` has the invariant that relates the state of the builders to the calls made so far.
* **C96 Expressions that only read can be evaluated again and in any order.** `TwiceSpec` says what it means that only loads, or only such expressions, were evaluated in between, and that two states are the same. `ReadTwice` shows that loads can be repeated, uses that they can be swapped (`TreeSwap`), and lifts both to expressions: a computation is settled if doing it again gives the same result and changes nothing, and evaluation is simulated forwards and backwards (`XSim`) along any loads.
* **C97 minimize hands each argument to the right place.** `Minimize` models the driver: parsing of arguments, the sysroot, what the compiler is called with, dumping and running. `MinimizeSpec` says which arguments are good and which reach the compiler (an inductive relation on lists), and what a good environment is. The proof generalises the loop over what it has collected; running uses C85's theorem about `run_program`.
* **C98 The bytes behind a protected reference change only through it.** What a compiler uses the aliasing rules for, stated on the bytes that loads give. `AliasSpec` says that a history has no store through pointers derived from a reference. The proof follows the permission of the reference at the byte through the history: while it is protected and frozen, or protected and used, a store through any other pointer is undefined behaviour, so the latest store to the byte (C18) stays the same.
* **C99 Every execution is a history of memory operations.** The bridge between the two kinds of theorems, those about machines and those about histories of memory operations. `HistSpec` says in one table (`may_do`) which operations which statement or terminator may do, and `exec_ops` lists the operations of an execution. `HistProofs` goes through all of `Step.v` once for any memory model. `FrameHist` does the same for statements about a memory and the frame data of all open calls, so that the calls on the stacks are those of C35. `C99_shared` and `C99_mutable` are C98 for executions of programs; `C99_reload_*` say it about the values loaded, which is what allows a compiler to reuse them; `C99_entry` shows that retagging a shared reference at function entry leads to such a state.
* **C100 What a reference points to stays there until its function returns.** What C17, C21 and C30 say about histories, for executions of programs. `KeepSpec` defines executions in which no call that has a certain protector ends. `C100_live`, `C100_readable` and `C100_reload` begin at the `Validate` statement that retags the reference: the retag reads the bytes, so the permission blocks deallocation from then on (`kept` in `HistEntry`), and by C99 only the return of the call can end that. Hence loads through a shared reference do not just agree when they succeed (C99), they do succeed. `C100_reload` is the same for the values of loads, for both kinds of references. `C100_invalidated` is C29 for executions.

## Files

* Model: `Base`, `Types`, `Repr`, `WfTypes`, `Syntax`, `WfProg`, `IntOps`, `Mem`, `BasicMem`, `TreeBorrows`, `ConcMem`,
  `IntPtrCast`, `Machine`, `Step` (the specification); `Enums`, `Chunks`, `Mir`, `MirTy`, `Mini`, `Minimize` (minimize); `Build`, `Run`, `Pretty` (miniutil, minirun, minitest).
* Specifications: `ReprSpec`, `MemSpec`, `TreeSpec`, `OpsSpec`, `MachSpec`, `RaceSpec`, `OutSpec`, `AbiSpec`, `OwnSpec`,
  `ChunksSpec`, `ValueSpec`, `SafeSpec`, `StepSpec`, `ProgressSpec`, `DataSpec`, `ExprSpec`, `SimSpec`, `BuildSpec`, `PlanSpec`, `BuildWfSpec`, `LiveSpec`, `UbSpec`, `MirSpec`, `MiniSpec`, `MirRunSpec`, `MirMeans`, `MirCode`, `MirTySpec`, `RunSpec`, `CheckSpec`, `DropSpec`, `AliasSpec`, `HistSpec`, `KeepSpec`, `PrettySpec`, `PrettyAlike`, the beginning of `PrettyOrder` and of `PrettyWf`. `StrictCheck` is a checker for the conditions of `StepSpec` and `ProgressSpec`.
* Theorems: `Props*.v`, each with `Print Assumptions` and a concrete case (`Cxx_hyps`) beside it.
* Concrete cases: `ExRepr`, `ExMem`, `ExTree`, `ExMach`, `ExSched`, `ExSafe`, `ExData`, `ExSim`, `ExBuild`, `ExMini`, `ExMiniBad`. All other files are proofs.

## Trusted base

* Coq 8.16.1's kernel (including `vm_compute`, used in examples and witnesses) and the std++ library.
* `Print Assumptions` after each theorem of `Props*.v` answers "Closed under the global context": no axiom is used.
  (std++ loads `Coq.ssr.ssrunder`, whose module declares parameters; no theorem here depends on them.)
* libspecr is an external crate that is not in the repository. Its integers, sizes, alignments, byte orders, lists, maps
  and the nondeterminism monad are modelled in `Base.v` from their documented behaviour.
* The reading of Rust: `&mut` state as state passing, `Map` iteration order, the absence of stack overflow and of memory
  exhaustion in the interpreter, and that panics are the only way interpreter code fails.

### Modelled

| code | model |
| --- | --- |
| `spec/prelude/{main,target}.md` | `Base`, `Types` |
| `spec/mem/{pointer,interface}.md` | `Types`, `Mem` |
| `spec/mem/basic.md` | `BasicMem` |
| `spec/mem/tree_borrows/*.md` | `TreeBorrows` |
| `spec/mem/concurrent.md` | `ConcMem` |
| `spec/mem/intptrcast.md` | `IntPtrCast` |
| `spec/lang/{types,values,syntax}.md` | `Types`, `Syntax` |
| `spec/lang/representation.md` | `Repr`, typed accesses in `Machine` |
| `spec/lang/well-formed.md` | `WfTypes`, `WfProg` |
| `spec/lang/machine.md` | `Machine`, `Step` |
| `spec/lang/step/{expressions,statements,terminators,intrinsics,locks,operators}.md` | `IntOps`, `Machine`, `Step` |
| `tooling/minimize/src/enums.rs` | `Enums` (its discriminators and taggers), `MirTy` (all of it) |
| `tooling/minimize/src/ty.rs` | `MirTy` |
| `tooling/miniutil/src/{run,mock_write,cli}.rs`, `tooling/minirun/src/main.rs`, the assertions of `tooling/minitest/src/lib.rs` | `Run` |
| `tooling/minimize/src/chunks.rs`, `cells_in_sized_ty` in `ty.rs` | `Chunks` |
| `tooling/minimize/src/{function,bb,rvalue,constant,vtable,program}.rs` | `Mini` |
| `tooling/miniutil/src/build/*.rs` | `Build` |
| `tooling/minimize/src/{main,sysroot}.rs`, `tooling/miniutil/src/json.rs` | `Minimize` |

### Simplified

* Choices are arguments; leftover choices of a step are ignored.
* A step that stops the machine returns only the reason, not the last state; output written in that step is lost.
* Thread, lock and statement numbers are naturals, stacks and payloads are stored top first.
* The set of provenances and the pool of free addresses are unbounded; the address space is bounded by the target.

* The compiler is a record of functions (`Rustc` in `Mir.v`), about which theorems assume `rustc_ok`. Types of Rust are
  numbers; the results of `translate_ty` and `pointee_info_of` (ty.rs) are among the compiler's answers there. `MirTy` models
  these functions; its own record of answers (`RTypes`) has the kinds and layouts of types. MIR has the cases that the code
  matches on, all unsupported ones being one case. The traits of a program are all there from the start.
* The recursion over constant allocations has fuel; `enough` says how much suffices, and C79 shows that it does.

### Not modelled

* The macros, GC handles and the specr transpilation of the markdown; error messages are kept only as strings.
* minimize outside of the files above (the calls into rustc), its intrinsics crate, the tests themselves.
* serde, cargo, rustc and the file system: in `Minimize` they are parameters (`Json`, `SysEnv`, `compile`).
* Floats, volatile accesses and other things that MiniRust itself leaves out.
