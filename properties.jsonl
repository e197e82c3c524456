{"id": "C01", "title": "Encoding fills exactly the type's size", "statement": "For every well-formed sized type and every value that is well-formed at that type, encoding the value does not panic and yields exactly as many bytes as the type's layout says it is large.", "quantifier": "all well-formed sized types (arbitrarily nested) and all values well-formed at them", "why_tests_cant": "Types nest without bound and values range over unbounded integers and pointers; a test picks finitely many.", "anchors": ["spec/lang/representation.md: Type::encode, check_value", "spec/lang/types.md: Type::layout"]}
{"id": "C02", "title": "Decode after encode is the identity", "statement": "If a value is well-formed at a sized type whose enums are coherent (taggers agree with the discriminator and do not touch the variant's data), decoding its encoding succeeds and gives back the same value. The unconditional statement of the spec is false for enums that the well-formedness check accepts.", "quantifier": "all well-formed sized types and all well-formed values", "why_tests_cant": "needs every type shape, every padding layout and every value", "anchors": ["spec/lang/representation.md: generic properties (decode(encode(v)) = Some(v))", "spec/lang/representation.md: Type::decode, Type::encode"]}
{"id": "C03", "title": "Encode after decode only loses definedness", "statement": "If a byte list decodes at a sized coherent type to some value, then encoding that value gives a byte list that is byte-wise at most as defined as the original: every initialised byte in the result is unchanged, provenance only disappears.", "quantifier": "all well-formed sized types and all byte lists of the type's size", "why_tests_cant": "256^n byte lists with arbitrary provenance per byte", "anchors": ["spec/lang/representation.md: generic properties (encode(decode(b)) <= b)"]}
{"id": "C04", "title": "Decoding is monotone in definedness", "statement": "Making uninitialised bytes initialised, or adding provenance to bytes without, never turns a valid representation into an invalid one, and the new value is at least as defined as the old one.", "quantifier": "all well-formed types, all pairs of byte lists related byte-wise by the definedness order", "why_tests_cant": "pairs of arbitrary byte lists and arbitrary types", "anchors": ["spec/lang/representation.md: le_defined, Type::decode"]}
{"id": "C05", "title": "Encoding is monotone in definedness", "statement": "Encoding a more defined value gives a byte list that is byte-wise at least as defined.", "quantifier": "all well-formed types, all pairs of well-formed values related by the definedness order", "why_tests_cant": "pairs of arbitrary nested values", "anchors": ["spec/lang/representation.md: le_defined, Type::encode"]}
{"id": "C06", "title": "Integer encoding is a bijection with the value range", "statement": "For every integer size, signedness and byte order, an integer is encodable exactly if it lies in the type's range, decoding inverts encoding, encoding inverts decoding, and big-endian is the byte reversal of little-endian.", "quantifier": "all sizes (any number of bytes), both signednesses, both byte orders, all integers, all byte strings", "why_tests_cant": "unbounded sizes and integers", "anchors": ["spec/lang/representation.md: encode_int/decode_int", "libspecr Endianness::encode/decode (external)"]}
{"id": "C07", "title": "Pointers survive memory with address, metadata and provenance; integers carry no provenance", "statement": "Encoding a pointer and decoding it at the same pointer type returns the same address, provenance and metadata. Decoding at an integer type never depends on provenance. Pointer bytes whose fragments are missing, reordered or from different pointers decode to a pointer without provenance.", "quantifier": "all addresses, provenances, metadata and all byte lists", "why_tests_cant": "arbitrary provenance mixes per byte", "anchors": ["spec/lang/representation.md: encode_ptr, decode_ptr"]}
{"id": "C08", "title": "Decoding only yields values of the right shape", "statement": "Whenever decoding bytes at a well-formed type succeeds, the value has the shape of the type (integers in range, tuples with one value per field, arrays of the right length, enum discriminants of existing variants, pointers with address in the address space), so the only thing left for the validity check to reject concerns pointer targets.", "quantifier": "all well-formed types and byte lists", "why_tests_cant": "all byte strings of every type", "anchors": ["spec/lang/representation.md: Type::decode, check_value"]}
{"id": "C09", "title": "Typed store then typed load returns the stored value", "statement": "In any memory state, if storing a well-formed value at a place of a coherent sized type succeeds, then loading at the same place with the same type succeeds and returns the same value.", "quantifier": "all memory states reachable or not, all pointers, values, coherent types", "why_tests_cant": "unbounded memory contents and types", "anchors": ["spec/lang/representation.md: typed_store, typed_load", "spec/mem/basic.md: store, load"]}
{"id": "C10", "title": "Transmute is UB exactly for invalid bit patterns", "statement": "Transmuting a value between types of equal size is either UB, exactly when the value's bytes are not a valid representation in the target type, or the decoded value. Transmuting to the same coherent type is the identity.", "quantifier": "all pairs of types of equal size, all values", "why_tests_cant": "all values of all type pairs", "anchors": ["spec/lang/representation.md: transmute"]}
{"id": "C11", "title": "Wrapping integer arithmetic is arithmetic modulo 2^n", "statement": "Add, Sub, Mul, Neg, BitNot, BitAnd, BitOr, BitXor, Shl, Shr on an integer type return the unique in-range integer congruent to the mathematical result, for every pair of in-range operands.", "quantifier": "all integer sizes and signednesses, all in-range operand pairs", "why_tests_cant": "2^(2n) operand pairs for every n", "anchors": ["spec/lang/step/operators.md: eval_int_bin_op, eval_un_op"]}
{"id": "C12", "title": "Division, remainder, exact division and unchecked arithmetic are UB exactly when documented", "statement": "Div and Rem are UB exactly for divisor zero or the single overflowing pair (MIN, -1); otherwise they return the truncating quotient or remainder in range. Unchecked add/sub/mul are UB exactly when the mathematical result is out of range; DivExact also when the division leaves a remainder; shifts use the documented amounts.", "quantifier": "all integer types and all in-range operands", "why_tests_cant": "all operand pairs of all sizes", "anchors": ["spec/lang/step/operators.md: eval_int_bin_op"]}
{"id": "C13", "title": "Overflow-reporting arithmetic is exact", "statement": "The overflowing operators return the wrapped result together with a flag that is true exactly when the mathematical result does not fit.", "quantifier": "all integer types and in-range operands", "why_tests_cant": "all operand pairs", "anchors": ["spec/lang/step/operators.md: BinOp::IntWithOverflow"]}
{"id": "C14", "title": "Comparisons form a total order that ignores provenance", "statement": "On values of one comparable type, three-way comparison is a total order, the boolean relations agree with it, and comparing pointers depends only on addresses (and metadata), never on provenance.", "quantifier": "all comparable values", "why_tests_cant": "all pairs/triples of values", "anchors": ["spec/lang/step/operators.md: RelOp, compare_ptr"]}
{"id": "C15", "title": "Bit counting counts the bits of the two's-complement form", "statement": "CountOnes of an in-range integer equals the number of one bits in its two's-complement representation at the type's width, for negative numbers too.", "quantifier": "all integer types and values", "why_tests_cant": "all integers", "anchors": ["spec/lang/step/operators.md: UnOp CountOnes"]}
{"id": "C16", "title": "Integer casts preserve the value modulo 2^n", "statement": "IntToInt returns the unique in-range integer congruent to the operand modulo 2^n, is the identity when the operand fits, and casting there and back through a wider type is the identity.", "quantifier": "all integer types, all integers", "why_tests_cant": "all integers, all pairs of types", "anchors": ["spec/lang/step/operators.md: CastOp::IntToInt"]}
{"id": "C17", "title": "Live allocations never overlap", "statement": "After any sequence of memory operations, any two distinct live allocations of non-zero size occupy disjoint address ranges, and every live allocation is non-null, aligned as requested and inside the address space.", "quantifier": "all finite histories of allocate/deallocate/load/store with all allocator choices", "why_tests_cant": "all histories and all nondeterministic address choices", "anchors": ["spec/mem/basic.md: allocate, deallocate, Allocation::overlaps"]}
{"id": "C18", "title": "Loads return the last stored bytes", "statement": "A load that succeeds returns, byte by byte, what the latest store to that byte of that allocation wrote, or uninitialised if there was none, after any history. Equivalently the memory implements a map from (allocation, offset) to bytes.", "quantifier": "all histories of operations, all ranges including overlapping ones", "why_tests_cant": "all histories and range overlaps", "anchors": ["spec/mem/basic.md: store, load"]}
{"id": "C19", "title": "Stores change only the bytes they cover", "statement": "A successful store changes no byte outside the stored range, no other allocation, no address, size, alignment, kind or liveness.", "quantifier": "all memory states, pointers, byte lists", "why_tests_cant": "all states", "anchors": ["spec/mem/basic.md: store"]}
{"id": "C20", "title": "Invalid accesses are undefined behaviour", "statement": "A non-empty load or store is UB exactly if the pointer has no provenance, is misaligned, its allocation is dead, or the range leaves the allocation's bounds. In every other case it succeeds.", "quantifier": "all memory states, pointers, lengths, alignments", "why_tests_cant": "all states and pointers", "anchors": ["spec/mem/basic.md: check_ptr, load, store"]}
{"id": "C21", "title": "Freeing is exact and final", "statement": "Deallocation succeeds exactly if the pointer points to the start of a live allocation with the given kind, size and alignment. A freed allocation never becomes live again, so after any further history (including address reuse) double free and use after free through old pointers are UB.", "quantifier": "all states and all later histories, all allocator choices", "why_tests_cant": "all histories after the free", "anchors": ["spec/mem/basic.md: deallocate, check_ptr"]}
{"id": "C22", "title": "Zero-sized accesses are always allowed", "statement": "Loads, stores and dereferenceability checks of length zero through any aligned pointer succeed, for null, dangling, or provenance-less pointers, and leave memory unchanged.", "quantifier": "all memory states and pointers", "why_tests_cant": "all states and pointers", "anchors": ["spec/mem/basic.md: check_ptr"]}
{"id": "C23", "title": "Leak check reports exactly live heap memory", "statement": "The leak check fails exactly if some heap allocation is still live; stack, global, function and vtable memory never count.", "quantifier": "all memory states", "why_tests_cant": "all states", "anchors": ["spec/mem/basic.md: leak_check"]}
{"id": "C24", "title": "Fresh memory is uninitialised and allocation picks only legal addresses", "statement": "A successful allocation returns a pointer with fresh provenance at an address that is non-null, aligned, inside the address space and disjoint from all live allocations; every byte of it loads as uninitialised; existing allocations are unchanged. Every legal address is a possible result.", "quantifier": "all memory states, sizes, alignments and allocator choices", "why_tests_cant": "all choices", "anchors": ["spec/mem/basic.md: allocate"]}
{"id": "C25", "title": "In-bounds pointer arithmetic cannot overflow", "statement": "In any reachable memory, an in-bounds pointer offset that is not UB yields an address inside the address space and an offset within isize; the assertions that say so never fire.", "quantifier": "all reachable memory states, pointers and offsets", "why_tests_cant": "all states and offsets", "anchors": ["spec/lang/step/operators.md: ptr_offset_inbounds", "spec/mem/interface.md: signed_dereferenceable"]}
{"id": "C26", "title": "Integer-to-pointer casts only yield exposed provenance", "statement": "A pointer obtained from an integer carries no provenance or one that was exposed earlier in the same execution, whatever the angelic choice; exposing never forgets earlier exposures.", "quantifier": "all histories of expose and int2ptr, all choices", "why_tests_cant": "all histories", "anchors": ["spec/mem/intptrcast.md: IntPtrCast"]}
{"id": "C27", "title": "A protected, written mutable reference is exclusive until the call ends", "statement": "Under Tree Borrows, after a byte was written through a protected mutable reference, any read or write of that byte through a pointer that is not derived from it is UB, after any further sequence of accesses, until its protector is released.", "quantifier": "all trees, nodes and access sequences", "why_tests_cant": "all trees and access sequences", "anchors": ["spec/mem/tree_borrows/state_machine_protected.md", "spec/mem/tree_borrows/tree.md: access"]}
{"id": "C28", "title": "A protected, read shared reference forbids foreign writes", "statement": "After a byte was read through a protected frozen reference, any write of that byte through any pointer whatsoever is UB until the protector is released; reads stay allowed through it.", "quantifier": "all trees, nodes and access sequences", "why_tests_cant": "all access sequences", "anchors": ["spec/mem/tree_borrows/state_machine_protected.md", "spec/mem/tree_borrows/tree.md: access"]}
{"id": "C29", "title": "Permissions only get weaker", "statement": "Along any sequence of accesses, an unprotected node that is disabled stays disabled, one that is frozen never again permits a write, and once a foreign write hit a unique node every later access through it is UB.", "quantifier": "all access sequences", "why_tests_cant": "all access sequences", "anchors": ["spec/mem/tree_borrows/state_machine_unprotected.md"]}
{"id": "C30", "title": "Strongly protected memory cannot be freed", "statement": "Deallocating memory is UB while a strongly protected reference has accessed a byte of it; the deallocation check is exactly the condition under which a foreign write would be UB for that node.", "quantifier": "all trees and permissions", "why_tests_cant": "all trees", "anchors": ["spec/mem/tree_borrows/tree.md: contains_strong_protector_preventing_deallocation", "spec/mem/tree_borrows/state_machine*.md: prevents_deallocation"]}
{"id": "C31", "title": "Tree Borrows only adds undefined behaviour", "statement": "Any history of memory operations that Tree Borrows accepts is accepted by the basic memory model with the same allocator choices and returns the same bytes.", "quantifier": "all histories, all choices", "why_tests_cant": "all histories", "anchors": ["spec/mem/tree_borrows/memory.md", "spec/mem/basic.md"]}
{"id": "C32", "title": "An access only concerns the accessed bytes", "statement": "A Tree Borrows access leaves every node's permissions unchanged at offsets outside the accessed range, and the outcome of an access does not depend on them.", "quantifier": "all trees, ranges", "why_tests_cant": "all trees and ranges", "anchors": ["spec/mem/tree_borrows/tree.md: access"]}
{"id": "C33", "title": "Tree shape and node identity are stable", "statement": "Accesses keep the shape of the borrow tree; adding a node keeps every existing path pointing to the same node; local means exactly: the accessing path runs through the node.", "quantifier": "all trees, paths and sequences of accesses and reborrows", "why_tests_cant": "all trees", "anchors": ["spec/mem/tree_borrows/tree.md: access, add_node"]}
{"id": "C34", "title": "Reads never conflict with reads", "statement": "A read through one pointer never makes a later read through another pointer UB, also with protectors; two reads commute. In a tree without protectors a read is never UB because of nodes it does not go through.", "quantifier": "all memories, trees and pairs of reads", "why_tests_cant": "all trees", "anchors": ["spec/mem/tree_borrows/state_machine_unprotected.md", "spec/mem/tree_borrows/state_machine_protected.md"]}
{"id": "C35", "title": "Protector bookkeeping is exact", "statement": "In every reachable Tree Borrows memory, for live allocations, a node holds protected permissions exactly if it is protected, and it is protected exactly if some open call lists it; ending the call removes exactly those protectors.", "quantifier": "all histories including nested calls", "why_tests_cant": "all histories", "anchors": ["spec/mem/tree_borrows/memory.md: reborrow, end_call", "spec/mem/tree_borrows/tree.md: Node"]}
{"id": "C36", "title": "Interior-mutability masks match the declared cells", "statement": "For every pointee, the freeze mask used for reborrowing has exactly one entry per byte of the pointee and marks exactly the bytes outside UnsafeCells as frozen.", "quantifier": "all pointee layouts and cell lists", "why_tests_cant": "all layouts", "anchors": ["spec/mem/tree_borrows/reborrow_settings.md: freeze_mask, cells_to_freeze_mask"]}
{"id": "C37", "title": "Retagging a valid reference does not crash the machine", "statement": "Retagging any pointer that satisfies the language invariant, in any reachable Tree Borrows memory, either succeeds or is UB, and never hits an internal failure.", "quantifier": "all reachable memories and valid pointers", "why_tests_cant": "all pointers including zero-sized and out-of-bounds ones", "anchors": ["spec/mem/tree_borrows/memory.md: reborrow"]}
{"id": "C38", "title": "Locks are mutually exclusive and no waiter is lost", "statement": "In every reachable state each lock is held by at most one thread, a thread is blocked on a lock only while another holds it, releasing a contended lock hands it to exactly one waiter, and only the holder can release.", "quantifier": "all interleavings of lock operations of any number of threads", "why_tests_cant": "all schedules", "anchors": ["spec/lang/step/locks.md: lock_acquire, lock_release"]}
{"id": "C39", "title": "Join waits exactly for termination", "statement": "A thread blocked on joining another is woken exactly when that thread terminates and not before; joining a finished thread does not block.", "quantifier": "all schedules and numbers of threads", "why_tests_cant": "all schedules", "anchors": ["spec/lang/step/intrinsics.md: join", "spec/lang/step/terminators.md: terminate_active_thread"]}
{"id": "C40", "title": "Deadlock is reported exactly when nobody can run", "statement": "A step reports deadlock exactly if no thread is enabled; otherwise some enabled thread, and only an enabled thread, takes the step.", "quantifier": "all machine states and scheduler choices", "why_tests_cant": "all schedules", "anchors": ["spec/lang/machine.md: step"]}
{"id": "C41", "title": "Data races are reported", "statement": "If two consecutive steps by different threads access a common byte, at least one of them writes and at least one is non-atomic, and the first step did not synchronise with the second thread, the machine reports UB. (The pinned code fails this for threads that were synchronised at any earlier time.)", "quantifier": "all machine states and pairs of consecutive steps", "why_tests_cant": "all schedules and states", "anchors": ["spec/lang/machine.md: step, reset_data_race_tracking", "spec/mem/concurrent.md: check_data_races, Access::races"]}
{"id": "C42", "title": "The race relation is symmetric and exact", "statement": "Two recorded accesses race exactly if they overlap, at least one is a store and at least one is non-atomic; the relation is symmetric.", "quantifier": "all pairs of accesses", "why_tests_cant": "all address ranges", "anchors": ["spec/mem/concurrent.md: Access::races"]}
{"id": "C43", "title": "Layouts are consistent", "statement": "For every well-formed sized type the size is a multiple of the alignment, fits the target's address space, and fields, array elements and variants lie inside it without overlapping (tuples).", "quantifier": "all well-formed types", "why_tests_cant": "arbitrary nesting", "anchors": ["spec/lang/types.md: layout", "spec/lang/well-formed.md: Type::check_wf"]}
{"id": "C44", "title": "Sizes of unsized values are consistent", "statement": "The size computed for an unsized value from its metadata is a multiple of its alignment, the tail field lies inside at an aligned offset, and the size grows with the metadata.", "quantifier": "all layout strategies and metadata", "why_tests_cant": "all metadata", "anchors": ["spec/lang/types.md: compute_size_and_align, tail_offset"]}
{"id": "C45", "title": "ABI compatibility is an equivalence that preserves layout", "statement": "Argument ABI compatibility is reflexive, symmetric and transitive on sized types and only relates types of equal size and alignment.", "quantifier": "all pairs/triples of well-formed types", "why_tests_cant": "arbitrary nesting", "anchors": ["spec/lang/step/terminators.md: check_abi_compatibility"]}
{"id": "C46", "title": "The overflow pair type is well-formed", "statement": "For every valid integer type, the tuple type (int, bool) of overflow-reporting arithmetic is a well-formed type and the returned pair is well-formed at it.", "quantifier": "all integer types", "why_tests_cant": "all targets and sizes", "anchors": ["spec/lang/types.md: with_overflow"]}
{"id": "C47", "title": "Well-formed programs never crash the machine", "statement": "For every program accepted by the well-formedness check, no reachable step panics (fails an internal assertion); it either makes progress or ends with a documented termination. The pinned check accepts programs that do panic; for programs without the listed gaps the statement holds.", "quantifier": "all programs, all executions, all choices", "why_tests_cant": "all programs", "anchors": ["spec/lang/well-formed.md: Program::check_wf", "spec/lang/machine.md: step"]}
{"id": "C48", "title": "Expressions evaluate to values of their static type", "statement": "Evaluating a well-formed expression in a reachable state either stops or gives a value (place) of the static type, which is well-formed at it.", "quantifier": "all expressions and reachable states", "why_tests_cant": "all programs", "anchors": ["spec/lang/step/expressions.md: eval_value, eval_place", "spec/lang/well-formed.md: ValueExpr::check_wf"]}
{"id": "C49", "title": "Stack frames own their locals", "statement": "In every reachable state the return and argument locals of every frame are live allocations, popping a frame frees exactly the frame's live locals, and locals of different frames never alias.", "quantifier": "all programs and schedules", "why_tests_cant": "all programs", "anchors": ["spec/lang/step/terminators.md: create_frame, Return", "spec/lang/step/statements.md: storage_live, storage_dead"]}
{"id": "C50", "title": "Unwinding visits only the blocks it may visit", "statement": "Control only transfers to blocks of the kind allowed: regular blocks never resume unwinding, cleanup blocks are entered only by unwinding, and the program counter always denotes an existing statement or terminator.", "quantifier": "all programs and executions", "why_tests_cant": "all programs", "anchors": ["spec/lang/step/terminators.md", "spec/lang/well-formed.md: check_next_block, check_unwind_block"]}
{"id": "C51", "title": "Program output is append-only and only printing changes it", "statement": "Each step appends to stdout and stderr at most what a print intrinsic prints; nothing already printed changes.", "quantifier": "all executions", "why_tests_cant": "all executions", "anchors": ["spec/lang/step/intrinsics.md: eval_print"]}
{"id": "C52", "title": "A run ends normally exactly at exit without leaks", "statement": "The machine stops successfully only through the exit intrinsic (or end of the main function as specified) and only when no heap allocation is live; a leak is reported otherwise.", "quantifier": "all executions", "why_tests_cant": "all executions", "anchors": ["spec/lang/step/intrinsics.md: Exit"]}
{"id": "C53", "title": "Initial memory matches the program", "statement": "After machine creation every global is a live allocation holding exactly its bytes with relocations resolved to pointers, and all functions and vtables have distinct non-null addresses.", "quantifier": "all programs and address choices", "why_tests_cant": "all programs and choices", "anchors": ["spec/lang/machine.md: Machine::new"]}
{"id": "C54", "title": "Function and vtable pointers resolve exactly", "statement": "Calling through a pointer reaches the function whose address it is; a pointer with any other address or without the right provenance is UB; method lookup yields the vtable's method.", "quantifier": "all states and pointers", "why_tests_cant": "all pointers", "anchors": ["spec/lang/machine.md: fn_from_ptr, vtable_from_ptr"]}
{"id": "C55", "title": "Union chunks keep all data", "statement": "The chunks computed for a union cover every byte that any field's encoding can initialise, and nothing beyond the union, so copying the union preserves all of its fields. (The pinned code fails this for wide pointers.)", "quantifier": "all union field lists", "why_tests_cant": "arbitrary nested field types", "anchors": ["tooling/minimize/src/chunks.rs: calc_chunks"]}
{"id": "C56", "title": "Union chunks are sorted, disjoint, in bounds and maximal", "statement": "The computed chunk list is sorted, without overlap or adjacency, inside the union's size, and covers exactly the marked bytes.", "quantifier": "all marker arrays", "why_tests_cant": "all arrays", "anchors": ["tooling/minimize/src/chunks.rs: calc_chunks", "spec/lang/well-formed.md: Type::Union check"]}
{"id": "C57", "title": "Array interior-mutability ranges cover all elements", "statement": "The UnsafeCell ranges computed for an array type are those of its element type shifted to each of the elements. (The pinned code only produces elements 0 and 1.)", "quantifier": "all array types", "why_tests_cant": "all counts and element types", "anchors": ["tooling/minimize/src/ty.rs: cells_in_sized_ty"]}
{"id": "C58", "title": "Enums as translated by minimize are coherent", "statement": "The enum types that minimize builds from rustc's direct and niche tag encodings are coherent: the discriminator recognises every encoded value of each variant, finds the tag in the bytes whenever it answers, and the tag does not overlap the variant's data, so representation round trips hold for them. In particular Option<&T>.", "quantifier": "all variant lists, tag offsets and types, niche starts, pointee descriptions, machine states and values", "why_tests_cant": "Tests translate and run a handful of enums; the claim is about every enum layout rustc can produce and every value and byte pattern.", "anchors": ["tooling/minimize/src/enums.rs", "spec/lang/representation.md"]}
{"id": "C59", "title": "Only well-formed values are loaded, stored and transmuted", "statement": "check_value accepts a value at a type exactly if it is well-formed there: integers in range, booleans, pointers with an address and metadata in range, references and boxes non-null, aligned, inhabited, at most isize::MAX bytes and dereferenceable for the size that the metadata or vtable gives, tuples and arrays with the right number of well-formed parts, union chunks of the right lengths, enums with an existing variant. Typed loads and transmutes only return such values and typed stores only store such values.", "quantifier": "all types, values, machine states and targets", "why_tests_cant": "types nest without bound and the pointer checks depend on the state of memory and vtables", "anchors": ["spec/lang/representation.md:482-619", "spec/lang/representation.md:790-802"]}
{"id": "C60", "title": "Stopping unwinding always finds a payload", "statement": "In every reachable state of a well-formed program every thread has at least as many unwind payloads as frames that are being unwound, so a StopUnwind terminator never fails: it drops the latest payload and continues in the given block.", "quantifier": "all well-formed programs whose functions start in a regular block, all reachable states, threads and choices", "why_tests_cant": "needs an invariant over nested unwinding through any number of frames", "anchors": ["spec/lang/step/terminators.md", "spec/lang/machine.md:99-121"]}
{"id": "C61", "title": "Memory is allocated and freed only where the program says so", "statement": "In every execution an allocation that a step frees is the local of the StorageDead or StorageLive executed, belongs to the frame that a Return or ResumeUnwind leaves, or is heap memory freed by Deallocate; an allocation that a step makes is new and belongs to an Allocate, a StorageLive, or the frame a Call or Spawn creates.", "quantifier": "all programs, schedules, choices, steps and allocations, for both memory models", "why_tests_cant": "needs an invariant linking every live stack allocation to a frame, over executions of any length", "anchors": ["spec/lang/step/statements.md", "spec/lang/step/terminators.md", "spec/lang/step/intrinsics.md"]}
{"id": "C62", "title": "Statements write their destination and nothing else", "statement": "In every execution an assignment writes the representation of the assigned value to the place assigned to, Deinit erases the bytes of its place, SetDiscriminant writes the tags of the variant, Validate stores back the value held (up to permissions); every other byte that existed keeps its contents. PlaceMention, StorageLive, StorageDead, jumps and unwinding change no existing byte.", "quantifier": "all programs, reachable states, statements, places and choices, for both memory models", "why_tests_cant": "a stray write can hit any byte of any allocation; tests look at few bytes", "anchors": ["spec/lang/step/statements.md", "spec/lang/machine.md", "spec/mem/basic.md"]}
{"id": "C63", "title": "Calls hand over the arguments", "statement": "A call enters the function its callee designates, with matching calling convention and ABI-compatible types; the new frame is on top, at the start block, its parameters hold the argument values; the return place and in-place arguments are erased and nothing else that existed is written.", "quantifier": "all programs, reachable states, calls with any number of arguments of any type", "why_tests_cant": "arguments of all types in any number; frame conditions over all memory", "anchors": ["spec/lang/step/terminators.md"]}
{"id": "C64", "title": "Returns hand over the return value", "statement": "A return leaves the top frame, stores the value of its return variable in the return place of the call, writes nothing else, and the caller continues at the next block; the bottom frame's value is dropped and the thread has no frames left.", "quantifier": "all programs, reachable states and returns", "why_tests_cant": "frame condition over all memory and stacks of any depth", "anchors": ["spec/lang/step/terminators.md"]}
{"id": "C65", "title": "Control goes where the program says", "statement": "Goto, Switch, intrinsics, statements, StorageLive and StorageDead, StartUnwind, StopUnwind and ResumeUnwind move the active frame exactly to the block and statement given, with variables and payloads changed only as described and all other frames unchanged. Switch takes the first case for its value, or the fallback.", "quantifier": "all programs, reachable states, all terminators and statements", "why_tests_cant": "all programs and stacks", "anchors": ["spec/lang/step/terminators.md", "spec/lang/step/statements.md", "spec/lang/machine.md"]}
{"id": "C66", "title": "A step concerns its own thread only", "statement": "A step leaves frames and payloads of other threads unchanged; another thread's state changes only from waiting for a lock or for the active thread to enabled. Program and addresses of globals, functions and vtables never change; exposed provenances and locks only change by their intrinsics.", "quantifier": "all programs, reachable states, schedules and threads", "why_tests_cant": "any number of threads and interleavings", "anchors": ["spec/lang/machine.md", "spec/lang/step/locks.md"]}
{"id": "C67", "title": "Expressions mean what the language says", "statement": "If evaluation of a value or place expression succeeds, its result is one given by a separate declarative semantics (loads yield what the aligned place holds, fields and elements are at their offsets within one live object, pointer arithmetic stays within the object, ...), and evaluation changes no byte, object or control.", "quantifier": "all expressions, machine states, both memory models", "why_tests_cant": "expressions of any depth in arbitrary memory states", "anchors": ["spec/lang/step/expressions.md", "spec/lang/step/operators.md", "spec/lang/machine.md"]}
{"id": "C68", "title": "Intrinsics yield what they say", "statement": "Each intrinsic's result is determined by its arguments and the state: Spawn makes a new thread that runs the designated function on the given argument, Allocate yields a new uninitialised object, exposed provenances come from exposed ones, atomic loads, stores, compare-exchange and fetch-and-op read and write as their names say; the result is stored in the return place and nothing else is written.", "quantifier": "all programs, reachable states, arguments and types", "why_tests_cant": "all states and operand values", "anchors": ["spec/lang/step/intrinsics.md", "spec/lang/step/locks.md"]}
{"id": "C69", "title": "Memory comparison compares bytes", "statement": "RawEq yields whether the initialised bytes two references of one type point to are equal, regardless of provenance.", "quantifier": "all programs, reachable states, pointee sizes", "why_tests_cant": "byte sequences of any length", "anchors": ["spec/lang/step/intrinsics.md"]}
{"id": "C70", "title": "Undefined behaviour of expressions is exactly the absence of a meaning", "statement": "In the basic memory model, an expression that has a meaning in the declarative semantics evaluates to it, or the machine panics. For accepted programs without gaps, evaluation yields a value exactly if it is the meaning of the expression, and is undefined behaviour exactly if the expression has no meaning.", "quantifier": "all expressions, reachable states of all programs", "why_tests_cant": "the absence of undefined behaviour for all expressions of any depth in arbitrary memory states", "anchors": ["spec/lang/step/expressions.md", "spec/lang/step/operators.md", "spec/lang/machine.md", "spec/mem/basic.md"]}
{"id": "C71", "title": "Tree Borrows only adds undefined behaviour to whole programs", "statement": "Every execution of a program with the Tree Borrows memory is matched, step by step and with the same choices, by an execution with the basic memory: matching states agree in program, threads, locks, output, addresses and contents of objects, except that the basic memory may be more defined (provenance where Tree Borrows has none). Every ending other than undefined behaviour and every run that never ends is matched as well, so what a program can output and how it can end with Tree Borrows it can with the basic memory.", "quantifier": "all programs, all executions (finite and infinite), all choices", "why_tests_cant": "a relation between two memory models over all programs and executions", "anchors": ["spec/mem/tree_borrows/memory.md", "spec/mem/basic.md", "spec/lang/machine.md", "spec/lang/step"]}
{"id": "C72", "title": "Initialising memory never adds undefined behaviour", "statement": "If in a reachable state of the machine with the basic memory some uninitialised bytes are given values, every execution from that state is still possible with the same choices, output and (proper) ending, in states that are at least as defined.", "quantifier": "all programs, reachable states, sets of bytes, values, and executions from there", "why_tests_cant": "any subset of the uninitialised bytes and any continuation of any program", "anchors": ["spec/mem/basic.md", "spec/lang/representation.md", "spec/lang/step"]}
{"id": "C73", "title": "Functions made with the builder run the structured program they were written as", "statement": "A function made with the function builder from a structured program (sequences, declarations, statements, intrinsics, calls with and without unwinding, handlers, if, while, switch, endings) executes exactly that program: from its first block on, every block does the next thing the structured program does, and every step of an execution of a program made of such functions is the next thing to do in the plan of some thread, where branches are chosen by the values of their conditions, calls put the body of the callee in front, returns go on after the call and unwinding goes on with the handler.", "quantifier": "all structured programs of any size and nesting, all reachable states of all programs made of them, both memory models", "why_tests_cant": "arbitrary nesting of loops, branches and handlers, and executions of any length", "anchors": ["tooling/miniutil/src/build/mod.rs", "tooling/miniutil/src/build/terminator.rs", "tooling/miniutil/src/build/statement.rs"]}
{"id": "C74", "title": "What the builder accepts, and how it numbers variables", "statement": "The builder makes a function for a structured program exactly if nothing follows code that cannot get to its end, handlers and the whole body cannot get to their ends, and the cases of each switch differ; otherwise it panics. Variables are numbered in order of declaration, arguments first; an undeclared return variable comes last and has the unit type.", "quantifier": "all structured programs, headers and names", "why_tests_cant": "all nestings of constructs", "anchors": ["tooling/miniutil/src/build/mod.rs", "tooling/miniutil/src/build/terminator.rs", "tooling/miniutil/src/build/statement.rs"]}
{"id": "C75", "title": "Functions made with the builder are well-formed exactly if their parts are", "statement": "The well-formedness check accepts a built function exactly if it accepts the types of its variables and the expressions, statements and calls of its body, and code is left and unwinds as its kind of block allows. The blocks, jumps, kinds and unit places that the builder adds never make the check fail.", "quantifier": "all structured programs, headers and surrounding programs", "why_tests_cant": "all nestings of constructs", "anchors": ["tooling/miniutil/src/build/mod.rs", "tooling/miniutil/src/build/terminator.rs", "tooling/miniutil/src/build/statement.rs", "spec/lang/well-formed.md"]}
{"id": "C76", "title": "The boolean expressions of the builder compute the boolean operations", "statement": "If its operands evaluate to booleans then not, bool_and, bool_or and bool_xor evaluate to the negation, conjunction, disjunction and exclusive disjunction, after evaluating both operands from left to right without short circuit, and bool_to_int yields 0 or 1 at every integer type. The check gives them the right types.", "quantifier": "all operand expressions, states, memory models and integer types", "why_tests_cant": "operands are arbitrary expressions in arbitrary states", "anchors": ["tooling/miniutil/src/build/expr.rs", "spec/lang/step/operators.md"]}
{"id": "C77", "title": "The machine is never stuck unless memory is full", "statement": "A program that passes the checks can start if its globals, functions, vtables and first frame fit into the address space. In every reachable state every enabled thread can take a step, that is, there are choices of addresses, provenances and woken threads with which the step goes on or ends the execution, provided the addresses past all live objects have room for what that step allocates. Steps that allocate nothing need no room.", "quantifier": "all well-formed programs, reachable states, threads and both memory models", "why_tests_cant": "a test fixes one way of making the choices; that some choice always exists is a statement about every reachable state", "anchors": ["spec/lang/machine.md", "spec/mem/basic.md", "spec/lang/step/statements.md", "spec/lang/step/terminators.md", "spec/lang/step/intrinsics.md", "spec/lang/step/locks.md"]}
{"id": "C78", "title": "A step is undefined behaviour exactly if it is not allowed", "statement": "For every kind of statement, terminator and intrinsic there is a condition on the state in which a thread takes its turn, stated in terms of the meaning of expressions and of live memory, that says when the step is allowed. In the basic memory model a step goes on, or ends the execution regularly, only if it is allowed; it is undefined behaviour only if it is not allowed or races with the step before; and in programs that cannot panic a step that is not allowed is always undefined behaviour. This is the complete list of undefined behaviour of the language.", "quantifier": "all well-formed programs without gaps, reachable states, threads and choices, basic memory model", "why_tests_cant": "completeness of a list of undefined behaviour quantifies over every step of every program; a test can only show single cases", "anchors": ["spec/lang/step/statements.md", "spec/lang/step/terminators.md", "spec/lang/step/intrinsics.md", "spec/lang/step/expressions.md", "spec/lang/machine.md", "spec/mem/basic.md"]}
{"id": "C79", "title": "Well-typed MIR becomes well-formed MiniRust", "statement": "Translating a body of well-typed MIR, in any context that the translation of a program can reach and with its blocks taken in any order, gives a function or says that something is not supported; it never panics, overwrites a block or runs out of steps. A program whose translation ends passes the well-formedness check of the language.", "quantifier": "all compilers' answers and all MIR satisfying the typing rules of MIR, all orders of translation", "why_tests_cant": "tests translate the programs someone wrote, with one order of a hash map; ill-formed output shows only in constructs that occur in them", "anchors": ["tooling/minimize/src/function.rs", "tooling/minimize/src/bb.rs", "tooling/minimize/src/rvalue.rs", "tooling/minimize/src/constant.rs", "tooling/minimize/src/vtable.rs", "tooling/minimize/src/program.rs"]}
{"id": "C80", "title": "Everything in a translated program has its own name and is what it should be", "statement": "In the translation of well-typed MIR (without the constructs that C79 excludes) different functions, allocations and vtables have different names and all are in the program. Every function but the start function is the translation of the body of the function with its name; the start function overwrites none and calls the entry function. Every global has the bytes and the alignment of its allocation, and its relocations are at the places of its pointers, point to the globals of the allocations they point into, and have the offsets that its bytes hold. Every vtable has size, alignment and cells of its type, and its methods call the functions in the slots that the compiler gives.", "quantifier": "all compilers' answers and MIR, all orders of translation", "why_tests_cant": "name clashes and mixed-up relocations depend on the order in which functions and allocations are met, over unboundedly many of them, including cyclic ones", "anchors": ["tooling/minimize/src/program.rs", "tooling/minimize/src/constant.rs", "tooling/minimize/src/vtable.rs"]}
{"id": "C81", "title": "Translated functions do what their MIR does", "statement": "In the translation of well-typed MIR (without the constructs that C79 excludes) every function except for the start function does what the MIR body of the function with its name does. Places, operands and rvalues have, in every state of every machine that runs the function, exactly the meanings that MIR gives them: the same places, the same values, and no meaning where MIR has none (for instance on overflow of unchecked operators, division by zero or out-of-bounds indices). Statements are done in their order, on the right places. Terminators go to the translations of the MIR targets: switches compare the bits of the targets at the type of the operand, assertions panic unless the condition is the expected one, calls call the function, function pointer or vtable method with the arguments in order (moved ones in place, the tuple of rust-call spread) and continue and unwind where MIR says, drops call the drop function with a pointer to the place, catch_unwind and the other intrinsics are their code. The function has a local for each MIR local, of its type, its parameters are the arguments (the spread one reassembled from its fields), and it starts with storage for the locals that are always live.", "quantifier": "all compilers' answers and well-typed MIR programs, all orders of translation, all states of all machines that run translated functions, both memory models", "why_tests_cant": "the tests run a few dozen translated programs on one execution each; a wrong operator, operand order, variant number, cast or jump target shows only for the values and paths that happen to be run", "anchors": ["tooling/minimize/src/bb.rs", "tooling/minimize/src/rvalue.rs", "tooling/minimize/src/constant.rs", "tooling/minimize/src/function.rs"]}
{"id": "C82", "title": "Executions of translated programs are executions of MIR", "statement": "Whatever state a machine running a translated program reaches, it has come there by steps of MIR. Every frame of every thread has a task: the rest of a block of MIR, the entry of a function, a part of catch_unwind, or the start function. Each step of the machine is one of these tasks: an assignment stores the value of the rvalue in the place, and nothing else changes; storage, retagging and discriminants are as MIR says; a switch goes to the block of the target that has the value of the operand, an assertion goes on if its condition is the expected one and otherwise panics; a call enters the function of that instance, pointer or vtable method with the values of the arguments in its locals, the places of moved arguments and the destination losing their contents; a return stores the value of local 0 where the call wants it and continues with the block after the call; panics and unwinding continue with the unwind target of each call; catch_unwind continues with the caught panic; drops call the drop function. The program starts by calling the entry function, and new threads enter a function.", "quantifier": "all compilers' answers and well-typed MIR programs, all orders of translation, all executions of all lengths, all threads and schedules, both memory models", "why_tests_cant": "tests run single executions of a few programs; that each step of every execution corresponds to a step of the source needs an invariant relating every frame of every stack to a position in MIR", "anchors": ["tooling/minimize/src/bb.rs", "tooling/minimize/src/function.rs", "tooling/minimize/src/program.rs", "spec/lang/step/terminators.md", "spec/lang/step/statements.md"]}
{"id": "C83", "title": "Rust types become well-formed types of the same layout", "statement": "For every Rust type whose layout, as the compiler gives it, is sane (fields inside the type and disjoint, valid sizes that are multiples of the alignment, enum tags inside the enum, discriminants and niche tags within the range of the tag), the translation ends and returns a well-formed MiniRust type with the size and alignment of the Rust type (of the elements, for slices). Tuples, structs and closures become tuples with each field at its offset and of its translated type. The information about the pointee of a pointer is well-formed and has the pointee's layout. So the answers on types that the translation of programs needs (C79) are what they have to be. False for: a field declared before a zero-sized field at the same offset, enums whose variants are all uninhabited, niche-encoded enums with uninhabited variants, pointers to pattern types, pointers to arrays with one UnsafeCell.", "quantifier": "all types of all depths and sizes, all layouts the compiler may choose, all encodings of enums", "why_tests_cant": "the layouts are the compiler's choice and the tests see those of a few dozen types; niches, reordered fields and wrap-around ranges meet in ways no list of examples covers", "anchors": ["tooling/minimize/src/ty.rs", "tooling/minimize/src/enums.rs", "spec/lang/well-formed.md"]}
{"id": "C84", "title": "Translated enums read and write the tags of Rust enums", "statement": "Whatever bits the tag of a translated enum has, reading the discriminant gives the discriminant of the variant that the tag means in Rust, or finds the tag invalid when it means none: with direct encoding the tag is the discriminant; with niche encoding tags outside of the valid range (which may wrap around) and the unused tag of the untagged variant are invalid, the niche variants have consecutive tags from the niche start on, modulo the number of tags, and all other tags mean the untagged variant. Every tag means exactly one of these. Each variant is entered under its discriminant, which is the one that discriminant_for_variant returns, with the tuple of its fields at the offsets of the variant, and with a tagger that writes a tag that means this variant; only the untagged variant has none. With one inhabited variant, its discriminant is read without a tag. False for niche-encoded enums with uninhabited variants (the value of another variant can be read as the uninhabited one) and for those with a signed tag and more variants than the tag has positive values (a variant is entered under a wrong discriminant).", "quantifier": "all enums, tags of all integer types, all encodings, all bits of the tag, all ways to read memory", "why_tests_cant": "a wrong offset in the niche arithmetic, an off-by-one at the end of a range or a wrong sign shows only for particular tags of particular layouts", "anchors": ["tooling/minimize/src/enums.rs", "spec/lang/representation.md"]}
{"id": "C85", "title": "Running a program gives exactly its behaviours", "statement": "The function that runs a program can report an ending together with some output if and only if the program has an execution that writes that output and ends so, or the program is refused before it starts (then nothing is written). It panics only if the machine does, and with given choices it goes on for ever if and only if the execution with these choices does. It reports that the program is ill-formed, with a message, if and only if the well-formedness check fails with that message; the check itself never reports anything else. A program that is refused is ill-formed or undefined behaviour at its start.", "quantifier": "all programs, both memory models (and any other for the first claims), all choices, runs of any length", "why_tests_cant": "a test sees the runs that the random choices of one process happen to make", "anchors": ["tooling/miniutil/src/run.rs", "spec/machine/machine.md", "spec/lang/well-formed.md"]}
{"id": "C86", "title": "Captured output is what the program printed", "statement": "The lines that get_stdout returns are, in order, the decimal numerals and truth values of the values that some execution of the program that ends normally passes to the print intrinsic, one line for each; every such execution can be captured. Different values are shown as different lines. Other endings are reported as they are, and capturing panics only when running the program does: splitting the text into lines never fails.", "quantifier": "all programs, both memory models, all executions, all printed values", "why_tests_cant": "tests compare a few fixed outputs", "anchors": ["tooling/miniutil/src/run.rs", "tooling/miniutil/src/mock_write.rs", "spec/machine/intrinsics.md"]}
{"id": "C87", "title": "The command line runs the program with the memory model that is asked for", "statement": "Arguments with the prefix --minirust- other than --minirust-tree-borrows are errors; that argument is taken out and the others are kept in order; Tree Borrows is used if and only if it occurs. The command ends without a message if and only if the program, read from the one file that is named or else from the standard input, can stop normally with the memory model that is asked for; it ends with the message for another ending if and only if the program can end so. A run that does not end in undefined behaviour with Tree Borrows exists in the same way without.", "quantifier": "all argument lists, all programs, all choices", "why_tests_cant": "the command line has no tests; an argument list is unbounded", "anchors": ["tooling/miniutil/src/cli.rs", "tooling/minirun/src/main.rs"]}
{"id": "C88", "title": "The assertions of the tests are sound", "statement": "An assertion of the test suite about a single run can pass if and only if the program can end so; assert_ub_eventually and has_data_race can succeed if and only if the program can end with that undefined behaviour. has_data_race says no, and assert_stop_always passes, exactly if every run that was tried stops normally; this does not mean that the program has no data race.", "quantifier": "all programs, both memory models, all choices, any number of attempts", "why_tests_cant": "it is a statement about the tests themselves", "anchors": ["tooling/minitest/src/lib.rs", "tooling/miniutil/src/run.rs"]}
{"id": "C89", "title": "The well-formedness check decides every program", "statement": "Of every program the well-formedness check says that it is well-formed or that it is ill-formed (false: it crashes for some programs). It gives an answer for every program that has no local or argument without a layout, no elements without a layout in a type it mentions, no union field with a negative number, no transmute from or to a type without a layout, no overflow arithmetic on integers of odd size and no method lookup in an unknown trait; and a program with one of these is never accepted.", "quantifier": "all targets, all programs, all types and expressions of any nesting", "why_tests_cant": "the tests only check programs that are well-formed or ill-formed in one known way; whether some program crashes the check is a question about all programs", "anchors": ["spec/lang/well-formed.md", "spec/lang/types.md"]}
{"id": "C90", "title": "Accepted programs are printed", "statement": "The pretty printer prints every program that the well-formedness check accepts (false: it panics on pointers to places other than raw pointers and references, and on some transmutations). It prints a program exactly if its expressions are printable (tuples have a tuple or array type, pointers that are made are raw pointers or references) and every composite type it mentions, or that is inside one of these, has a layout; every accepted program without the two constructs above is printed, and the text does not depend on how long the loop over composite types may run.", "quantifier": "all targets, all programs, expressions and types of any nesting", "why_tests_cant": "the tests print a handful of programs; that no accepted program crashes the printer is about all of them", "anchors": ["tooling/miniutil/src/pretty/mod.rs", "tooling/miniutil/src/pretty/expr.rs", "tooling/miniutil/src/pretty/ty.rs", "tooling/miniutil/src/pretty/function.rs"]}
{"id": "C91", "title": "Each composite type is declared once, under the number by which it is referred to", "statement": "The printed text of a program declares each tuple, union and enum type that occurs in it, or inside one of these, exactly once and no other type; the i-th declaration has number i, and all references in functions and in declarations are made with the table of all declarations, which they do not extend.", "quantifier": "all targets, all programs that are printed", "why_tests_cant": "the table grows while the functions and the declarations are printed; that the loop reaches all types and leaves no number undeclared needs an invariant over all programs", "anchors": ["tooling/miniutil/src/pretty/ty.rs", "tooling/miniutil/src/pretty/mod.rs"]}
{"id": "C92", "title": "The text of an accepted program can be read in only one way", "statement": "If two accepted expressions, places, statements or terminators have the same printed text, with the same table of composite types, they are the same up to what the text leaves out: the types of constants and tuples, the cells of pointees and the traits of vtable pointers, and the pointer type of pointers that are made. Statements and terminators can also be told from what follows. Two accepted programs with the same text that declare the same types have the same functions, blocks, locals, globals, vtables and traits, up to that, to the calling conventions of functions and to the cells of vtables. (What the text leaves out matters: there are accepted programs with the same text that behave differently; and without the check, the text is ambiguous.)", "quantifier": "all targets, programs, functions, tables, expressions of any nesting, all texts that follow", "why_tests_cant": "ambiguity is a property of pairs of programs; the tests print few and compare none", "anchors": ["tooling/miniutil/src/pretty/expr.rs", "tooling/miniutil/src/pretty/function.rs"]}
{"id": "C93", "title": "The text of a program does not depend on the order of its maps", "statement": "Two programs that are the same up to the order of their maps and sets have the same printed text (false for the methods of vtables and the cases of switches, which are printed in the order of the map). It holds for the order of the functions, globals, traits and vtables, the locals and basic blocks of functions and the methods of traits.", "quantifier": "all targets, all programs with unique names, all orders", "why_tests_cant": "the order of iteration of the maps is fixed in one run of a test", "anchors": ["tooling/miniutil/src/pretty/function.rs", "tooling/miniutil/src/pretty/global.rs", "tooling/miniutil/src/pretty/vtables.rs"]}
{"id": "C94", "title": "Leaving out a read never adds undefined behaviour", "statement": "If a load succeeds, or an expression that makes no references is evaluated, or a place is mentioned, then everything that can happen afterwards can also happen if the load (expression, mention) is left out: the same choices lead to a state that differs only in the borrow trees and the recorded accesses, with the same output and the same endings. (Adding a load can add undefined behaviour.)", "quantifier": "all targets, all machine states, expressions, loads and executions after them, with Tree Borrows and with the basic memory", "why_tests_cant": "all later executions of all programs after all reads", "anchors": ["spec/mem/tree_borrows/state_machine_protected.md", "spec/mem/tree_borrows/state_machine_unprotected.md", "spec/mem/tree_borrows/tree.md", "spec/mem/tree_borrows/memory.md", "spec/lang/step/expressions.md", "spec/mem/concurrent.md"]}
{"id": "C95", "title": "The program builder puts together exactly what was declared", "statement": "Whatever functions, globals, traits and vtables are declared and finished with a ProgramBuilder, in whatever order: the finished program contains exactly the finished functions under the numbers of their declarations, the globals zeroed and with the size and alignment of their types, the finished traits with methods numbered from 0, the finished vtables with the declared data and the last function added for each method, and the given start function with the C calling convention. The builder panics exactly if a body is not proper, a type is not sized, a vtable is finished before its trait or with other methods, or the start function is not finished. The program is well-formed exactly if the sizes and cells of the vtables, the functions and the signature of the start function are.", "quantifier": "all targets, all sequences of calls to the program builder of any length, all functions, types and vtables", "why_tests_cant": "all sequences of declarations in any interleaving", "anchors": ["tooling/miniutil/src/build/mod.rs", "tooling/miniutil/src/build/global.rs", "spec/lang/well-formed.md"]}
{"id": "C96", "title": "Expressions that only read can be evaluated again and in any order", "statement": "With Tree Borrows and with the basic memory: a load that succeeded can be repeated after any other loads, gives the same bytes and leaves the memory and its trees exactly as they are. A value expression that makes no references, evaluated again after any number of such expressions, has the same value and changes nothing. Two such expressions have the same values and lead to the same state in both orders, and one order succeeds exactly if the other does.", "quantifier": "all targets, all states of the machine, all expressions of any depth without reference-taking, all numbers of loads in between", "why_tests_cant": "all expressions, states, trees and interleavings of reads", "anchors": ["spec/mem/tree_borrows/state_machine.md", "spec/mem/tree_borrows/tree.md", "spec/mem/tree_borrows/memory.md", "spec/lang/step/expressions.md"]}
{"id": "C97", "title": "minimize hands each argument to the right place", "statement": "The driver of minimize accepts its arguments exactly if those with its own prefix and those with the machine's prefix are known and a dump is asked for at most once; its configuration is then what they say, and the compiler gets the name of the program, the sysroot where one is needed, the default arguments and then exactly the other arguments of the user in their order. As a compiler it passes everything on, with panics aborting exactly in the crate panic_abort. The sysroot is the one of the environment and is built for the argument after the first --target or else for the host. A program is dumped in the format asked for and not run, or else it is run with the memory model the arguments name: the process can end with an ending of the program exactly if the program can end so and is the same after JSON should that be checked.", "quantifier": "all lists of arguments of any length, all environments, all compilers and JSON libraries, all programs, targets and executions", "why_tests_cant": "all argument lists and environments; whole executions of any length", "anchors": ["tooling/minimize/src/main.rs", "tooling/minimize/src/sysroot.rs", "tooling/miniutil/src/json.rs"]}
{"id": "C98", "title": "The bytes behind a protected reference change only through it", "statement": "With tree borrows, from the retag of a function argument until its call ends: the bytes of a shared reference outside of cells are the same in all loads, through whatever pointers they are loaded and whatever happens between, so what was loaded through the reference can be loaded again with the same result. A byte that was loaded through a mutable reference or box, or stored through it, is the same in all later loads, through whatever pointers, until it is stored to through a pointer derived from that reference; after a store such loads give what was stored.", "quantifier": "all histories of memory operations of any length before, between and after, all pointers, all reference and box types, all sizes and cells", "why_tests_cant": "the histories between the two accesses are of any length and may use any pointers", "anchors": ["spec/mem/tree_borrows/memory.md", "spec/mem/tree_borrows/state_machine_protected.md", "spec/mem/tree_borrows/reborrow_settings.md", "spec/mem/basic.md"]}
{"id": "C99", "title": "Every execution is a history of memory operations", "statement": "The memory of a machine changes only by operations of the memory interface: each step does some sequence of them, and only those that the statement or terminator may do. In particular heap memory is allocated and freed only by the intrinsics for it, stack memory only where storage begins or ends, stores happen only in instructions that write, and the protectors of a call end only when that call is left. So everything said about histories of operations (of any length) holds in executions: with tree borrows, in every reachable state a reference to live memory is protected exactly if one call on some stack protects it; and while it stays so, bytes behind a shared reference are the same for all loads, and bytes used through a mutable reference change only by stores through pointers derived from it.", "quantifier": "all programs (well-formed or not), all reachable states, all executions and thread schedules of any length, all choices, all memory models (the statements about protectors: tree borrows)", "why_tests_cant": "all executions of all programs; the connection between steps and memory histories is not visible from outside", "anchors": ["spec/lang/step/statements.md", "spec/lang/step/terminators.md", "spec/lang/step/intrinsics.md", "spec/lang/step/expressions.md", "spec/lang/step/locks.md", "spec/lang/machine.md", "spec/mem/interface.md", "spec/mem/concurrent.md", "spec/mem/tree_borrows/memory.md"]}
{"id": "C100", "title": "What a reference points to stays there until its function returns", "statement": "What the memory promises about histories holds in every execution of every program. Live allocations never overlap. Once an allocation is dead, every later use of a pointer to it is undefined behaviour, even if its address is used again. With tree borrows, when a function retags a reference it was passed, then until the call that did so ends the new reference stays protected, the memory behind it stays live at the same place, and deallocating it is undefined behaviour through every pointer; for a shared reference every aligned load of its bytes outside of cells, through it or a pointer derived from it, succeeds and gives the same bytes as at the beginning. What was loaded through such a reference need not be loaded again before the call ends: a later load of the same place gives the same value, for a mutable reference as long as nothing is stored through it. A reference that is not protected does not survive a store by somebody else: after a store through a pointer not derived from it to a byte behind it (outside of cells), every later access to that byte through it is undefined behaviour.", "quantifier": "all programs (well-formed or not), all reachable states, all executions, schedules and choices of any length; both memory models for the first two parts", "why_tests_cant": "this is the licence for the dereferenceable and readonly attributes: it speaks about all code that may run during a call, in all threads", "anchors": ["spec/mem/basic.md", "spec/mem/tree_borrows/memory.md", "spec/mem/tree_borrows/tree.md", "spec/mem/tree_borrows/state_machine_protected.md", "spec/lang/step/statements.md", "spec/lang/step/terminators.md"]}
