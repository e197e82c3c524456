{
 "C02": {
  "note": "Proved for coherent types; the unconditional statement of the spec is refuted by enums that pass the well-formedness check."
 },
 "C03": {
  "note": "Proved for coherent types; refuted in general."
 },
 "C46": {
  "note": "For x86_64 unconditional; for other targets the pair's size must be valid, which the target decides."
 },
 "C58": {
  "note": "Direct and niche tag encodings of minimize's enums.rs, with the layout facts rustc guarantees as hypotheses, and Option<&T> without them."
 },
 "C36": {
  "note": "Proved for sized pointees, slices, trait objects and for unsized tuples without padding around the tail; with padding the mask is shorter than the pointee (C36_freeze_mask_refuted)."
 },
 "C37": {
  "note": "Proved except for references to zero-sized pointees that lie before their allocation, which crash (C37_retag_total_refuted)."
 },
 "C09": {
  "note": "For basic memory and Tree Borrows, in every machine state."
 },
 "C15": {
  "note": "Proved for integer types of fewer than 2^32 bits; wider ones pass the well-formedness check and crash (C15_count_ones_refuted)."
 },
 "C25": {
  "note": "The offset is defined exactly if the bytes moved over are in one live allocation; otherwise UB."
 },
 "C42": {
  "note": "Proved for accesses of at least one byte; an access of no bytes inside another range counts as a race (C42_races_exact_refuted)."
 },
 "C38": {
  "note": "A waiter always has a holder, but the holder need not be another thread: a thread can wait for a lock it holds itself (C38_another_refuted).",
  "status": "partial"
 },
 "C41": {
  "note": "False of the code: a thread with which any earlier step synchronised is never checked again (C41_races_refuted). Proved for threads with which no step synchronised; no false reports."
 },
 "C50": {
  "note": "For programs whose functions start in an existing regular block, which the well-formedness check does not ensure."
 },
 "C60": {
  "note": "Same hypotheses as C50."
 },
 "C53": {
  "note": "names_unique says that no name is declared twice, which holds for the code's maps by their type."
 },
 "C54": {
  "note": "names_unique as for C53."
 },
 "C55": {
  "note": "Proved for fields without wide pointers. mark_used_bytes marks one word of every pointer, so copying a union drops the metadata of wide pointers (C55_wide_refuted)."
 },
 "C57": {
  "note": "Proved for types whose arrays of cells have two elements. The code only looks at elements 0 and 1 (C57_array_two), so it misses cells of longer arrays and makes ranges outside shorter ones."
 },
 "C47": {
  "note": "Accepted programs can panic (the C47_*_refuted theorems, one per gap of the check and one per remaining cause). Without the gaps (strict_program) a step panics only for the causes of panic_cause (C47_panic), and never for programs without the constructs behind these causes, while there are at most 127 threads and locks (C47_no_panic_*)."
 },
 "C48": {
  "note": "Proved for expressions without the gaps of the check, except for values computed from a size or alignment that is not a usize; both exceptions are real (C48_constant_refuted, C48_size_refuted)."
 },
 "C73": {
  "note": "For functions written with the methods that Cmd covers; stop_unwind (whose next block the client makes itself) is not among them."
 },
 "C78": {
  "note": "Programs without gaps of the check (strict_program); that a step that is not allowed is undefined behaviour, rather than a panic, is for the programs of C47_no_panic_basic."
 },
 "C79": {
  "note": "Proved for MIR without the constructs listed in MirSpec.covered and covered_vtables: panics and catch_unwind in cleanup blocks, dropping unsized places other than trait objects with a drop method, methods of supertraits and vtables of traits with supertraits, and closure calls with a constant tuple. For each of these the property is refuted by a well-typed program."
 },
 "C82": {
  "note": "Invariant over executions: every frame has a task, every step is a step of MIR by the top task. Same assumptions as C81."
 },
 "C83": {
  "note": "Proved for the layouts with MirTySpec's conditions marked plain; each kind of sane layout that they exclude is refuted by an example (C83_zero_sized_refuted, C83_empty_refuted, C83_absent_refuted, C83_pattern_refuted, C83_array_refuted). Pointers to structs with an unsized last field are not supported by the code and not covered. What kind of type each kind of Rust type becomes is C83_kinds_partial, the flags of pointees C83_facts."
 },
 "C84": {
  "note": "Proved for the enums with MirTySpec's conditions marked plain; the others are refuted (C84_absent_refuted, C84_signed_refuted). That tags mean exactly one thing (C84_meaning) holds for all."
 },
 "C85": {
  "note": "The choices of a run are an oracle (libspecr, which makes them, is not part of the repository); the unbounded loop is run for any number of rounds. C85_refused_hyps shows an accepted program whose start is undefined behaviour."
 },
 "C86": {
  "note": "The texts are those of the state before the last step (see Step.v)."
 },
 "C87": {
  "note": "Loading a program from JSON is a parameter."
 },
 "C88": {
  "note": "C88_can_miss shows a program with a data race for which 32 runs stop normally, so that the tests pass."
 },
 "C89": {
  "note": "The full statement is false: C89_local_refuted, C89_elements_refuted, C89_union_field_refuted, C89_transmute_refuted, C89_overflow_refuted, C89_lookup_refuted and C89_argument_refuted give programs for which the check panics. C89_decides_partial proves it for all programs without these constructs, C89_never_accepted that a program with one of them is never accepted; C89_layout says exactly which types have no layout."
 },
 "C90": {
  "note": "The full statement is false: C90_addr_of_refuted and C90_transmute_refuted give accepted programs on which the printer panics. C90_exact says exactly which programs are printed (fuel is the bound on the loop over composite types; C90_text_unique: the text does not depend on it). C90_accepted_partial: accepted programs are printed unless they have one of the two constructs."
 },
 "C91": {
  "note": "F is the table of all declared types; that the functions are printed with F and leave it as it is says that the numbers in their text are positions in F."
 },
 "C92": {
  "note": "forget_value, forget_place, forget_stmt and forget_term (PrettySpec) say what the text leaves out. Proved with a reader of texts (PrettyRead). C92_ill_typed_refuted, C92_parentheses_refuted and C92_programs_refuted show limits: ambiguous texts of ill-typed expressions, unbalanced parentheses, and two accepted programs with the same text of which only one has undefined behaviour. C92_texts is about whole programs: printed (PrettyAlike) also fixes the list of declared types, and alike_programs says what of a program the text shows; the calling convention of functions, the cells of vtables and a start block that does not exist are not shown."
 },
 "C93": {
  "note": "The full statement is false: C93_methods_refuted and C93_cases_refuted. C93_order_partial proves it for all other maps (same_program, PrettyOrder). Variants of enums are part of types, which are compared as they are in the model."
 },
 "C94": {
  "note": "XSim: two states of the machine that differ only in the memory, by any relation that the memory operations keep. TreeDrop: the relation is that permissions have seen more reads. C94_converse_fails shows that the other direction is false."
 },
 "C95": {
  "note": "SessionSpec: a session is a list of calls; what was declared is read off the list. Using a builder that was not handed out or was moved away is no Rust program (NoBehavior)."
 },
 "C96": {
  "note": "The expressions are those without address-of at a reference or box type, as in C94. The state is the same except for the accesses recorded in the current step, whose order differs. Address-of at a reference type creates a new tree node, so it is out of scope by design."
 },
 "C97": {
  "note": "The compiler, the JSON library and the build of the sysroot are parameters of the model. C97_target_ignored is a finding: a target given as --target=... is not seen when the sysroot is built, so the sysroot is one for the host."
 },
 "C98": {
  "note": "Histories are those of the memory interface with tree borrows; the loads are by any pointers into the allocation."
 },
 "C99": {
  "note": "C99_step, _start, _execution and _history hold for every memory model, C99_leave too. C99_calls and C99_protectors lift C35 to reachable states, C99_shared and C99_mutable lift C98 to executions; C99_reload_shared and C99_reload_mutable say the same about values loaded at a type. C99_entry shows that the retag at function entry establishes what they ask for. No well-formedness is assumed."
 },
 "C100": {
  "note": "C100_disjoint and C100_dead lift C17 and C21 to executions. C100_live, C100_readable and C100_reload start at the retag statement of the function (no condition on the state is assumed but that it is reachable) and hold for every execution in which the call does not end (without_end in KeepSpec); that the protector stays in place is proved, not assumed. C100_live and C100_reload exclude mutable references to types that are not Unpin, which the code does not protect, and bytes of shared references in cells. C100_invalidated lifts C29."
 }
}