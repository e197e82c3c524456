(** The input of the translation of Rust programs: rustc's MIR, as far as tooling/minimize/src reads it, and the questions
    that it asks the compiler.

    None of this is code of the repository. The types below list the cases of rustc's data structures that the code of
    tooling/minimize/src matches on; all cases that end in "not supported" are one case here. Types of Rust are numbers:
    the code only hands them back to the compiler. What the compiler answers is a record of functions ([Rustc]), so that
    a theorem about all such records holds for every compiler. *)
From Verif Require Export Build.

(** rs::Ty, an interned type *)
Notation RTy := N (only parsing).
(** rs::Instance, a function with its type arguments *)
Notation Inst := N (only parsing).
(** rs::AllocId, an allocation of the compile-time interpreter *)
Notation RAlloc := N (only parsing).
(** rs::Local and rs::BasicBlock, indices into the lists of a body *)
Notation RLocal := nat (only parsing).
Notation RBb := nat (only parsing).

(** ** Places and operands *)

(** rvalue.rs:409-443 smir::ProjectionElem *)
Inductive Proj :=
| PjField (f : nat) (ty : RTy)
| PjDeref
| PjIndex (l : RLocal)
| PjDowncast (v : nat)
| PjOther.

(** rvalue.rs:400-408 smir::Place *)
Record RPlace := mkRPlace { rp_local : RLocal; rp_proj : list Proj }.

(** constant.rs:15-120 what the code reads from a constant: its type and, by the kind of the type, the bits of a scalar,
    a boolean, a pointer (the allocation it points into, if any, the offset or address, and the element count of a wide
    pointer), the fields of a tuple, struct, closure or array, or a variant of an enum with its index and fields. *)
Inductive CVal :=
| CvScalar (ty : RTy) (bits : Z)
| CvBool (ty : RTy) (b : bool)
| CvPtr (ty : RTy) (prov : option RAlloc) (offset : N) (meta : option N)
| CvFields (ty : RTy) (fields : list CVal)
| CvVariant (ty : RTy) (idx : nat) (fields : list CVal)
| CvOther (ty : RTy).

(** rvalue.rs:382-391 smir::RuntimeChecks *)
Inductive RuntimeCheck := RcUb | RcContract | RcOverflow.

(** rvalue.rs:375-393 smir::Operand *)
Inductive ROperand :=
| OpConst (c : CVal)
| OpCopy (p : RPlace)
| OpMove (p : RPlace)
| OpRuntime (c : RuntimeCheck).

(** ** Rvalues *)

(** rvalue.rs:22-77 smir::BinOp *)
Inductive RBinOp :=
| RoAdd | RoSub | RoMul | RoDiv | RoRem | RoShl | RoShr | RoBitAnd | RoBitOr | RoBitXor
| RoAddUnchecked | RoSubUnchecked | RoMulUnchecked | RoShlUnchecked | RoShrUnchecked
| RoLt | RoLe | RoGt | RoGe | RoEq | RoNe | RoCmp
| RoOffset.

(** rvalue.rs:95-104 smir::UnOp *)
Inductive RUnOp := RuNeg | RuNot | RuPtrMetadata.

(** rvalue.rs:225-370 smir::CastKind. [CkFnPtr f] is the coercion of the function [f] to a pointer (ReifyFnPointer). *)
Inductive RCast :=
| CkIntToInt
| CkPtrToPtr
| CkUnsize
| CkTransmute
| CkFnPtr (f : Inst)
| CkExpose
| CkWithExposed
| CkOther.

(** rvalue.rs:129-183 smir::AggregateKind, as far as it is read: the active field of a union and the variant of an enum *)
Record RAggregate := mkAgg { ag_field : option nat; ag_variant : option nat }.

(** rvalue.rs:8-374 smir::Rvalue; aggregates carry their type, [Repeat] its count *)
Inductive Rvalue :=
| RvUse (o : ROperand)
| RvBinary (op : RBinOp) (l r : ROperand)
| RvChecked (op : RBinOp) (l r : ROperand)
| RvUnary (op : RUnOp) (o : ROperand)
| RvRef (mutbl : Mutability) (p : RPlace)
| RvAddressOf (p : RPlace)
| RvAggregate (k : RAggregate) (ty : RTy) (os : list ROperand)
| RvCopyForDeref (p : RPlace)
| RvLen (p : RPlace)
| RvDiscriminant (p : RPlace)
| RvRepeat (o : ROperand) (n : N)
| RvCast (k : RCast) (o : ROperand) (ty : RTy)
| RvOther.

(** ** Statements and terminators *)

(** bb.rs:69-142 rs::StatementKind *)
Inductive RStmt :=
| MsAssign (p : RPlace) (rv : Rvalue)
| MsStorageLive (l : RLocal)
| MsStorageDead (l : RLocal)
| MsRetag (fn_entry : bool) (p : RPlace)
| MsSetDiscriminant (p : RPlace) (v : nat)
| MsAssume (o : ROperand)
| MsPlaceMention (p : RPlace)
| MsOther.

(** bb.rs:620-671 rs::UnwindAction *)
Inductive RUnwind := UwContinue | UwUnreachable | UwTerminate | UwCleanup (b : RBb).

(** bb.rs:464-611 the intrinsics of Rust. [RiAssert ok]: one of the assert_ family, with the answer of
    check_validity_requirement. The type arguments of size_of_val and align_of_val are given. *)
Inductive RsIntrinsic :=
| RiAssert (ok : bool)
| RiRawEq
| RiArithOffset
| RiPtrOffsetFrom (unsigned : bool)
| RiCtpop
| RiExactDiv
| RiSizeOfVal (ty : RTy)
| RiAlignOfVal (ty : RTy)
| RiColdPath
| RiCatchUnwind
| RiAbort
| RiOther.

(** bb.rs:708-880 what the callee of a call resolves to: a function pointer, an intrinsic of Rust, an intrinsic of MiniRust
    by its name, one of the panicking functions of is_panic_fn, a foreign function, a function, or a method of a trait
    object by its index. [spread] says that the function has the "rust-call" ABI. [None] as convention is one that
    translate_calling_convention does not know. *)
Inductive RCallee :=
| CePtr (f : ROperand) (conv : option CallingConvention)
| CeIntrinsic (i : RsIntrinsic)
| CeMini (name : string)
| CePanic
| CeForeign
| CeFn (conv : option CallingConvention) (spread : bool) (f : Inst)
| CeVirtual (conv : option CallingConvention) (spread : bool) (method : N).

(** bb.rs:145-276 rs::TerminatorKind; [MtDrop] names the drop function of the type ([resolve_drop_in_place]) *)
Inductive RTerm :=
| MtReturn
| MtGoto (b : RBb)
| MtCall (f : RCallee) (args : list ROperand) (dest : RPlace) (target : option RBb) (unwind : RUnwind)
| MtSwitch (o : ROperand) (targets : list (Z * RBb)) (otherwise : RBb)
| MtUnreachable
| MtAssert (cond : ROperand) (expected : bool) (target : RBb) (unwind : RUnwind)
| MtDrop (p : RPlace) (drop : Inst) (target : RBb) (unwind : RUnwind)
| MtResume
| MtOther.

(** ** Bodies *)

(** rs::BasicBlockData *)
Record RBlock := mkRBlock { rb_stmts : list RStmt; rb_term : RTerm; rb_cleanup : bool }.

(** rs::Body and the ABI of the function. [ro_always_live] is what [always_storage_live_locals] says (function.rs:165). *)
Record RBody := mkRBody {
  ro_locals : list RTy;
  ro_args : nat;
  ro_spread : option RLocal;
  ro_always_live : list RLocal;
  ro_blocks : list RBlock;
  ro_conv : option CallingConvention;
}.

(** An allocation of the compile-time interpreter (constant.rs:152-192): its bytes, which of them hold pointers into which
    allocation, and its alignment. *)
Record RAllocData := mkRAlloc {
  ra_bytes : list (option byte);
  ra_ptrs : list (Offset * RAlloc);
  ra_align : Align;
}.

(** How a pointee may be unsized (rvalue.rs:284-324): an array to a slice with so many elements, a trait object to itself,
    something to a trait object. *)
Inductive RUnsize := UsSlice (count : N) | UsSame | UsDyn | UsNo.

(** vtable.rs:60-80 rs::VtblEntry: a method, the drop glue (with the function that resolve_drop_in_place gives), size, alignment
    and others *)
Inductive VEntry := VeMethod (f : Inst) | VeDrop (f : Inst) | VeOther.

(** ** The compiler *)

(** The answers of the compiler. [None] means that the code ends with span_bug!, unimplemented! or a failed [unwrap].

    - [rc_ty]: the MiniRust type of a type. Stands for translate_ty (ty.rs:169-264), which is not modelled beyond enums
      (Enums.v) and the chunks of unions (Chunks.v);
    - [rc_deref]: the pointee of a pointer type; [rc_elem]: the element type of an array or slice; [rc_fields]: the types of
      the fields of a tuple type; [rc_size]: the size of a type, if it is sized;
    - [rc_pointee]: what MiniRust has to know about a pointee, pointee_info_of (ty.rs:4-72);
    - [rc_dyn]: the trait of a trait object type ([get_trait_name], vtable.rs:91-105);
    - [rc_discr]: the bits of the discriminant of a variant of an enum type and the type of its discriminant;
    - [rc_unsize]: how the pointee of one type is unsized to the other;
    - [rc_alloc]: the contents of an allocation;
    - [rc_vtable]: size, alignment and cells of a type and the entries of its vtable for a trait; no entries if the trait
      object has no principal trait (vtable.rs:33-60);
    - [rc_bool]: the type bool; [rc_ordering]: the MiniRust type of std::cmp::Ordering;
    - [rc_unwinds]: the panic strategy; [rc_checks]: the session's runtime checks;
    - [rc_body]: the MIR of a function;
    - [rc_traits]: the traits of trait objects. For each with a principal trait, the slot of its first method in a vtable
      and the number of its own entries (vtable.rs:114-133). The code adds traits to the program when it first meets
      them; here the program has all of them. *)
Record Rustc := mkRustc {
  rc_ty : RTy -> option Ty;
  rc_deref : RTy -> option RTy;
  rc_elem : RTy -> option RTy;
  rc_fields : RTy -> option (list RTy);
  rc_size : RTy -> option Size;
  rc_pointee : RTy -> option PointeeInfo;
  rc_dyn : RTy -> option TraitName;
  rc_discr : RTy -> nat -> option (Z * IntType);
  rc_unsize : RTy -> RTy -> RUnsize;
  rc_alloc : RAlloc -> option RAllocData;
  rc_vtable : RTy -> TraitName -> option (Size * Align * list (Offset * Size) * list VEntry);
  rc_bool : RTy;
  rc_ordering : option Ty;
  rc_unwinds : bool;
  rc_checks : RuntimeCheck -> bool;
  rc_body : Inst -> option RBody;
  rc_traits : list (TraitName * option (N * nat));
}.
