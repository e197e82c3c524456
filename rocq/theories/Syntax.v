(** Abstract syntax. Models spec/lang/syntax.md. Maps are association lists, sets are lists. *)
From Verif Require Export Types.

(** ** Operators *)

(** syntax.md:97-104 IntUnOp *)
Inductive IntUnOp := IUNeg | IUBitNot | IUCountOnes.

(** syntax.md:105-112 CastOp *)
Inductive CastOp :=
| CIntToInt (it : IntType)
| CTransmute (ty : Ty).

(** syntax.md:113-137 UnOp *)
Inductive UnOp :=
| UInt (op : IntUnOp)
| UCast (op : CastOp)
| UGetThinPointer
| UGetMetadata
| UComputeSize (ty : Ty)
| UComputeAlign (ty : Ty)
| UVTableMethodLookup (method : TraitMethodName).

(** syntax.md:139-183 IntBinOp *)
Inductive IntBinOp :=
| IAdd | IAddUnchecked | ISub | ISubUnchecked | IMul | IMulUnchecked
| IDiv | IDivExact | IRem
| IShl | IShlUnchecked | IShr | IShrUnchecked
| IBitAnd | IBitOr | IBitXor.

(** syntax.md:184-194 IntBinOpWithOverflow *)
Inductive IntBinOpOv := OvAdd | OvSub | OvMul.

(** syntax.md:195-216 RelOp *)
Inductive RelOp := RLt | RGt | RLe | RGe | REq | RNe | RCmp.

(** syntax.md:218-241 BinOp *)
Inductive BinOp :=
| BInt (op : IntBinOp)
| BIntWithOverflow (op : IntBinOpOv)
| BRel (op : RelOp)
| BPtrOffset (inbounds : bool)
| BPtrOffsetFrom (inbounds nonneg : bool)
| BConstructWidePointer (pt : PtrType).

(** ** Expressions *)

(** syntax.md:524-530 Relocation *)
Record Relocation := mkReloc { r_name : GlobalName; r_offset : Offset }.

(** syntax.md:80-95 Constant *)
Inductive Constant :=
| KInt (i : Z)
| KBool (b : bool)
| KGlobalPointer (r : Relocation)
| KFnPointer (f : FnName)
| KVTablePointer (v : VTableName)
| KPointerWithoutProvenance (addr : Address).

(** syntax.md:17-78 ValueExpr and syntax.md:247-279 PlaceExpr *)
Inductive ValueExpr :=
| EConstant (c : Constant) (ty : Ty)
| ETuple (exprs : list ValueExpr) (ty : Ty)
| EUnion (field : Z) (expr : ValueExpr) (union_ty : Ty)
| EVariant (discriminant : Z) (data : ValueExpr) (enum_ty : Ty)
| EGetDiscriminant (place : PlaceExpr)
| ELoad (source : PlaceExpr)
| EAddrOf (target : PlaceExpr) (pt : PtrType)
| EUnOp (op : UnOp) (operand : ValueExpr)
| EBinOp (op : BinOp) (left right : ValueExpr)
with PlaceExpr :=
| PLocal (name : LocalName)
| PDeref (operand : ValueExpr) (ty : Ty)
| PField (root : PlaceExpr) (field : Z)
| PIndex (root : PlaceExpr) (index : ValueExpr)
| PDowncast (root : PlaceExpr) (discriminant : Z).

(** ** Statements and terminators *)

(** syntax.md:287-318 Statement *)
Inductive Statement :=
| SAssign (destination : PlaceExpr) (source : ValueExpr)
| SPlaceMention (place : PlaceExpr)
| SSetDiscriminant (destination : PlaceExpr) (value : Z)
| SValidate (place : PlaceExpr) (fn_entry : bool)
| SDeinit (place : PlaceExpr)
| SStorageLive (l : LocalName)
| SStorageDead (l : LocalName).

(** syntax.md:387-396 ArgumentExpr *)
Inductive ArgumentExpr :=
| ByValue (e : ValueExpr)
| InPlace (p : PlaceExpr).

(** syntax.md:398-404 CallingConvention *)
Inductive CallingConvention := CcRust | CcC.

(** syntax.md:406-410 IntrinsicLockOp *)
Inductive IntrinsicLockOp := LkAcquire | LkRelease | LkCreate.

(** syntax.md:412-443 IntrinsicOp *)
Inductive IntrinsicOp :=
| InAbort
| InAssume
| InExit
| InPrintStdout
| InPrintStderr
| InAllocate
| InDeallocate
| InSpawn
| InJoin
| InRawEq
| InAtomicStore
| InAtomicLoad
| InAtomicCompareExchange
| InAtomicFetchAndOp (op : IntBinOp)
| InLock (op : IntrinsicLockOp)
| InPointerExposeProvenance
| InPointerWithExposedProvenance
| InGetUnwindPayload.

(** syntax.md:320-385 Terminator *)
Inductive Terminator :=
| TmGoto (b : BbName)
| TmSwitch (value : ValueExpr) (cases : list (Z * BbName)) (fallback : BbName)
| TmUnreachable
| TmIntrinsic (op : IntrinsicOp) (arguments : list ValueExpr) (ret : PlaceExpr)
              (next_block : option BbName)
| TmCall (callee : ValueExpr) (conv : CallingConvention) (arguments : list ArgumentExpr)
         (ret : PlaceExpr) (next_block unwind_block : option BbName)
| TmReturn
| TmStartUnwind (payload : ValueExpr) (unwind_block : BbName)
| TmStopUnwind (b : BbName)
| TmResumeUnwind.

(** ** Functions and programs *)

(** syntax.md:499-511 BbKind *)
Inductive BbKind := BkRegular | BkCleanup | BkCatch | BkTerminate.

#[global] Instance BbKind_eq_dec : EqDecision BbKind.
Proof. solve_decision. Defined.
#[global] Instance CallingConvention_eq_dec : EqDecision CallingConvention.
Proof. solve_decision. Defined.

(** syntax.md:492-497 BasicBlock *)
Record BasicBlock := mkBlock {
  bb_statements : list Statement;
  bb_terminator : Terminator;
  bb_kind : BbKind;
}.

(** syntax.md:475-490 Function *)
Record Function := mkFunction {
  fn_locals : list (LocalName * Ty);
  fn_args : list LocalName;
  fn_ret : LocalName;
  fn_conv : CallingConvention;
  fn_blocks : list (BbName * BasicBlock);
  fn_start : BbName;
}.

(** syntax.md:513-522 Global *)
Record Global := mkGlobal {
  g_bytes : list (option byte);
  g_relocations : list (Offset * Relocation);
  g_align : Align;
}.

(** syntax.md:457-469 Program *)
Record Program := mkProgram {
  pr_functions : list (FnName * Function);
  pr_start : FnName;
  pr_globals : list (GlobalName * Global);
  pr_traits : list (TraitName * list TraitMethodName);
  pr_vtables : list (VTableName * VTable);
}.

(** ** Induction over expressions *)
Section Expr_ind.
  Variable Q : ValueExpr -> Prop.
  Variable R : PlaceExpr -> Prop.
  Hypothesis HConstant : forall c ty, Q (EConstant c ty).
  Hypothesis HTuple : forall es ty, Forall Q es -> Q (ETuple es ty).
  Hypothesis HUnion : forall f e ty, Q e -> Q (EUnion f e ty).
  Hypothesis HVariant : forall d e ty, Q e -> Q (EVariant d e ty).
  Hypothesis HGetDiscriminant : forall p, R p -> Q (EGetDiscriminant p).
  Hypothesis HLoad : forall p, R p -> Q (ELoad p).
  Hypothesis HAddrOf : forall p pt, R p -> Q (EAddrOf p pt).
  Hypothesis HUnOp : forall op e, Q e -> Q (EUnOp op e).
  Hypothesis HBinOp : forall op l r, Q l -> Q r -> Q (EBinOp op l r).
  Hypothesis HLocal : forall n, R (PLocal n).
  Hypothesis HDeref : forall e ty, Q e -> R (PDeref e ty).
  Hypothesis HField : forall p f, R p -> R (PField p f).
  Hypothesis HIndex : forall p e, R p -> Q e -> R (PIndex p e).
  Hypothesis HDowncast : forall p d, R p -> R (PDowncast p d).

  Fixpoint ValueExpr_ind' (e : ValueExpr) : Q e
  with PlaceExpr_ind' (p : PlaceExpr) : R p.
  Proof.
    - destruct e as [c ty|es ty|f e ty|d e ty|p|p|p pt|op e|op l r].
      + apply HConstant.
      + apply HTuple. induction es as [|x r IH]; constructor; [apply ValueExpr_ind'|apply IH].
      + apply HUnion, ValueExpr_ind'.
      + apply HVariant, ValueExpr_ind'.
      + apply HGetDiscriminant, PlaceExpr_ind'.
      + apply HLoad, PlaceExpr_ind'.
      + apply HAddrOf, PlaceExpr_ind'.
      + apply HUnOp, ValueExpr_ind'.
      + apply HBinOp; apply ValueExpr_ind'.
    - destruct p as [n|e ty|p f|p e|p d].
      + apply HLocal.
      + apply HDeref, ValueExpr_ind'.
      + apply HField, PlaceExpr_ind'.
      + apply HIndex; [apply PlaceExpr_ind'|apply ValueExpr_ind'].
      + apply HDowncast, PlaceExpr_ind'.
  Defined.

  Lemma Expr_ind' : (forall e, Q e) /\ (forall p, R p).
  Proof. split; [apply ValueExpr_ind'|apply PlaceExpr_ind']. Qed.
End Expr_ind.
