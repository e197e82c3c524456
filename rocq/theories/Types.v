(** Pointers, types, values and layouts.
    Models spec/prelude/target.md, spec/mem/pointer.md, spec/mem/interface.md (abstract bytes),
    spec/lang/types.md and spec/lang/values.md. *)
From Verif Require Export Base.

(** ** Target *)

(** spec/prelude/target.md:9-26 Target. *)
Record Target := mkTarget {
  PTR_SIZE : Size;
  PTR_ALIGN : Align;
  INT_MAX_ALIGN : Align;
  ENDIANNESS : Endianness;
  MAX_ATOMIC_SIZE : Size;
  valid_size : Size -> bool;
}.

(** spec/prelude/target.md:32-46 x86_64 *)
Definition x86_64 : Target := {|
  PTR_SIZE := 8%N;
  PTR_ALIGN := mkAlign 3;
  INT_MAX_ALIGN := mkAlign 4;
  ENDIANNESS := LittleEndian;
  MAX_ATOMIC_SIZE := 8%N;
  valid_size := fun s => in_bounds Signed 8%N (Z.of_N s);
|}.

(** ** Names *)

(** libspecr Name; spec/lang/syntax.md:452-455, 472-473, spec/mem/pointer.md:139. *)
Notation Name := N (only parsing).
Notation FnName := N (only parsing).
Notation GlobalName := N (only parsing).
Notation VTableName := N (only parsing).
Notation TraitMethodName := N (only parsing).
Notation TraitName := N (only parsing).
Notation LocalName := N (only parsing).
Notation BbName := N (only parsing).

(** ** Abstract bytes *)

(** spec/mem/interface.md:27-30 ProvenanceFrag *)
Record ProvFrag (P : Type) := mkFrag { frag_prov : P; frag_pos : Z }.
Arguments mkFrag {P}.
Arguments frag_prov {P}.
Arguments frag_pos {P}.

(** spec/mem/interface.md:32-37 AbstractByte *)
Inductive AByte (P : Type) :=
| Uninit
| Init (b : byte) (frag : option (ProvFrag P)).
Arguments Uninit {P}.
Arguments Init {P}.

(** spec/mem/interface.md:40-45 AbstractByte::data *)
Definition ab_data {P} (b : AByte P) : option byte :=
  match b with Uninit => None | Init d _ => Some d end.
(** spec/mem/interface.md:47-52 AbstractByte::provenance_frag *)
Definition ab_frag {P} (b : AByte P) : option (ProvFrag P) :=
  match b with Uninit => None | Init _ f => f end.

(** ** Pointers *)

(** spec/mem/pointer.md:25 Address *)
Notation Address := Z (only parsing).

(** spec/mem/pointer.md:30-33 ThinPointer *)
Record ThinPtr (P : Type) := mkThin { tp_addr : Address; tp_prov : option P }.
Arguments mkThin {P}.
Arguments tp_addr {P}.
Arguments tp_prov {P}.

(** spec/mem/pointer.md:36-42 PointerMeta *)
Inductive PtrMeta (P : Type) :=
| MElementCount (count : Z)
| MVTablePointer (ptr : ThinPtr P).
Arguments MElementCount {P}.
Arguments MVTablePointer {P}.

(** spec/mem/pointer.md:46-49 Pointer *)
Record Pointer (P : Type) := mkPtr { p_thin : ThinPtr P; p_meta : option (PtrMeta P) }.
Arguments mkPtr {P}.
Arguments p_thin {P}.
Arguments p_meta {P}.

(** spec/mem/pointer.md:54-58 ThinPointer::wrapping_offset *)
Definition wrapping_offset {P} (T : Target) (p : ThinPtr P) (offset : Z) : ThinPtr P :=
  mkThin (bring_in_bounds Unsigned (PTR_SIZE T) (tp_addr p + offset)) (tp_prov p).

(** spec/mem/pointer.md:60-65 ThinPointer::widen *)
Definition widen {P} (p : ThinPtr P) (m : option (PtrMeta P)) : Pointer P := mkPtr p m.

#[global] Instance ThinPtr_eq_dec {P} `{EqDecision P} : EqDecision (ThinPtr P).
Proof. solve_decision. Defined.
#[global] Instance PtrMeta_eq_dec {P} `{EqDecision P} : EqDecision (PtrMeta P).
Proof. solve_decision. Defined.
#[global] Instance Pointer_eq_dec {P} `{EqDecision P} : EqDecision (Pointer P).
Proof. solve_decision. Defined.
#[global] Instance ProvFrag_eq_dec {P} `{EqDecision P} : EqDecision (ProvFrag P).
Proof. solve_decision. Defined.
#[global] Instance byte_eq_dec' : EqDecision byte := Byte.byte_eq_dec.
#[global] Instance AByte_eq_dec {P} `{EqDecision P} : EqDecision (AByte P).
Proof. solve_decision. Defined.

(** ** Pointee information *)

(** spec/mem/pointer.md:77-88 TupleHeadLayout. [end] is a Coq keyword. *)
Record TupleHead := mkHead { th_end : Offset; th_align : Align; th_packed : option Align }.

(** spec/mem/pointer.md:91-106 LayoutStrategy *)
Inductive LayoutStrategy :=
| LSized (size : Size) (align : Align)
| LSlice (size : Size) (align : Align)
| LTraitObject (tn : TraitName)
| LTuple (head : TupleHead) (tail : LayoutStrategy).

(** spec/mem/pointer.md:112-127 UnsafeCellStrategy *)
Inductive CellStrategy :=
| CSized (cells : list (Offset * Size))
| CSlice (element_cells : list (Offset * Size))
| CTraitObject
| CTuple (head_cells : list (Offset * Size)) (tail_cells : CellStrategy).

(** spec/mem/pointer.md:130-139 PointeeInfo *)
Record PointeeInfo := mkPointee {
  pi_layout : LayoutStrategy;
  pi_inhabited : bool;
  pi_cells : CellStrategy;
  pi_freeze : bool;
  pi_unpin : bool;
}.

(** spec/mem/pointer.md:147-151 PointerMetaKind *)
Inductive MetaKind :=
| MKNone
| MKElementCount
| MKVTablePointer (tn : TraitName).

(** libspecr Mutability *)
Inductive Mutability := Mutable | Immutable.

(** spec/mem/pointer.md:154-171 PtrType *)
Inductive PtrType :=
| PRef (mutbl : Mutability) (pointee : PointeeInfo)
| PBox (pointee : PointeeInfo)
| PRaw (meta_kind : MetaKind)
| PFnPtr
| PVTablePtr (tn : TraitName).

#[global] Instance TupleHead_eq_dec : EqDecision TupleHead.
Proof. solve_decision. Defined.
#[global] Instance LayoutStrategy_eq_dec : EqDecision LayoutStrategy.
Proof. solve_decision. Defined.
#[global] Instance CellStrategy_eq_dec : EqDecision CellStrategy.
Proof. solve_decision. Defined.
#[global] Instance PointeeInfo_eq_dec : EqDecision PointeeInfo.
Proof. solve_decision. Defined.
#[global] Instance MetaKind_eq_dec : EqDecision MetaKind.
Proof. solve_decision. Defined.
#[global] Instance Mutability_eq_dec : EqDecision Mutability.
Proof. solve_decision. Defined.
#[global] Instance PtrType_eq_dec : EqDecision PtrType.
Proof. solve_decision. Defined.

(** spec/mem/pointer.md:178-183 PtrType::safe_pointee *)
Definition safe_pointee (pt : PtrType) : option PointeeInfo :=
  match pt with
  | PRef _ pi | PBox pi => Some pi
  | PRaw _ | PFnPtr | PVTablePtr _ => None
  end.

(** spec/lang/types.md:281-288 LayoutStrategy::meta_kind *)
Fixpoint layout_meta_kind (l : LayoutStrategy) : MetaKind :=
  match l with
  | LSized _ _ => MKNone
  | LSlice _ _ => MKElementCount
  | LTraitObject tn => MKVTablePointer tn
  | LTuple _ tail => layout_meta_kind tail
  end.

(** spec/mem/pointer.md:185-191 PtrType::meta_kind *)
Definition ptr_meta_kind (pt : PtrType) : MetaKind :=
  match pt with
  | PRef _ pi | PBox pi => layout_meta_kind (pi_layout pi)
  | PRaw mk => mk
  | PFnPtr | PVTablePtr _ => MKNone
  end.

(** ** Types *)

(** spec/lang/types.md:94-97 IntType *)
Record IntType := mkIntTy { it_signed : Signedness; it_size : Size }.

#[global] Instance IntType_eq_dec : EqDecision IntType.
Proof. solve_decision. Defined.

(** spec/lang/types.md:113-127 Discriminator *)
Inductive Discriminator :=
| DKnown (d : Z)
| DInvalid
| DBranch (offset : Offset) (value_type : IntType) (fallback : Discriminator)
          (children : list ((Z * Z) * Discriminator)).

(** spec/lang/types.md:101-109 Variant: the [tagger] component *)
Notation Tagger := (list (N * (IntType * Z))) (only parsing).

(** spec/lang/types.md:21-92 Type. A Variant (types.md:101-109) is the pair of its type and its
    tagger. *)
Inductive Ty :=
| TInt (it : IntType)
| TBool
| TPtr (pt : PtrType)
| TTuple (fields : list (Offset * Ty)) (head : TupleHead) (unsized_field : option Ty)
| TArray (elem : Ty) (count : Z)
| TSlice (elem : Ty)
| TUnion (fields : list (Offset * Ty)) (chunks : list (Offset * Size)) (size : Size) (align : Align)
| TEnum (variants : list (Z * (Ty * Tagger))) (discriminant_ty : IntType)
        (discriminator : Discriminator) (size : Size) (align : Align)
| TTraitObject (tn : TraitName).

(** spec/lang/syntax.md:534-546 VTable *)
Record VTable := mkVTable {
  vt_trait : TraitName;
  vt_size : Size;
  vt_align : Align;
  vt_cells : list (Offset * Size);
  vt_methods : list (TraitMethodName * FnName);
}.

(** ** Values *)

(** spec/lang/values.md:7-24 Value *)
Inductive Value (P : Type) :=
| VInt (i : Z)
| VBool (b : bool)
| VPtr (p : Pointer P)
| VTuple (vals : list (Value P))
| VVariant (discriminant : Z) (data : Value P)
| VUnion (chunks : list (list (AByte P))).
Arguments VInt {P}.
Arguments VBool {P}.
Arguments VPtr {P}.
Arguments VTuple {P}.
Arguments VVariant {P}.
Arguments VUnion {P}.

(** spec/lang/values.md:35-38 Place *)
Record Place (P : Type) := mkPlace { pl_ptr : Pointer P; pl_aligned : bool }.
Arguments mkPlace {P}.
Arguments pl_ptr {P}.
Arguments pl_aligned {P}.

(** ** Layout *)

(** spec/lang/types.md:139-145 IntType::align *)
Definition int_align (T : Target) (it : IntType) : Outcome Align :=
  let! natural := unwrap (align_from_bytes (it_size it)) in
  Ret (align_min natural (INT_MAX_ALIGN T)).

(** spec/lang/types.md:235-237 LayoutStrategy::is_sized *)
Definition is_sized (l : LayoutStrategy) : bool :=
  match l with LSized _ _ => true | _ => false end.

(** spec/lang/types.md:240-253 LayoutStrategy::expect_size, expect_align *)
Definition expect_size (l : LayoutStrategy) : Outcome Size :=
  match l with LSized s _ => Ret s | _ => Panic end.
Definition expect_align (l : LayoutStrategy) : Outcome Align :=
  match l with LSized _ a => Ret a | _ => Panic end.

(** libspecr: Mul<Int> for Size panics for a negative factor (a Size is never negative). A zero
    size times a negative factor is zero. *)
Definition size_mul (s : Size) (i : Z) : Outcome Size := unwrap (size_from_bytes (Z.of_N s * i)).

(** spec/lang/types.md:202-207 TupleHeadLayout::capped_tail_align *)
Definition capped_tail_align (h : TupleHead) (a : Align) : Align :=
  match th_packed h with Some p => align_min a p | None => a end.

(** spec/lang/types.md:210-214 TupleHeadLayout::tail_offset *)
Definition tail_offset (h : TupleHead) (a : Align) : Offset :=
  align_to (th_end h) (capped_tail_align h a).

(** spec/lang/types.md:218-225 TupleHeadLayout::full_size_and_align *)
Definition full_size_and_align (h : TupleHead) (tail_size : Size) (tail_align : Align)
  : Size * Align :=
  let capped := capped_tail_align h tail_align in
  let align := align_max capped (th_align h) in
  let off := tail_offset h tail_align in
  let end_ := (off + tail_size)%N in
  (align_to end_ align, align).

(** spec/lang/types.md:228-231 TupleHeadLayout::head_size_and_align *)
Definition head_size_and_align (h : TupleHead) : Size * Align :=
  (align_to (th_end h) (th_align h), th_align h).

(** spec/lang/types.md:150-179 Type::layout *)
Fixpoint layout (T : Target) (ty : Ty) : Outcome LayoutStrategy :=
  match ty with
  | TInt it => let! a := int_align T it in Ret (LSized (it_size it) a)
  | TBool => Ret (LSized 1%N align_one)
  | TPtr pt =>
      match ptr_meta_kind pt with
      | MKNone => Ret (LSized (PTR_SIZE T) (PTR_ALIGN T))
      | _ => Ret (LSized (2 * PTR_SIZE T)%N (PTR_ALIGN T))
      end
  | TUnion _ _ size align => Ret (LSized size align)
  | TEnum _ _ _ size align => Ret (LSized size align)
  | TTuple _ head None =>
      let '(s, a) := head_size_and_align head in Ret (LSized s a)
  | TTuple _ head (Some tail) => let! l := layout T tail in Ret (LTuple head l)
  | TArray elem count =>
      let! l := layout T elem in
      let! s := expect_size l in
      let! s' := size_mul s count in
      let! a := expect_align l in
      Ret (LSized s' a)
  | TSlice elem =>
      let! l := layout T elem in
      let! s := expect_size l in
      let! a := expect_align l in
      Ret (LSlice s a)
  | TTraitObject tn => Ret (LTraitObject tn)
  end.

(** [ty.layout::<T>().expect_size(..)], used all over the code *)
Definition size_of (T : Target) (ty : Ty) : Outcome Size :=
  let! l := layout T ty in expect_size l.
Definition align_of (T : Target) (ty : Ty) : Outcome Align :=
  let! l := layout T ty in expect_align l.

(** spec/lang/types.md:183-193 Type::meta_kind *)
Fixpoint ty_meta_kind (ty : Ty) : MetaKind :=
  match ty with
  | TSlice _ => MKElementCount
  | TTraitObject tn => MKVTablePointer tn
  | TTuple _ _ (Some ty) => ty_meta_kind ty
  | _ => MKNone
  end.

(** spec/lang/types.md:259-277 LayoutStrategy::compute_size_and_align. The vtable lookup may
    panic (spec/lang/machine.md:372-381). *)
Fixpoint compute_size_and_align {P} (l : LayoutStrategy) (meta : option (PtrMeta P))
    (vtables : ThinPtr P -> Outcome VTable) : Outcome (Size * Align) :=
  match l, meta with
  | LSized s a, None => Ret (s, a)
  | LSlice s a, Some (MElementCount count) => let! s' := size_mul s count in Ret (s', a)
  | LTraitObject _, Some (MVTablePointer p) =>
      let! vt := vtables p in Ret (vt_size vt, vt_align vt)
  | LTuple head tail, Some m =>
      let! '(s, a) := compute_size_and_align tail (Some m) vtables in
      Ret (full_size_and_align head s a)
  | _, _ => Panic
  end.

(** spec/lang/types.md:299-301 IntType::usize_ty *)
Definition usize_ty (T : Target) : IntType := mkIntTy Unsigned (PTR_SIZE T).
(** spec/lang/types.md:296-297 IntType::I8 *)
Definition i8_ty : IntType := mkIntTy Signed 1.
(** spec/lang/types.md:303-305 IntType::can_represent *)
Definition can_represent (it : IntType) (i : Z) : bool := in_bounds (it_signed it) (it_size it) i.
(** spec/lang/types.md:307-309 IntType::bring_in_bounds *)
Definition int_bring_in_bounds (it : IntType) (i : Z) : Z :=
  bring_in_bounds (it_signed it) (it_size it) i.

(** spec/lang/types.md:312-329 IntType::with_overflow *)
Definition with_overflow (T : Target) (it : IntType) : Outcome Ty :=
  let! align := int_align T it in
  let size := (it_size it + align_bytes align)%N in
  Ret (TTuple [(0%N, TInt it); (it_size it, TBool)] (mkHead size align None) None).

(** spec/lang/types.md:337-345 unit_ty (also called unit_type in the step files) *)
Definition unit_ty : Ty := TTuple [] (mkHead 0 align_one None) None.
Definition unit_value {P} : Value P := VTuple [].

(** ** Induction principles for the nested inductive types *)

Section Ty_ind.
  Variable Q : Ty -> Prop.
  Hypothesis HInt : forall it, Q (TInt it).
  Hypothesis HBool : Q TBool.
  Hypothesis HPtr : forall pt, Q (TPtr pt).
  Hypothesis HTuple : forall fields head unsized,
    Forall (fun f => Q (snd f)) fields ->
    (forall t, unsized = Some t -> Q t) ->
    Q (TTuple fields head unsized).
  Hypothesis HArray : forall elem count, Q elem -> Q (TArray elem count).
  Hypothesis HSlice : forall elem, Q elem -> Q (TSlice elem).
  Hypothesis HUnion : forall fields chunks size align,
    Forall (fun f => Q (snd f)) fields -> Q (TUnion fields chunks size align).
  Hypothesis HEnum : forall variants dty discr size align,
    Forall (fun v => Q (fst (snd v))) variants -> Q (TEnum variants dty discr size align).
  Hypothesis HTrait : forall tn, Q (TTraitObject tn).

  Fixpoint Ty_ind' (ty : Ty) : Q ty.
  Proof.
    destruct ty as [it| |pt|fields head unsized|elem count|elem|fields chunks size align
                   |variants dty discr size align|tn].
    - apply HInt.
    - apply HBool.
    - apply HPtr.
    - apply HTuple.
      + induction fields as [|[o t] fs IH]; constructor; [apply Ty_ind'|apply IH].
      + intros t Ht. destruct unsized as [t'|]; [|discriminate].
        injection Ht as <-. apply Ty_ind'.
    - apply HArray, Ty_ind'.
    - apply HSlice, Ty_ind'.
    - apply HUnion.
      induction fields as [|[o t] fs IH]; constructor; [apply Ty_ind'|apply IH].
    - apply HEnum.
      induction variants as [|[d [t tg]] vs IH]; constructor; [apply Ty_ind'|apply IH].
    - apply HTrait.
  Defined.
End Ty_ind.

Section Value_ind.
  Context {P : Type}.
  Variable Q : Value P -> Prop.
  Hypothesis HInt : forall i, Q (VInt i).
  Hypothesis HBool : forall b, Q (VBool b).
  Hypothesis HPtr : forall p, Q (VPtr p).
  Hypothesis HTuple : forall vals, Forall Q vals -> Q (VTuple vals).
  Hypothesis HVariant : forall d v, Q v -> Q (VVariant d v).
  Hypothesis HUnion : forall chunks, Q (VUnion chunks).

  Fixpoint Value_ind' (v : Value P) : Q v.
  Proof.
    destruct v as [i|b|p|vals|d v|chunks].
    - apply HInt.
    - apply HBool.
    - apply HPtr.
    - apply HTuple. induction vals as [|x r IH]; constructor; [apply Value_ind'|apply IH].
    - apply HVariant, Value_ind'.
    - apply HUnion.
  Defined.
End Value_ind.

Section Discriminator_ind.
  Variable Q : Discriminator -> Prop.
  Hypothesis HKnown : forall d, Q (DKnown d).
  Hypothesis HInvalid : Q DInvalid.
  Hypothesis HBranch : forall o it fb ch,
    Q fb -> Forall (fun c => Q (snd c)) ch -> Q (DBranch o it fb ch).

  Fixpoint Discriminator_ind' (d : Discriminator) : Q d.
  Proof.
    destruct d as [d| |o it fb ch].
    - apply HKnown.
    - apply HInvalid.
    - apply HBranch; [apply Discriminator_ind'|].
      induction ch as [|[k c] r IH]; constructor; [apply Discriminator_ind'|apply IH].
  Defined.
End Discriminator_ind.

(** Structural equality of types, used by the code through [==] (derived PartialEq). *)
Lemma Discriminator_dec : forall x y : Discriminator, {x = y} + {x <> y}.
Proof.
  fix IH 1. intros x y.
  destruct x as [d| |o it fb ch], y as [d'| |o' it' fb' ch'];
    try (right; discriminate).
  - destruct (decide (d = d')); [left; congruence|right; congruence].
  - left; reflexivity.
  - destruct (decide (o = o')); [|right; congruence].
    destruct (decide (it = it')); [|right; congruence].
    destruct (IH fb fb'); [|right; congruence].
    assert ({ch = ch'} + {ch <> ch'}) as [|].
    { revert ch'. induction ch as [|[k c] r IHr]; intros [|[k' c'] r'];
        try (right; discriminate); [left; reflexivity|].
      destruct (decide (k = k')); [|right; congruence].
      destruct (IH c c'); [|right; congruence].
      destruct (IHr r'); [left; congruence|right; congruence]. }
    + left; congruence.
    + right; congruence.
Defined.
#[global] Instance Discriminator_eq_dec : EqDecision Discriminator := Discriminator_dec.

Lemma Ty_dec : forall x y : Ty, {x = y} + {x <> y}.
Proof.
  fix IH 1. intros x y.
  assert (Hf : forall (fs fs' : list (Offset * Ty)),
    (forall t, {fs = t} + {fs <> t}) -> {fs = fs'} + {fs <> fs'}) by (intros; auto).
  destruct x as [it| |pt|fields head unsized|elem count|elem|fields chunks size align
                |variants dty discr size align|tn],
           y as [it'| |pt'|fields' head' unsized'|elem' count'|elem'|fields' chunks' size' align'
                |variants' dty' discr' size' align'|tn'];
    try (right; discriminate).
  - destruct (decide (it = it')); [left; congruence|right; congruence].
  - left; reflexivity.
  - destruct (decide (pt = pt')); [left; congruence|right; congruence].
  - destruct (decide (head = head')); [|right; congruence].
    assert ({fields = fields'} + {fields <> fields'}) as [|]; [|..].
    { clear -IH. revert fields'. induction fields as [|[k c] r IHr]; intros [|[k' c'] r'];
        try (right; discriminate); [left; reflexivity|].
      destruct (decide (k = k')); [|right; congruence].
      destruct (IH c c'); [|right; congruence].
      destruct (IHr r'); [left; congruence|right; congruence]. }
    + destruct unsized as [u|], unsized' as [u'|]; try (right; discriminate).
      * destruct (IH u u'); [left; congruence|right; congruence].
      * left; congruence.
    + right; congruence.
  - destruct (decide (count = count')); [|right; congruence].
    destruct (IH elem elem'); [left; congruence|right; congruence].
  - destruct (IH elem elem'); [left; congruence|right; congruence].
  - destruct (decide (chunks = chunks')); [|right; congruence].
    destruct (decide (size = size')); [|right; congruence].
    destruct (decide (align = align')); [|right; congruence].
    assert ({fields = fields'} + {fields <> fields'}) as [|]; [|left; congruence|right; congruence].
    { clear -IH. revert fields'. induction fields as [|[k c] r IHr]; intros [|[k' c'] r'];
        try (right; discriminate); [left; reflexivity|].
      destruct (decide (k = k')); [|right; congruence].
      destruct (IH c c'); [|right; congruence].
      destruct (IHr r'); [left; congruence|right; congruence]. }
  - destruct (decide (dty = dty')); [|right; congruence].
    destruct (decide (discr = discr')); [|right; congruence].
    destruct (decide (size = size')); [|right; congruence].
    destruct (decide (align = align')); [|right; congruence].
    assert ({variants = variants'} + {variants <> variants'}) as [|];
      [|left; congruence|right; congruence].
    { clear -IH. revert variants'. induction variants as [|[k [c tg]] r IHr];
        intros [|[k' [c' tg']] r']; try (right; discriminate); [left; reflexivity|].
      destruct (decide (k = k')); [|right; congruence].
      destruct (decide (tg = tg')); [|right; congruence].
      destruct (IH c c'); [|right; congruence].
      destruct (IHr r'); [left; congruence|right; congruence]. }
  - destruct (decide (tn = tn')); [left; congruence|right; congruence].
Defined.
#[global] Instance Ty_eq_dec : EqDecision Ty := Ty_dec.
