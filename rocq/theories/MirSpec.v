(** What is assumed of MIR and of the compiler's answers: the typing rules of MIR, as far as the translation depends on
    them. Types of MIR are compared by the MiniRust types they are translated to. Apart from [int_from_bits] (the value of
    given bits at an integer type) and the methods of traits and vtables nothing here is taken from the translation. *)
From Verif Require Export Mini WfProg.

Section Typing.
  Context (T : Target) (R : Rustc).

  (** a type whose values have a size *)
  Definition sized_ty (t : Ty) : Prop := exists l, layout T t = Ret l /\ is_sized l = true.
  (** the MiniRust type is well-formed in programs with the compiler's traits *)
  Definition wf_ty (t : Ty) : Prop := ty_check_wf T (map_contains (traits_of R)) t = Ret tt.

  (** The compiler is consistent:
      - translated types are well-formed, and what is known of a pointee agrees with its type;
      - trait objects are of known traits; the data in vtables is consistent;
      - the pointers in constant allocations lie inside, are initialised, and point into (or to the end of) known allocations. *)
  Record rustc_ok : Prop := {
    ro_ty : forall r t, rc_ty R r = Some t -> wf_ty t;
    ro_pointee : forall r t pi, rc_ty R r = Some t -> rc_pointee R r = Some pi ->
      layout T t = Ret (pi_layout pi) /\ pointee_check_wf T (map_contains (traits_of R)) pi = Ret tt;
    ro_bool : rc_ty R (rc_bool R) = Some TBool;
    ro_ord : forall t, rc_ordering R = Some t -> sized_ty t;
    ro_dyn : forall r tn t, rc_dyn R r = Some tn -> map_contains (traits_of R) tn = true /\ (rc_ty R r = Some t -> t = TTraitObject tn);
    ro_vtable : forall r tn size al cells es, rc_vtable R r tn = Some (size, al, cells, es) ->
      (size mod align_bytes al = 0)%N /\ check_cells cells size = Ret tt /\ (forall i f, es !! i = Some (VeDrop f) -> i = 0%nat);
    ro_alloc : forall a d off a', rc_alloc R a = Some d -> (off, a') ∈ ra_ptrs d ->
      (off + PTR_SIZE T <= N.of_nat (length (ra_bytes d)))%N /\
      exists bs, take (N.to_nat (PTR_SIZE T)) (drop (N.to_nat off) (ra_bytes d)) = List.map Some bs /\
      exists d', rc_alloc R a' = Some d' /\ endian_decode (ENDIANNESS T) Unsigned bs <= Z.of_nat (length (ra_bytes d'));
  }.

  (** ** Places *)

  (** the type of the [f]-th field *)
  Definition field_ty (t : Ty) (f : nat) : option Ty :=
    match t with
    | TTuple fields _ u => match fields !! f with
                           | Some x => Some (snd x)
                           | None => if (f =? length fields)%nat then u else None
                           end
    | TUnion fields _ _ _ => option_map snd (fields !! f)
    | _ => None
    end.

  (** the type of a projected place. A place has a MIR type and a MiniRust type; the second is the translation of the first
      except after a downcast, where the first is the enum and the second the variant. *)
  Inductive proj_ok (B : RBody) : RTy * Ty -> Proj -> RTy * Ty -> Prop :=
  | po_field r t f r' t' : field_ty t f = Some t' -> rc_ty R r' = Some t' -> proj_ok B (r, t) (PjField f r') (r', t')
  | po_deref r pt r' t' : rc_deref R r = Some r' -> rc_ty R r' = Some t' -> ptr_meta_kind pt = ty_meta_kind t' ->
      proj_ok B (r, TPtr pt) PjDeref (r', t')
  | po_array r e n l r' rl it : rc_elem R r = Some r' -> rc_ty R r' = Some e ->
      ro_locals B !! l = Some rl -> rc_ty R rl = Some (TInt it) -> proj_ok B (r, TArray e n) (PjIndex l) (r', e)
  | po_slice r e l r' rl it : rc_elem R r = Some r' -> rc_ty R r' = Some e ->
      ro_locals B !! l = Some rl -> rc_ty R rl = Some (TInt it) -> proj_ok B (r, TSlice e) (PjIndex l) (r', e)
  | po_downcast r vs dty d s al v bits it vt tg : rc_discr R r v = Some (bits, it) -> map_get vs (int_from_bits bits it) = Some (vt, tg) ->
      proj_ok B (r, TEnum vs dty d s al) (PjDowncast v) (r, vt)
  | po_other x y : proj_ok B x PjOther y.
  Inductive projs_ok (B : RBody) : RTy * Ty -> list Proj -> RTy * Ty -> Prop :=
  | po_nil x : projs_ok B x [] x
  | po_cons x p y ps z : proj_ok B x p y -> projs_ok B y ps z -> projs_ok B x (p :: ps) z.
  (** [place_ok B p r t]: in the body [B] the place [p] has type [r], which is [t] in MiniRust *)
  Definition place_ok (B : RBody) (p : RPlace) (r : RTy) (t : Ty) : Prop :=
    rc_ty R r = Some t /\
    exists r0 t0, ro_locals B !! rp_local p = Some r0 /\ rc_ty R r0 = Some t0 /\ projs_ok B (r0, t0) (rp_proj p) (r, t).
  (** the same, for a place that can be loaded from or stored to *)
  Definition sized_place (B : RBody) (p : RPlace) (r : RTy) (t : Ty) : Prop := place_ok B p r t /\ sized_ty t.

  (** ** Operands *)

  (** a pointer to a slice comes with its number of elements *)
  Definition meta_ok (pt : PtrType) (meta : option N) : Prop :=
    ptr_meta_kind pt = MKElementCount -> exists n, meta = Some n /\ Z.of_N n < 2 ^ (8 * Z.of_N (PTR_SIZE T)).

  (** a constant of the MiniRust type [t] *)
  Inductive const_ok : CVal -> Ty -> Prop :=
  | co_scalar r it bits : rc_ty R r = Some (TInt it) -> const_ok (CvScalar r bits) (TInt it)
  | co_bool r b : rc_ty R r = Some TBool -> const_ok (CvBool r b) TBool
  | co_addr r pt addr meta : rc_ty R r = Some (TPtr pt) -> (Z.of_N addr < 2 ^ (8 * Z.of_N (PTR_SIZE T))) ->
      meta_ok pt meta -> const_ok (CvPtr r None addr meta) (TPtr pt)
  | co_alloc r pt a off d meta : rc_ty R r = Some (TPtr pt) ->
      rc_alloc R a = Some d -> (off <= N.of_nat (length (ra_bytes d)))%N ->
      meta_ok pt meta -> const_ok (CvPtr r (Some a) off meta) (TPtr pt)
  | co_tuple r fs h vs : rc_ty R r = Some (TTuple fs h None) -> Forall2 const_ok vs (List.map snd fs) ->
      const_ok (CvFields r vs) (TTuple fs h None)
  | co_array r e n vs : rc_ty R r = Some (TArray e n) -> Z.of_nat (length vs) = n -> Forall2 const_ok vs (repeat e (length vs)) ->
      const_ok (CvFields r vs) (TArray e n)
  | co_variant r idx vs vts dty d s al bits it fs h tg :
      rc_ty R r = Some (TEnum vts dty d s al) -> rc_discr R r idx = Some (bits, it) ->
      map_get vts (int_from_bits bits dty) = Some (TTuple fs h None, tg) ->
      Forall2 const_ok vs (List.map snd fs) ->
      const_ok (CvVariant r idx vs) (TEnum vts dty d s al).

  (** [operand_ok B o r t]: the operand has type [r], which is [t] in MiniRust *)
  Inductive operand_ok (B : RBody) : ROperand -> RTy -> Ty -> Prop :=
  | oo_const c t : const_ok c t -> sized_ty t -> operand_ok B (OpConst c) (cval_ty c) t
  | oo_copy p r t : sized_place B p r t -> operand_ok B (OpCopy p) r t
  | oo_move p r t : sized_place B p r t -> operand_ok B (OpMove p) r t
  | oo_runtime c : operand_ok B (OpRuntime c) (rc_bool R) TBool.
  (** the operand has the MiniRust type [t] *)
  Definition operand_ty (B : RBody) (o : ROperand) (t : Ty) : Prop := exists r, operand_ok B o r t.

  (** ** Rvalues *)

  (** the operators on two integers of the same type *)
  Definition int_op (op : RBinOp) : bool :=
    match op with
    | RoAdd | RoSub | RoMul | RoDiv | RoRem | RoBitAnd | RoBitOr | RoBitXor | RoAddUnchecked | RoSubUnchecked | RoMulUnchecked => true
    | _ => false
    end.
  Definition shift_op (op : RBinOp) : bool := match op with RoShl | RoShr | RoShlUnchecked | RoShrUnchecked => true | _ => false end.
  Definition rel_op (op : RBinOp) : bool := match op with RoLt | RoLe | RoGt | RoGe | RoEq | RoNe => true | _ => false end.
  Definition bit_op (op : RBinOp) : bool := match op with RoBitAnd | RoBitOr | RoBitXor => true | _ => false end.
  Definition comparable (t : Ty) : bool := match t with TInt _ | TBool | TPtr _ => true | _ => false end.

  (** [unsize_ok old new pt npt]: a pointer of type [pt] to [old] may be coerced to the type [npt] of pointers to [new] *)
  Inductive unsize_ok : RTy -> RTy -> PtrType -> PtrType -> Prop :=
  | us_slice old new pt npt n : rc_unsize R old new = UsSlice n -> ptr_meta_kind pt = MKNone -> ptr_meta_kind npt = MKElementCount ->
      can_represent (usize_ty T) (Z.of_N n) = true -> unsize_ok old new pt npt
  | us_same old new pt : rc_unsize R old new = UsSame -> unsize_ok old new pt pt
  | us_dyn old new pt npt tn : rc_unsize R old new = UsDyn -> rc_dyn R new = Some tn -> ptr_meta_kind pt = MKNone ->
      ptr_meta_kind npt = MKVTablePointer tn -> unsize_ok old new pt npt
  | us_no old new pt npt : rc_unsize R old new = UsNo -> unsize_ok old new pt npt.

  (** [rvalue_ok B rv t]: the rvalue has the MiniRust type [t] *)
  Inductive rvalue_ok (B : RBody) : Rvalue -> Ty -> Prop :=
  | rk_use o t : operand_ty B o t -> rvalue_ok B (RvUse o) t
  | rk_int op l r it : int_op op = true -> operand_ty B l (TInt it) -> operand_ty B r (TInt it) -> rvalue_ok B (RvBinary op l r) (TInt it)
  | rk_shift op l r it it' : shift_op op = true -> operand_ty B l (TInt it) -> operand_ty B r (TInt it') -> rvalue_ok B (RvBinary op l r) (TInt it)
  | rk_bit op l r : bit_op op = true -> operand_ty B l TBool -> operand_ty B r TBool -> rvalue_ok B (RvBinary op l r) TBool
  | rk_rel op l r t : rel_op op = true -> comparable t = true -> operand_ty B l t -> operand_ty B r t -> rvalue_ok B (RvBinary op l r) TBool
  | rk_cmp l r t o : comparable t = true -> operand_ty B l t -> operand_ty B r t -> rc_ordering R = Some o -> rvalue_ok B (RvBinary RoCmp l r) o
  | rk_offset l r it rl p size : operand_ok B l rl (TPtr (PRaw MKNone)) -> operand_ty B r (TInt it) ->
      rc_deref R rl = Some p -> rc_size R p = Some size -> can_represent it (Z.of_N size) = true ->
      rvalue_ok B (RvBinary RoOffset l r) (TPtr (PRaw MKNone))
  | rk_checked op l r it t : op = RoAdd \/ op = RoSub \/ op = RoMul -> operand_ty B l (TInt it) -> operand_ty B r (TInt it) ->
      with_overflow T it = Ret t -> rvalue_ok B (RvChecked op l r) t
  | rk_neg o it : operand_ty B o (TInt it) -> rvalue_ok B (RvUnary RuNeg o) (TInt it)
  | rk_not_int o it : operand_ty B o (TInt it) -> rvalue_ok B (RvUnary RuNot o) (TInt it)
  | rk_not o : operand_ty B o TBool -> rvalue_ok B (RvUnary RuNot o) TBool
  | rk_meta o pt : operand_ty B o (TPtr pt) -> rvalue_ok B (RvUnary RuPtrMetadata o) (meta_kind_ty T (ptr_meta_kind pt))
  | rk_ref m p r t pi : place_ok B p r t -> rc_pointee R r = Some pi -> rvalue_ok B (RvRef m p) (TPtr (PRef m pi))
  | rk_addr p r t : place_ok B p r t -> rvalue_ok B (RvAddressOf p) (TPtr (PRaw (ty_meta_kind t)))
  | rk_union k r o f fs ch s al x : ag_field k = Some f -> rc_ty R r = Some (TUnion fs ch s al) -> fs !! f = Some x ->
      operand_ty B o (snd x) -> rvalue_ok B (RvAggregate k r [o]) (TUnion fs ch s al)
  | rk_tuple k r os fs h : rc_ty R r = Some (TTuple fs h None) -> Forall2 (operand_ty B) os (List.map snd fs) ->
      rvalue_ok B (RvAggregate k r os) (TTuple fs h None)
  | rk_array k r os e n : rc_ty R r = Some (TArray e n) -> Z.of_nat (length os) = n -> Forall2 (operand_ty B) os (repeat e (length os)) ->
      rvalue_ok B (RvAggregate k r os) (TArray e n)
  | rk_variant k r os v vts dty d s al bits it fs h tg : ag_variant k = Some v -> rc_ty R r = Some (TEnum vts dty d s al) ->
      rc_discr R r v = Some (bits, it) -> map_get vts (int_from_bits bits it) = Some (TTuple fs h None, tg) ->
      Forall2 (operand_ty B) os (List.map snd fs) -> rvalue_ok B (RvAggregate k r os) (TEnum vts dty d s al)
  | rk_ptr k r p m pt mk : rc_ty R r = Some (TPtr (PRaw mk)) -> operand_ty B p (TPtr pt) -> ptr_meta_kind pt = MKNone ->
      operand_ty B m (meta_kind_ty T mk) -> rvalue_ok B (RvAggregate k r [p; m]) (TPtr (PRaw mk))
  | rk_copy p r t : sized_place B p r t -> rvalue_ok B (RvCopyForDeref p) t
  | rk_len_array p r e n : place_ok B p r (TArray e n) -> can_represent (usize_ty T) n = true -> rvalue_ok B (RvLen p) (TInt (usize_ty T))
  | rk_len_slice p r e : place_ok B p r (TSlice e) -> rvalue_ok B (RvLen p) (TInt (usize_ty T))
  | rk_discr p r vs dty d s al : place_ok B p r (TEnum vs dty d s al) -> rvalue_ok B (RvDiscriminant p) (TInt dty)
  | rk_repeat o n t : operand_ty B o t -> wf_ty (TArray t (Z.of_N n)) -> rvalue_ok B (RvRepeat o n) (TArray t (Z.of_N n))
  | rk_int_cast o r it t : rc_ty R r = Some (TInt it) -> operand_ty B o t -> rvalue_ok B (RvCast CkIntToInt o r) (TInt it)
  | rk_ptr_cast o r t pt : rc_ty R r = Some (TPtr pt) -> operand_ty B o t -> rvalue_ok B (RvCast CkPtrToPtr o r) (TPtr pt)
  | rk_unsize o ro r old new pt npt : operand_ok B o ro (TPtr pt) -> rc_ty R r = Some (TPtr npt) ->
      rc_deref R ro = Some old -> rc_deref R r = Some new -> unsize_ok old new pt npt -> rvalue_ok B (RvCast CkUnsize o r) (TPtr npt)
  | rk_transmute o r t t' : operand_ty B o t -> rc_ty R r = Some t' -> sized_ty t' -> rvalue_ok B (RvCast CkTransmute o r) t'
  | rk_fn f o r : rvalue_ok B (RvCast (CkFnPtr f) o r) (TPtr PFnPtr)
  | rk_cast o r t : rvalue_ok B (RvCast CkOther o r) t
  | rk_other t : rvalue_ok B RvOther t.

  (** ** Statements *)

  Inductive stmt_ok (B : RBody) : RStmt -> Prop :=
  | so_assign p rv r t : sized_place B p r t -> rvalue_ok B rv t -> stmt_ok B (MsAssign p rv)
  | so_expose p o r pt rt : sized_place B p r (TInt (usize_ty T)) -> operand_ty B o (TPtr pt) -> stmt_ok B (MsAssign p (RvCast CkExpose o rt))
  | so_with_exposed p o r pt rt : sized_place B p r (TPtr pt) -> operand_ty B o (TInt (usize_ty T)) -> stmt_ok B (MsAssign p (RvCast CkWithExposed o rt))
  | so_live l : (l < length (ro_locals B))%nat -> stmt_ok B (MsStorageLive l)
  | so_dead l : (ro_args B < l < length (ro_locals B))%nat -> stmt_ok B (MsStorageDead l)
  | so_retag fe p r t : sized_place B p r t -> stmt_ok B (MsRetag fe p)
  | so_discr p r vs dty d s al v bits it x : place_ok B p r (TEnum vs dty d s al) -> rc_discr R r v = Some (bits, it) ->
      map_get vs (int_from_bits bits it) = Some x -> stmt_ok B (MsSetDiscriminant p v)
  | so_assume o : operand_ty B o TBool -> stmt_ok B (MsAssume o)
  | so_mention p r t : place_ok B p r t -> stmt_ok B (MsPlaceMention p)
  | so_other : stmt_ok B MsOther.

  (** ** Terminators. [c] says whether the block is a cleanup block. *)

  (** a block with the given cleanup mark *)
  Definition block_ok (B : RBody) (c : bool) (b : RBb) : Prop := exists blk, ro_blocks B !! b = Some blk /\ rb_cleanup blk = c.
  (** where an unwinding call continues: cleanup blocks must not unwind further *)
  Definition unwind_ok (B : RBody) (c : bool) (u : RUnwind) : Prop :=
    match u with
    | UwContinue => c = false
    | UwUnreachable | UwTerminate => True
    | UwCleanup b => c = false /\ block_ok B true b
    end.
  Definition next_ok (B : RBody) (c : bool) (t : option RBb) : Prop := match t with None => True | Some b => block_ok B c b end.
  Definition operand_typed (B : RBody) (o : ROperand) : Prop := exists t, operand_ty B o t.

  (** the arguments of a call; with [spread] the last is a tuple *)
  Definition args_ok (B : RBody) (spread : bool) (args : list ROperand) : Prop :=
    Forall (operand_typed B) args /\
    (spread = true -> forall o, last args = Some o -> exists r t tys, operand_ok B o r t /\ rc_fields R r = Some tys /\
       forall i r', tys !! i = Some r' -> exists t', field_ty t i = Some t' /\ rc_ty R r' = Some t' /\ sized_ty t').

  (** the calls of Rust's intrinsics *)
  Inductive rs_intrinsic_ok (B : RBody) (c : bool) : RsIntrinsic -> list ROperand -> RPlace -> option RBb -> Prop :=
  | io_assert ok args d b : block_ok B c b -> rs_intrinsic_ok B c (RiAssert ok) args d (Some b)
  | io_raw_eq args d r t b : Forall (operand_typed B) args -> sized_place B d r t -> next_ok B c b -> rs_intrinsic_ok B c RiRawEq args d b
  | io_arith_offset l o it rl p size d r b : operand_ok B l rl (TPtr (PRaw MKNone)) -> operand_ty B o (TInt it) ->
      rc_deref R rl = Some p -> rc_size R p = Some size -> can_represent it (Z.of_N size) = true ->
      sized_place B d r (TPtr (PRaw MKNone)) -> block_ok B c b -> rs_intrinsic_ok B c RiArithOffset [l; o] d (Some b)
  | io_offset_from (u : bool) l o rl p size d r b : operand_ok B l rl (TPtr (PRaw MKNone)) -> operand_ty B o (TPtr (PRaw MKNone)) ->
      rc_deref R rl = Some p -> rc_size R p = Some size -> can_represent (mkIntTy Signed (PTR_SIZE T)) (Z.of_N size) = true ->
      sized_place B d r (TInt (if u then usize_ty T else mkIntTy Signed (PTR_SIZE T))) -> block_ok B c b ->
      rs_intrinsic_ok B c (RiPtrOffsetFrom u) [l; o] d (Some b)
  | io_ctpop o it d r b : operand_ty B o (TInt it) -> sized_place B d r (TInt (mkIntTy Unsigned 4)) -> block_ok B c b ->
      rs_intrinsic_ok B c RiCtpop [o] d (Some b)
  | io_exact_div l o it d r b : operand_ty B l (TInt it) -> operand_ty B o (TInt it) -> sized_place B d r (TInt it) -> block_ok B c b ->
      rs_intrinsic_ok B c RiExactDiv [l; o] d (Some b)
  | io_size_of_val rt o pt t d r b : rc_ty R rt = Some t -> operand_ty B o (TPtr pt) -> ptr_meta_kind pt = ty_meta_kind t ->
      sized_place B d r (TInt (usize_ty T)) -> block_ok B c b -> rs_intrinsic_ok B c (RiSizeOfVal rt) [o] d (Some b)
  | io_align_of_val rt o pt t d r b : rc_ty R rt = Some t -> operand_ty B o (TPtr pt) -> ptr_meta_kind pt = ty_meta_kind t ->
      sized_place B d r (TInt (usize_ty T)) -> block_ok B c b -> rs_intrinsic_ok B c (RiAlignOfVal rt) [o] d (Some b)
  | io_cold_path args d b : block_ok B c b -> rs_intrinsic_ok B c RiColdPath args d (Some b)
  | io_catch f data g d r b : operand_ty B f (TPtr PFnPtr) -> operand_ty B data (TPtr (PRaw MKNone)) -> operand_ty B g (TPtr PFnPtr) ->
      sized_place B d r (TInt (mkIntTy Signed 4)) -> block_ok B c b -> rs_intrinsic_ok B c RiCatchUnwind [f; data; g] d (Some b)
  | io_abort args d b : rs_intrinsic_ok B c RiAbort args d b
  | io_other args d b : rs_intrinsic_ok B c RiOther args d b.

  Inductive call_ok (B : RBody) (c : bool) : RCallee -> list ROperand -> RPlace -> option RBb -> RUnwind -> Prop :=
  | ko_ptr f conv args d r t b u : operand_ty B f (TPtr PFnPtr) -> args_ok B false args -> sized_place B d r t ->
      next_ok B c b -> unwind_ok B c u -> call_ok B c (CePtr f conv) args d b u
  | ko_intrinsic i args d b u : rs_intrinsic_ok B c i args d b -> call_ok B c (CeIntrinsic i) args d b u
  | ko_mini name args d r t b u : args_ok B false args -> sized_place B d r t -> next_ok B c b -> call_ok B c (CeMini name) args d b u
  | ko_panic args d b u : unwind_ok B c u -> call_ok B c CePanic args d b u
  | ko_foreign args d b u : call_ok B c CeForeign args d b u
  | ko_fn conv spread f args d r t b u : args_ok B spread args -> sized_place B d r t ->
      next_ok B c b -> unwind_ok B c u -> call_ok B c (CeFn conv spread f) args d b u
  | ko_virtual conv spread m o args d r t b u pt tn : operand_ty B o (TPtr pt) -> ptr_meta_kind pt = MKVTablePointer tn ->
      args_ok B spread (o :: args) -> (spread = true -> args <> []) -> sized_place B d r t ->
      next_ok B c b -> unwind_ok B c u -> call_ok B c (CeVirtual conv spread m) (o :: args) d b u.

  Inductive term_ok (B : RBody) (c : bool) : RTerm -> Prop :=
  | to_return : c = false -> term_ok B c MtReturn
  | to_goto b : block_ok B c b -> term_ok B c (MtGoto b)
  | to_call f args d b u : call_ok B c f args d b u -> term_ok B c (MtCall f args d b u)
  | to_switch o t (ts : list (Z * RBb)) b : operand_ty B o t -> Forall (fun x : Z * RBb => block_ok B c (snd x)) ts -> block_ok B c b -> term_ok B c (MtSwitch o ts b)
  | to_unreachable : term_ok B c MtUnreachable
  | to_assert o e b u : operand_ty B o TBool -> block_ok B c b -> unwind_ok B c u -> term_ok B c (MtAssert o e b u)
  | to_drop p f r t b u : place_ok B p r t -> block_ok B c b -> unwind_ok B c u -> term_ok B c (MtDrop p f b u)
  | to_resume : c = true -> term_ok B c MtResume
  | to_other : term_ok B c MtOther.

  (** ** Bodies *)

  (** A well-typed body: its locals are sized, the first ones are the return value and the arguments, there is an entry
      block, and all statements and terminators are well-typed. *)
  Record body_ok (B : RBody) : Prop := {
    bo_locals : forall l r t, ro_locals B !! l = Some r -> rc_ty R r = Some t -> sized_ty t;
    bo_args : (ro_args B < length (ro_locals B))%nat;
    bo_spread : forall l, ro_spread B = Some l -> (1 <= l <= ro_args B)%nat /\
      exists r tys, ro_locals B !! l = Some r /\ rc_fields R r = Some tys /\
        forall t i r' t', rc_ty R r = Some t -> tys !! i = Some r' -> rc_ty R r' = Some t' -> field_ty t i = Some t' /\ sized_ty t';
    bo_live : forall l : RLocal, l ∈ ro_always_live B -> (l < length (ro_locals B))%nat;
    bo_entry : block_ok B false 0;
    bo_blocks : forall b, b ∈ ro_blocks B -> Forall (stmt_ok B) (rb_stmts b) /\ term_ok B (rb_cleanup b) (rb_term b);
  }.

  (** ** What the translation does not handle *)

  (** Well-typed MIR of which the translation makes something ill-formed, or at which it panics:
      - a cleanup block that panics, if panics unwind, or that calls catch_unwind;
      - dropping an unsized place that is not just a trait object, or a trait object without drop method;
      - calling a method of a trait object that is not in the method set of its trait;
      - a "rust-call" whose tuple of arguments is not a place;
      - vtables with other methods than their trait (which has only its own methods, not those of its supertraits).
      The definitions say that there is no such construct. *)
  Definition covered_call (B : RBody) (c : bool) (f : RCallee) (args : list ROperand) : Prop :=
    match f with
    | CePanic => rc_unwinds R = true -> c = false
    | CeIntrinsic RiCatchUnwind => c = false
    | CeFn _ spread _ | CeVirtual _ spread _ => spread = true -> forall o, last args = Some o -> exists p, o = OpCopy p \/ o = OpMove p
    | _ => True
    end /\
    match f, args with
    | CeVirtual _ _ m, o :: _ => forall pt tn, operand_ty B o (TPtr pt) -> ptr_meta_kind pt = MKVTablePointer tn ->
        exists ms, map_get (traits_of R) tn = Some ms /\ m ∈ ms
    | _, _ => True
    end.
  Definition covered_term (B : RBody) (c : bool) (tm : RTerm) : Prop :=
    match tm with
    | MtCall f args _ _ _ => covered_call B c f args
    | MtAssert _ _ _ _ => rc_unwinds R = true -> c = false
    | MtDrop p _ _ _ => forall r t, place_ok B p r t ->
        match rc_dyn R r with
        | Some tn => exists ms, map_get (traits_of R) tn = Some ms /\ DROP_IN_PLACE ∈ ms
        | None => ty_meta_kind t = MKNone
        end
    | _ => True
    end.
  Definition covered (B : RBody) : Prop := forall b, b ∈ ro_blocks B -> covered_term B (rb_cleanup b) (rb_term b).
  Definition covered_vtables : Prop := forall r tn size al cells es, rc_vtable R r tn = Some (size, al, cells, es) ->
    exists ms, map_get (traits_of R) tn = Some ms /\ forall m, m ∈ List.map fst (vtable_methods es) <-> m ∈ ms.

  (** the recursion over the pointers of constant allocations is bounded by their number, if there are finitely many *)
  Definition enough (fuel : nat) : Prop :=
    exists all : list RAlloc, (forall a d, rc_alloc R a = Some d -> a ∈ all) /\ (length all <= fuel)%nat.

  (** all that the compiler says is well-typed MIR; none of it is among the exceptions *)
  Definition mir_ok : Prop := rustc_ok /\ forall i b, rc_body R i = Some b -> body_ok b.
  Definition mir_covered : Prop := (forall i b, rc_body R i = Some b -> covered b) /\ covered_vtables.
End Typing.
