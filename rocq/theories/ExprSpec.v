(** What the expressions of the language mean: a relation between expressions and their places and values in a given
    machine state. It is stated with bytes in memory, addresses and offsets, and has no state to thread: evaluation of
    expressions only changes the permissions that the memory model keeps. Pointers made by [EAddrOf] are determined up
    to these permissions. Operators on integers and comparisons are those of IntOps.v, which C11 to C16 are about; the
    sizes of unsized values are those of Types.v, which C44 is about. *)
From Verif Require Export DataSpec OpsSpec ValueSpec.
From Verif Require Export DataSpec.

Section Spec.
  Context {PE AE F : Type} `{EqDecision (nat * PE)}.
  Variable T : Target.
  Notation P := (nat * PE)%type.
  Notation Mach := (Machine P F (BMem PE AE)).
  Notation ptr_bits := (8 * Z.of_N (PTR_SIZE T)).
  Variable m : Mach.

  (** the top frame of the active thread *)
  Definition top_frame (f : StackFrame P F) : Prop :=
    exists t r, m_threads m !! m_active m = Some t /\ t_stack t = f :: r.
  (** the [n] bytes from [p] on are in one live allocation *)
  Definition span (p : ThinPtr P) (n : Z) : Prop :=
    n = 0 \/ exists id i a, points_to m p id i /\ cm_mem (m_mem m) !! id = Some a /\
      0 < n /\ Z.of_nat i + n <= Z.of_N (al_size a).
  (** all bytes between [p] and the pointer [d] bytes further, forwards or backwards, are in one live allocation *)
  Definition reach (p : ThinPtr P) (d : Z) : Prop :=
    (0 <= d -> span p d) /\ (d < 0 -> span (mkThin (tp_addr p + d) (tp_prov p)) (- d)).
  (** [a] is the address congruent to [x] *)
  Definition wrapped_addr (x a : Z) : Prop := wraps_to (mkIntTy Unsigned (PTR_SIZE T)) x a.
  (** size and alignment of a value of type [ty], given the metadata of the pointer to it *)
  Definition measures (ty : Ty) (meta : option (PtrMeta P)) (s : Size) (al : Align) : Prop :=
    exists l, layout T ty = Ret l /\ compute_size_and_align l meta (vtable_lookup m) = Ret (s, al).

  (** [v] is well-formed at type [ty] (C59), where references point to live memory *)
  Definition valid (ty : Ty) (v : Value P) : Prop :=
    exists env, (forall p n, ce_deref env p n = Ret tt <-> span p (Z.of_N n)) /\ ce_vtable_from_ptr env = vtable_from_ptr m /\
      ce_vtable_lookup env = vtable_lookup m /\ valid_value T env ty v.
  (** memory from [p] on holds the integer [x] *)
  Definition holds_int (p : ThinPtr P) (it : IntType) (x : Z) : Prop :=
    exists bs, length bs = N.to_nat (it_size it) /\ stores_at m p bs /\ decode T (TInt it) bs = Ret (Some (VInt x)).
  (** the discriminant that the tags in memory stand for: branches look at the integer stored at their offset, and go
      on with the first child for it, or else with the fallback *)
  Inductive discr_at (p : ThinPtr P) : Discriminator -> Z -> Prop :=
  | da_known d : discr_at p (DKnown d) d
  | da_child off it fb l1 lo hi c l2 x d : reach p (Z.of_N off) -> holds_int (past p off) it x -> lo <= x < hi ->
      (forall lo' hi' c', In ((lo', hi'), c') l1 -> ~ lo' <= x < hi') ->
      discr_at p c d -> discr_at p (DBranch off it fb (l1 ++ ((lo, hi), c) :: l2)) d
  | da_fallback off it fb ch x d : reach p (Z.of_N off) -> holds_int (past p off) it x ->
      (forall lo hi c, In ((lo, hi), c) ch -> ~ lo <= x < hi) ->
      discr_at p fb d -> discr_at p (DBranch off it fb ch) d.

  (** offset and type of field number [i]; the unsized tail follows the head, at the next multiple of its alignment,
      which packed types limit *)
  Inductive field_at : Ty -> option (PtrMeta P) -> Z -> Offset -> Ty -> Prop :=
  | fa_tuple fields head u meta i off t : fields !! i = Some (off, t) ->
      field_at (TTuple fields head u) meta (Z.of_nat i) off t
  | fa_tail fields head t meta s al c off : measures t meta s al ->
      c = match th_packed head with Some a => N.min (align_bytes al) (align_bytes a) | None => align_bytes al end ->
      (off mod c = 0 /\ th_end head <= off < th_end head + c)%N ->
      field_at (TTuple fields head (Some t)) meta (Z.of_nat (length fields)) off t
  | fa_union fields chunks s al meta i off t : fields !! i = Some (off, t) ->
      field_at (TUnion fields chunks s al) meta (Z.of_nat i) off t.

  (** pointer metadata as a value, and its type *)
  Inductive meta_value : MetaKind -> option (PtrMeta P) -> Value P -> Ty -> Prop :=
  | mv_none : meta_value MKNone None (VTuple []) unit_ty
  | mv_count c : meta_value MKElementCount (Some (MElementCount c)) (VInt c) (TInt (mkIntTy Unsigned (PTR_SIZE T)))
  | mv_vtable tn p : meta_value (MKVTablePointer tn) (Some (MVTablePointer p)) (VPtr (mkPtr p None)) (TPtr (PVTablePtr tn)).

  (** unary operators: operand, its type, result, its type *)
  Inductive un_means : UnOp -> Value P -> Ty -> Value P -> Ty -> Prop :=
  | um_int op i it r : eval_int_un_op op i it = Ret r ->
      un_means (UInt op) (VInt i) (TInt it) (VInt r) (TInt (int_un_op_ty op it))
  | um_cast it i ty : un_means (UCast (CIntToInt it)) (VInt i) ty (VInt (int_to_int it i)) (TInt it)
  | um_transmute v ty w ty' s bs : size_of T ty = Ret s -> size_of T ty' = Ret s -> encode T ty v = Ret bs ->
      decode T ty' bs = Ret (Some w) -> valid ty' w -> un_means (UCast (CTransmute ty')) v ty w ty'
  | um_thin p ty : un_means UGetThinPointer (VPtr p) ty (VPtr (mkPtr (p_thin p) None)) (TPtr (PRaw MKNone))
  | um_meta p pt w ty : meta_value (ptr_meta_kind pt) (p_meta p) w ty -> un_means UGetMetadata (VPtr p) (TPtr pt) w ty
  | um_size t v ty meta mty s al : meta_value (ty_meta_kind t) meta v mty -> measures t meta s al ->
      un_means (UComputeSize t) v ty (VInt (Z.of_N s)) (TInt (mkIntTy Unsigned (PTR_SIZE T)))
  | um_align t v ty meta mty s al : meta_value (ty_meta_kind t) meta v mty -> measures t meta s al ->
      un_means (UComputeAlign t) v ty (VInt (Z.of_N (align_bytes al))) (TInt (mkIntTy Unsigned (PTR_SIZE T)))
  | um_method p pt n vt method fn fp : In (n, p_thin p) (m_vtptrs m) -> map_get (pr_vtables (m_prog m)) n = Some vt ->
      map_get (vt_methods vt) method = Some fn -> map_get (m_fnptrs m) fn = Some fp ->
      un_means (UVTableMethodLookup method) (VPtr p) (TPtr pt) (VPtr (mkPtr fp None)) (TPtr PFnPtr).

  (** binary operators: left operand, its type, right operand, result, its type *)
  Inductive bin_means : BinOp -> Value P -> Ty -> Value P -> Value P -> Ty -> Prop :=
  | bn_int op i it j r : int_bin_op op i j it = Ret r -> bin_means (BInt op) (VInt i) (TInt it) (VInt j) (VInt r) (TInt it)
  | bn_overflow op i it j r o ty : int_bin_op_overflow op i j it = (r, o) -> with_overflow T it = Ret ty ->
      bin_means (BIntWithOverflow op) (VInt i) (TInt it) (VInt j) (VTuple [VInt r; VBool o]) ty
  | bn_rel rel v ty w r rty : rel_op rel ty v w = Ret (r, rty) -> bin_means (BRel rel) v ty w r rty
  | bn_offset p ty i : reach p i ->
      bin_means (BPtrOffset true) (VPtr (mkPtr p None)) ty (VInt i) (VPtr (mkPtr (mkThin (tp_addr p + i) (tp_prov p)) None)) ty
  | bn_offset_wrapping p ty i a : wrapped_addr (tp_addr p + i) a ->
      bin_means (BPtrOffset false) (VPtr (mkPtr p None)) ty (VInt i) (VPtr (mkPtr (mkThin a (tp_prov p)) None)) ty
  | bn_from nonneg p ty q d : tp_addr p = tp_addr q + d -> reach q d -> reach p (- d) ->
      (nonneg = true -> 0 <= d) ->
      bin_means (BPtrOffsetFrom true nonneg) (VPtr (mkPtr p None)) ty (VPtr (mkPtr q None)) (VInt d)
        (TInt (mkIntTy Signed (PTR_SIZE T)))
  | bn_from_wrapping nonneg p ty q d : wraps_to (mkIntTy Signed (PTR_SIZE T)) (tp_addr p - tp_addr q) d ->
      (nonneg = true -> 0 <= d) ->
      bin_means (BPtrOffsetFrom false nonneg) (VPtr (mkPtr p None)) ty (VPtr (mkPtr q None)) (VInt d)
        (TInt (mkIntTy Signed (PTR_SIZE T)))
  | bn_wide pt p ty w meta mty : meta_value (ptr_meta_kind pt) meta w mty -> valid (TPtr pt) (VPtr (mkPtr p meta)) ->
      bin_means (BConstructWidePointer pt) (VPtr (mkPtr p None)) ty w (VPtr (mkPtr p meta)) (TPtr pt).

  (** constants *)
  Inductive const_means : Constant -> Value P -> Prop :=
  | cn_int i : const_means (KInt i) (VInt i)
  | cn_bool b : const_means (KBool b) (VBool b)
  | cn_global r p a : map_get (m_globals m) (r_name r) = Some p -> wrapped_addr (tp_addr p + Z.of_N (r_offset r)) a ->
      const_means (KGlobalPointer r) (VPtr (mkPtr (mkThin a (tp_prov p)) None))
  | cn_fn f p : map_get (m_fnptrs m) f = Some p -> const_means (KFnPointer f) (VPtr (mkPtr p None))
  | cn_vtable v p : map_get (m_vtptrs m) v = Some p -> const_means (KVTablePointer v) (VPtr (mkPtr p None))
  | cn_addr a : const_means (KPointerWithoutProvenance a) (VPtr (mkPtr (mkThin a None) None)).

  (** expressions: value and type; place expressions: pointer, whether it is aligned, and type *)
  Inductive value_means : ValueExpr -> Value P -> Ty -> Prop :=
  | vm_const c v ty : const_means c v -> value_means (EConstant c ty) v ty
  | vm_tuple es vs ty : values_mean es vs -> value_means (ETuple es ty) (VTuple vs) ty
  | vm_union i e fields chunks s al off fty v ety bs data u : fields !! i = Some (off, fty) -> value_means e v ety ->
      encode T fty v = Ret bs -> length data = N.to_nat s ->
      (forall k, (k < length data)%nat ->
         data !! k = if (N.to_nat off <=? k)%nat && (k <? N.to_nat off + length bs)%nat then bs !! (k - N.to_nat off)%nat else Some Uninit) ->
      decode T (TUnion fields chunks s al) data = Ret (Some u) ->
      value_means (EUnion (Z.of_nat i) e (TUnion fields chunks s al)) u (TUnion fields chunks s al)
  | vm_variant d e v ety ty : value_means e v ety -> value_means (EVariant d e ty) (VVariant d v) ty
  | vm_discr p ptr variants dty discr s al d : place_means p ptr true (TEnum variants dty discr s al) ->
      discr_at (p_thin ptr) discr d -> value_means (EGetDiscriminant p) (VInt d) (TInt dty)
  | vm_load p ptr ty v : place_means p ptr true ty -> holds T m (p_thin ptr) ty v -> valid ty v -> value_means (ELoad p) v ty
  | vm_addr_of p ptr al ty pt q : place_means p ptr al ty -> valid (TPtr pt) (VPtr ptr) -> same_dest ptr q -> value_means (EAddrOf p pt) (VPtr q) (TPtr pt)
  | vm_un op e v ty w wty : value_means e v ty -> un_means op v ty w wty -> value_means (EUnOp op e) w wty
  | vm_bin op e1 v1 ty1 e2 v2 ty2 w wty : value_means e1 v1 ty1 -> value_means e2 v2 ty2 ->
      bin_means op v1 ty1 v2 w wty -> value_means (EBinOp op e1 e2) w wty
  with values_mean : list ValueExpr -> list (Value P) -> Prop :=
  | vs_nil : values_mean [] []
  | vs_cons e v ty es vs : value_means e v ty -> values_mean es vs -> values_mean (e :: es) (v :: vs)
  with place_means : PlaceExpr -> Pointer P -> bool -> Ty -> Prop :=
  | pm_local l f p ty : top_frame f -> map_get (f_locals f) l = Some p -> map_get (fn_locals (f_func f)) l = Some ty ->
      place_means (PLocal l) (mkPtr p None) true ty
  | pm_deref e ptr pt ty s al b : value_means e (VPtr ptr) (TPtr pt) -> measures ty (p_meta ptr) s al ->
      (b = true <-> tp_addr (p_thin ptr) mod Z.of_N (align_bytes al) = 0) ->
      (forall pi n nal, safe_pointee pt = Some pi -> compute_size_and_align (pi_layout pi) (p_meta ptr) (vtable_lookup m) = Ret (n, nal) ->
         span (p_thin ptr) (Z.of_N n) /\ tp_addr (p_thin ptr) mod Z.of_N (align_bytes nal) = 0) ->
      place_means (PDeref e ty) ptr b ty
  | pm_field p ptr b ty i off fty meta : place_means p ptr b ty -> field_at ty (p_meta ptr) i off fty ->
      reach (p_thin ptr) (Z.of_N off) ->
      ((exists s al, layout T fty = Ret (LSized s al)) /\ meta = None \/
       (forall s al, layout T fty <> Ret (LSized s al)) /\ meta = p_meta ptr) ->
      place_means (PField p i) (mkPtr (past (p_thin ptr) off) meta) b fty
  | pm_index p ptr b ty e i ity elem count s : place_means p ptr b ty -> value_means e (VInt i) ity ->
      (ty = TArray elem count \/ ty = TSlice elem /\ p_meta ptr = Some (MElementCount count)) ->
      0 <= i < count -> size_of T elem = Ret s -> reach (p_thin ptr) (Z.of_N s * i) ->
      place_means (PIndex p e) (mkPtr (past (p_thin ptr) (s * Z.to_N i)) None) b elem
  | pm_downcast p ptr b variants dty discr s al d ty tg : place_means p ptr b (TEnum variants dty discr s al) ->
      map_get variants d = Some (ty, tg) -> place_means (PDowncast p d) ptr b ty.
End Spec.

Section Args.
  Context {PE AE F : Type} `{EqDecision (nat * PE)}.
  Variable T : Target.
  Notation P := (nat * PE)%type.
  Notation Mach := (Machine P F (BMem PE AE)).

  (** the expressions have these values and types *)
  Definition all_mean (m : Mach) (es : list ValueExpr) (vals : list (Value P * Ty)) : Prop :=
    Forall2 (fun e va => value_means T m e (fst va) (snd va)) es vals.
  (** the bytes are written, nothing else changes but permissions *)
  Definition only_writes (m m' : Mach) (p : ThinPtr P) (bs : list (AByte P)) : Prop :=
    writes m m' p bs /\ same_control m m' /\ forall q id k s al, object_at m' q id k s al <-> object_at m q id k s al.

  (** the arguments of a call have these values and types. Places passed in place, listed in [moved], lose their
      contents as soon as they are read; the remaining arguments are evaluated after that. *)
  Inductive args_mean (m : Mach) : list ArgumentExpr -> list (Value P * Ty) -> list (ThinPtr P * Size) -> Prop :=
  | am_nil : args_mean m [] [] []
  | am_value e r v ty vs mv : value_means T m e v ty -> args_mean m r vs mv -> args_mean m (ByValue e :: r) ((v, ty) :: vs) mv
  | am_place p r ptr ty s v m1 vs mv : place_means T m p ptr true ty -> holds T m (p_thin ptr) ty v -> valid T m ty v -> size_of T ty = Ret s ->
      only_writes m m1 (p_thin ptr) (repeat Uninit (N.to_nat s)) -> args_mean m1 r vs mv ->
      args_mean m (InPlace p :: r) ((v, ty) :: vs) ((p_thin ptr, s) :: mv).
End Args.
