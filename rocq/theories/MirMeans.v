(** What places, operands and rvalues of MIR mean: relations like those of ExprSpec.v, stated for MIR itself and without the
    translation. They are about a machine state, whose memory they read, and say where locals, functions, constant allocations
    and vtables are by an environment. Integers are those of OpsSpec.v. *)
From Verif Require Export MirSpec ExprSpec.

(** addresses: of the locals of the running function, of functions, of constant allocations and of vtables *)
Record Env (P : Type) := mkEnv {
  ev_local : RLocal -> option (ThinPtr P);
  ev_fn : Inst -> option (ThinPtr P);
  ev_alloc : RAlloc -> option (ThinPtr P);
  ev_vtable : RTy * TraitName -> option (ThinPtr P);
}.
Arguments mkEnv {P}. Arguments ev_local {P}. Arguments ev_fn {P}. Arguments ev_alloc {P}. Arguments ev_vtable {P}.

(** the type of the discriminants of an enum has a size, and is that of its translation *)
Definition discr_ok (R : Rustc) : Prop := forall r v bits it, rc_discr R r v = Some (bits, it) ->
  it_size it <> 0%N /\ forall vs dty d s al, rc_ty R r = Some (TEnum vs dty d s al) -> dty = it.

(** the operators on integers of type [it] *)
Inductive int_math (it : IntType) : RBinOp -> Z -> Z -> Z -> Prop :=
| im_add x y z : wraps_to it (x + y) z -> int_math it RoAdd x y z
| im_sub x y z : wraps_to it (x - y) z -> int_math it RoSub x y z
| im_mul x y z : wraps_to it (x * y) z -> int_math it RoMul x y z
| im_add_unchecked x y : fits it (x + y) -> int_math it RoAddUnchecked x y (x + y)
| im_sub_unchecked x y : fits it (x - y) -> int_math it RoSubUnchecked x y (x - y)
| im_mul_unchecked x y : fits it (x * y) -> int_math it RoMulUnchecked x y (x * y)
| im_div x y q rem : trunc_div x y q rem -> fits it q -> int_math it RoDiv x y q
| im_rem x y q rem z : trunc_div x y q rem -> fits it q -> wraps_to it rem z -> int_math it RoRem x y z
| im_and x y w z : bit_by_bit andb x y w -> wraps_to it w z -> int_math it RoBitAnd x y z
| im_or x y w z : bit_by_bit orb x y w -> wraps_to it w z -> int_math it RoBitOr x y z
| im_xor x y w z : bit_by_bit xorb x y w -> wraps_to it w z -> int_math it RoBitXor x y z
| im_shl x y a k z : 0 <= a < 8 * Z.of_N (it_size it) -> y = a + k * (8 * Z.of_N (it_size it)) ->
    wraps_to it (x * 2 ^ a) z -> int_math it RoShl x y z
| im_shr x y a k q z : 0 <= a < 8 * Z.of_N (it_size it) -> y = a + k * (8 * Z.of_N (it_size it)) ->
    q * 2 ^ a <= x < (q + 1) * 2 ^ a -> wraps_to it q z -> int_math it RoShr x y z
| im_shl_unchecked x y z : 0 <= y < 8 * Z.of_N (it_size it) -> wraps_to it (x * 2 ^ y) z -> int_math it RoShlUnchecked x y z
| im_shr_unchecked x y q z : 0 <= y < 8 * Z.of_N (it_size it) -> q * 2 ^ y <= x < (q + 1) * 2 ^ y -> wraps_to it q z ->
    int_math it RoShrUnchecked x y z.

(** the operators on booleans *)
Definition bool_math (op : RBinOp) (a b : bool) : option bool :=
  match op with RoBitAnd => Some (a && b) | RoBitOr => Some (a || b) | RoBitXor => Some (xorb a b) | _ => None end.
(** the comparisons, of the integers that decide the order of two values *)
Definition rel_math (op : RBinOp) (k l : list Z) : Prop :=
  match op with
  | RoLt => lex_lt k l
  | RoLe => lex_lt k l \/ k = l
  | RoGt => lex_lt l k
  | RoGe => lex_lt l k \/ k = l
  | RoEq => k = l
  | RoNe => k <> l
  | _ => False
  end.
(** the three-way comparison *)
Definition cmp_math (k l : list Z) (c : Z) : Prop := c = -1 /\ lex_lt k l \/ c = 0 /\ k = l \/ c = 1 /\ lex_lt l k.
(** the operators with overflow check *)
Definition checked_math (op : RBinOp) (x y : Z) : option Z :=
  match op with RoAdd => Some (x + y) | RoSub => Some (x - y) | RoMul => Some (x * y) | _ => None end.

Section Means.
  Context {PE AE F : Type} `{EqDecision (nat * PE)}.
  Variable T : Target.
  Notation P := (nat * PE)%type.
  Notation Mach := (Machine P F (BMem PE AE)).
  Variable m : Mach.
  Variables (R : Rustc) (B : RBody) (env : Env P).
  Notation isize_ty := (mkIntTy Signed (PTR_SIZE T)).

  (** the aligned place at [ptr] can be read and holds [v] *)
  Definition reads (ptr : Pointer P) (t : Ty) (v : Value P) : Prop := holds T m (p_thin ptr) t v /\ valid T m t v.

  (** *** Places: a pointer, whether it is aligned, the MIR type and the MiniRust type (that of a variant after a downcast) *)
  Notation Place := (Pointer P * bool * RTy * Ty)%type.
  Inductive proj_means : Place -> Proj -> Place -> Prop :=
  | pj_field ptr b r t f r' off t' meta : field_at T m t (p_meta ptr) (Z.of_nat f) off t' -> rc_ty R r' = Some t' ->
      reach m (p_thin ptr) (Z.of_N off) ->
      ((exists s al, layout T t' = Ret (LSized s al)) /\ meta = None \/ (forall s al, layout T t' <> Ret (LSized s al)) /\ meta = p_meta ptr) ->
      proj_means (ptr, b, r, t) (PjField f r') (mkPtr (past (p_thin ptr) off) meta, b, r', t')
  | pj_deref ptr r pt q r' t' s al b : reads ptr (TPtr pt) (VPtr q) -> rc_deref R r = Some r' -> rc_ty R r' = Some t' ->
      measures T m t' (p_meta q) s al -> (b = true <-> tp_addr (p_thin q) mod Z.of_N (align_bytes al) = 0) ->
      (forall pi n nal, safe_pointee pt = Some pi -> compute_size_and_align (pi_layout pi) (p_meta q) (vtable_lookup m) = Ret (n, nal) ->
         span m (p_thin q) (Z.of_N n) /\ tp_addr (p_thin q) mod Z.of_N (align_bytes nal) = 0) ->
      proj_means (ptr, true, r, TPtr pt) PjDeref (q, b, r', t')
  | pj_index ptr b r t l rl it p i elem count s r' : ro_locals B !! l = Some rl -> rc_ty R rl = Some (TInt it) ->
      ev_local env l = Some p -> reads (mkPtr p None) (TInt it) (VInt i) ->
      (t = TArray elem count \/ t = TSlice elem /\ p_meta ptr = Some (MElementCount count)) ->
      0 <= i < count -> size_of T elem = Ret s -> reach m (p_thin ptr) (Z.of_N s * i) -> rc_elem R r = Some r' ->
      proj_means (ptr, b, r, t) (PjIndex l) (mkPtr (past (p_thin ptr) (s * Z.to_N i)) None, b, r', elem)
  | pj_downcast ptr b r vs dty d s al v bits it x t tg : rc_discr R r v = Some (bits, it) -> wraps_to it bits x ->
      map_get vs x = Some (t, tg) -> proj_means (ptr, b, r, TEnum vs dty d s al) (PjDowncast v) (ptr, b, r, t).
  Inductive projs_mean : Place -> list Proj -> Place -> Prop :=
  | pjs_nil x : projs_mean x [] x
  | pjs_cons x p y ps z : proj_means x p y -> projs_mean y ps z -> projs_mean x (p :: ps) z.
  Definition rplace_means (p : RPlace) (ptr : Pointer P) (b : bool) (r : RTy) (t : Ty) : Prop :=
    exists r0 t0 q, ro_locals B !! rp_local p = Some r0 /\ rc_ty R r0 = Some t0 /\ ev_local env (rp_local p) = Some q /\
      projs_mean (mkPtr q None, true, r0, t0) (rp_proj p) (ptr, b, r, t).

  (** *** Constants *)
  (** a pointer into an allocation, or an address *)
  Inductive address_means : option RAlloc -> N -> ThinPtr P -> Prop :=
  | ad_addr a : address_means None a (mkThin (Z.of_N a) None)
  | ad_alloc i off p a : ev_alloc env i = Some p -> wrapped_addr T (tp_addr p + Z.of_N off) a -> address_means (Some i) off (mkThin a (tp_prov p)).
  Inductive cval_means : CVal -> Value P -> Prop :=
  | cv_scalar r bits it x : rc_ty R r = Some (TInt it) -> wraps_to it bits x -> cval_means (CvScalar r bits) (VInt x)
  | cv_bool r b : cval_means (CvBool r b) (VBool b)
  | cv_thin r pt prov off meta p : rc_ty R r = Some (TPtr pt) -> ptr_meta_kind pt = MKNone -> address_means prov off p ->
      cval_means (CvPtr r prov off meta) (VPtr (mkPtr p None))
  | cv_slice r pt prov off n p : rc_ty R r = Some (TPtr pt) -> ptr_meta_kind pt = MKElementCount -> address_means prov off p ->
      valid T m (TPtr pt) (VPtr (mkPtr p (Some (MElementCount (Z.of_N n))))) ->
      cval_means (CvPtr r prov off (Some n)) (VPtr (mkPtr p (Some (MElementCount (Z.of_N n)))))
  | cv_fields r cs vs : Forall2 cval_means cs vs -> cval_means (CvFields r cs) (VTuple vs)
  | cv_variant r idx cs vs vts dty d s al bits it x : rc_ty R r = Some (TEnum vts dty d s al) -> rc_discr R r idx = Some (bits, it) ->
      wraps_to it bits x -> Forall2 cval_means cs vs -> cval_means (CvVariant r idx cs) (VVariant x (VTuple vs)).

  (** *** Operands: the value and its type *)
  Inductive operand_means : ROperand -> Value P -> Ty -> Prop :=
  | om_const c v t : rc_ty R (cval_ty c) = Some t -> cval_means c v -> operand_means (OpConst c) v t
  | om_copy p ptr r v t : rplace_means p ptr true r t -> reads ptr t v -> operand_means (OpCopy p) v t
  | om_move p ptr r v t : rplace_means p ptr true r t -> reads ptr t v -> operand_means (OpMove p) v t
  | om_runtime c : operand_means (OpRuntime c) (VBool (rc_checks R c)) TBool.
  Definition operands_mean (os : list ROperand) (vs : list (Value P)) : Prop := Forall2 (fun o v => exists t, operand_means o v t) os vs.

  (** *** Rvalues: the value and its type *)
  (** the value [w] of type [t'] with the bytes of the value [v] of type [t] *)
  Definition transmutes (t : Ty) (v : Value P) (t' : Ty) (w : Value P) : Prop :=
    exists s bs, size_of T t = Ret s /\ size_of T t' = Ret s /\ encode T t v = Ret bs /\ decode T t' bs = Ret (Some w) /\ valid T m t' w.
  (** metadata for a pointer to a type after unsizing a pointer to another *)
  Inductive unsize_means : RTy -> RTy -> PtrType -> Pointer P -> Pointer P -> Prop :=
  | un_slice old new npt p n : rc_unsize R old new = UsSlice n -> valid T m (TPtr npt) (VPtr (mkPtr p (Some (MElementCount (Z.of_N n))))) ->
      unsize_means old new npt (mkPtr p None) (mkPtr p (Some (MElementCount (Z.of_N n))))
  | un_dyn old new npt p tn v : rc_unsize R old new = UsDyn -> rc_dyn R new = Some tn -> ev_vtable env (old, tn) = Some v ->
      valid T m (TPtr npt) (VPtr (mkPtr p (Some (MVTablePointer v)))) -> unsize_means old new npt (mkPtr p None) (mkPtr p (Some (MVTablePointer v)))
  | un_same old new npt p : rc_unsize R old new = UsSame -> unsize_means old new npt p p.
  (** casts to the MIR type [r] *)
  Inductive cast_means : RCast -> ROperand -> RTy -> Value P -> Ty -> Prop :=
  | ca_int o r it x it' z : operand_means o (VInt x) (TInt it') -> rc_ty R r = Some (TInt it) -> wraps_to it x z -> cast_means CkIntToInt o r (VInt z) (TInt it)
  | ca_bool o r it b : operand_means o (VBool b) TBool -> rc_ty R r = Some (TInt it) -> cast_means CkIntToInt o r (VInt (if b then 1 else 0)) (TInt it)
  | ca_ptr o r mk v : operand_means o v (TPtr (PRaw mk)) -> rc_ty R r = Some (TPtr (PRaw mk)) -> cast_means CkPtrToPtr o r v (TPtr (PRaw mk))
  | ca_thin o r mk p : operand_means o (VPtr p) (TPtr (PRaw mk)) -> rc_ty R r = Some (TPtr (PRaw MKNone)) -> mk <> MKNone ->
      cast_means CkPtrToPtr o r (VPtr (mkPtr (p_thin p) None)) (TPtr (PRaw MKNone))
  | ca_unsize o ro t r old new npt p q : operand_ok T R B o ro t -> operand_means o (VPtr p) t -> rc_deref R ro = Some old -> rc_deref R r = Some new ->
      rc_ty R r = Some (TPtr npt) -> unsize_means old new npt p q -> cast_means CkUnsize o r (VPtr q) (TPtr npt)
  | ca_transmute o r t v t' w : operand_means o v t -> rc_ty R r = Some t' -> transmutes t v t' w -> cast_means CkTransmute o r w t'
  | ca_fn f o r p : ev_fn env f = Some p -> cast_means (CkFnPtr f) o r (VPtr (mkPtr p None)) (TPtr PFnPtr).
  (** the bytes of a union whose field at [off] has the bytes [bs] *)
  Definition union_bytes (s : Size) (off : Offset) (bs data : list (AByte P)) : Prop :=
    length data = N.to_nat s /\
    forall k, (k < length data)%nat ->
      data !! k = if (N.to_nat off <=? k)%nat && (k <? N.to_nat off + length bs)%nat then bs !! (k - N.to_nat off)%nat else Some Uninit.

  Inductive rvalue_means : Rvalue -> Value P -> Ty -> Prop :=
  | rm_use o v t : operand_means o v t -> rvalue_means (RvUse o) v t
  | rm_int op l r x it y it' z : operand_means l (VInt x) (TInt it) -> operand_means r (VInt y) (TInt it') -> int_math it op x y z ->
      rvalue_means (RvBinary op l r) (VInt z) (TInt it)
  | rm_bool op l r a b c : operand_means l (VBool a) TBool -> operand_means r (VBool b) TBool -> bool_math op a b = Some c ->
      rvalue_means (RvBinary op l r) (VBool c) TBool
  | rm_rel op l r v w t k1 k2 c : operand_means l v t -> operand_means r w t -> cmp_key t v k1 -> cmp_key t w k2 -> MirSpec.rel_op op = true ->
      (c = true <-> rel_math op k1 k2) -> rvalue_means (RvBinary op l r) (VBool c) TBool
  | rm_cmp l r v w t k1 k2 c o u : operand_means l v t -> operand_means r w t -> cmp_key t v k1 -> cmp_key t w k2 -> cmp_math k1 k2 c ->
      rc_ordering R = Some o -> transmutes (TInt (mkIntTy Signed 1)) (VInt c) o u -> rvalue_means (RvBinary RoCmp l r) u o
  | rm_offset l r rl p pt x it pl size : operand_ok T R B l rl (TPtr pt) -> operand_means l (VPtr (mkPtr p None)) (TPtr pt) -> operand_means r (VInt x) (TInt it) ->
      rc_deref R rl = Some pl -> rc_size R pl = Some size -> fits it (x * Z.of_N size) -> reach m p (x * Z.of_N size) ->
      rvalue_means (RvBinary RoOffset l r) (VPtr (mkPtr (mkThin (tp_addr p + x * Z.of_N size) (tp_prov p)) None)) (TPtr pt)
  | rm_checked op l r x it y it' e z o t : operand_means l (VInt x) (TInt it) -> operand_means r (VInt y) (TInt it') -> checked_math op x y = Some e ->
      wraps_to it e z -> (o = true <-> ~ fits it e) -> with_overflow T it = Ret t ->
      rvalue_means (RvChecked op l r) (VTuple [VInt z; VBool o]) t
  | rm_neg o x it z : operand_means o (VInt x) (TInt it) -> wraps_to it (- x) z -> rvalue_means (RvUnary RuNeg o) (VInt z) (TInt it)
  | rm_not o x it w z : operand_means o (VInt x) (TInt it) -> (forall n, 0 <= n -> Z.testbit w n = negb (Z.testbit x n)) -> wraps_to it w z ->
      rvalue_means (RvUnary RuNot o) (VInt z) (TInt it)
  | rm_not_bool o b : operand_means o (VBool b) TBool -> rvalue_means (RvUnary RuNot o) (VBool (negb b)) TBool
  | rm_meta o p pt w t : operand_means o (VPtr p) (TPtr pt) -> meta_value T (ptr_meta_kind pt) (p_meta p) w t -> rvalue_means (RvUnary RuPtrMetadata o) w t
  | rm_ref mut p ptr b r t pi q : rplace_means p ptr b r t -> rc_pointee R r = Some pi -> valid T m (TPtr (PRef mut pi)) (VPtr ptr) -> same_dest ptr q ->
      rvalue_means (RvRef mut p) (VPtr q) (TPtr (PRef mut pi))
  | rm_addr p ptr b r t q : rplace_means p ptr b r t -> valid T m (TPtr (PRaw (ty_meta_kind t))) (VPtr ptr) -> same_dest ptr q ->
      rvalue_means (RvAddressOf p) (VPtr q) (TPtr (PRaw (ty_meta_kind t)))
  | rm_union k r o f fs ch s al off ft v t bs data u : ag_field k = Some f -> rc_ty R r = Some (TUnion fs ch s al) -> fs !! f = Some (off, ft) ->
      operand_means o v t -> encode T ft v = Ret bs -> union_bytes s off bs data -> decode T (TUnion fs ch s al) data = Ret (Some u) ->
      rvalue_means (RvAggregate k r [o]) u (TUnion fs ch s al)
  | rm_tuple k r os vs fs h u : rc_ty R r = Some (TTuple fs h u) -> operands_mean os vs -> rvalue_means (RvAggregate k r os) (VTuple vs) (TTuple fs h u)
  | rm_array k r os vs e n : rc_ty R r = Some (TArray e n) -> operands_mean os vs -> rvalue_means (RvAggregate k r os) (VTuple vs) (TArray e n)
  | rm_variant k r os vs v vts dty d s al bits it x : ag_variant k = Some v -> rc_ty R r = Some (TEnum vts dty d s al) -> rc_discr R r v = Some (bits, it) ->
      wraps_to it bits x -> operands_mean os vs -> rvalue_means (RvAggregate k r os) (VVariant x (VTuple vs)) (TEnum vts dty d s al)
  | rm_ptr k r op om p pt w wt meta mk mt : rc_ty R r = Some (TPtr (PRaw mk)) -> operand_means op (VPtr (mkPtr p None)) (TPtr pt) -> operand_means om w wt ->
      meta_value T mk meta w mt -> valid T m (TPtr (PRaw mk)) (VPtr (mkPtr p meta)) ->
      rvalue_means (RvAggregate k r [op; om]) (VPtr (mkPtr p meta)) (TPtr (PRaw mk))
  | rm_copy p ptr r v t : rplace_means p ptr true r t -> reads ptr t v -> rvalue_means (RvCopyForDeref p) v t
  | rm_len_array p r e n : place_ok R B p r (TArray e n) -> rvalue_means (RvLen p) (VInt n) (TInt (mkIntTy Unsigned (PTR_SIZE T)))
  | rm_len_slice p ptr b r e n : rplace_means p ptr b r (TSlice e) -> p_meta ptr = Some (MElementCount n) ->
      valid T m (TPtr (PRaw MKElementCount)) (VPtr ptr) -> rvalue_means (RvLen p) (VInt n) (TInt (mkIntTy Unsigned (PTR_SIZE T)))
  | rm_discr p ptr r vs dty d s al x : rplace_means p ptr true r (TEnum vs dty d s al) -> discr_at T m (p_thin ptr) d x ->
      rvalue_means (RvDiscriminant p) (VInt x) (TInt dty)
  | rm_repeat o ro n vs t : operand_ok T R B o ro t -> length vs = N.to_nat n -> Forall (fun v => operand_means o v t) vs ->
      rvalue_means (RvRepeat o n) (VTuple vs) (TArray t (Z.of_N n))
  | rm_cast k o r v t : cast_means k o r v t -> rvalue_means (RvCast k o r) v t.
End Means.
