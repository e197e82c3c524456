(** Which steps are allowed, in the basic memory model: a list of everything that is undefined behaviour. It says of
    each statement, terminator and intrinsic what has to hold in the state in which the thread takes its turn, in terms
    of what the expressions mean (ExprSpec.v) and of live memory. *)
From Verif Require Export ExprSpec AbiSpec.
Local Open Scope Z_scope.

Section Spec.
  Context {PE AE F : Type} `{EqDecision (nat * PE)}.
  Variable T : Target.
  Notation P := (nat * PE)%type.
  Notation Mach := (Machine P F (BMem PE AE)).

  (** an object of type [ty] fits into live memory at [p] *)
  Definition has_space (m : Mach) (p : ThinPtr P) (ty : Ty) : Prop :=
    exists s, size_of T ty = Ret s /\ span m p (Z.of_N s).
  (** [p] is aligned for objects of type [ty] *)
  Definition aligned_for (p : ThinPtr P) (ty : Ty) : Prop :=
    exists al, align_of T ty = Ret al /\ tp_addr p mod Z.of_N (align_bytes al) = 0.
  (** memory at [p] holds a valid value of type [ty] *)
  Definition readable (m : Mach) (p : ThinPtr P) (ty : Ty) (v : Value P) : Prop :=
    holds T m p ty v /\ valid T m ty v.

  (** ** Statements *)

  Definition stmt_allowed (m : Mach) (s : Statement) : Prop :=
    match s with
    | SAssign d e => exists ptr ty v vty, place_means T m d ptr true ty /\ has_space m (p_thin ptr) ty /\ value_means T m e v vty
    | SPlaceMention p => exists ptr al ty, place_means T m p ptr al ty
    | SSetDiscriminant p x => exists ptr variants dty d s al vty tags, place_means T m p ptr true (TEnum variants dty d s al) /\
        map_get variants x = Some (vty, tags) /\
        forall o it y, In (o, (it, y)) tags -> span m (p_thin ptr) (Z.of_N (o + it_size it))
    | SValidate p _ => exists ptr ty v, place_means T m p ptr true ty /\ readable m (p_thin ptr) ty v
    | SDeinit p => exists ptr ty, place_means T m p ptr true ty /\ has_space m (p_thin ptr) ty
    | SStorageLive _ | SStorageDead _ => True
    end.

  (** ** Calls *)

  (** the state in which the [n] bytes from [p] on have lost their contents *)
  Definition erased (m : Mach) (p : ThinPtr P) (n : nat) : Mach :=
    match tp_prov p with
    | Some (id, _) =>
        match cm_mem (m_mem m) !! id with
        | Some a =>
            let i := Z.to_nat (tp_addr p - al_addr a) in
            let data := take i (al_data a) ++ repeat Uninit n ++ drop (i + n) (al_data a) in
            set_mem m (mkConc (<[id := mkAlloc data (al_addr a) (al_align a) (al_kind a) (al_live a) (al_extra a)]> (cm_mem (m_mem m)))
                         (cm_accesses (m_mem m)))
        | None => m
        end
    | None => m
    end.

  (** the arguments have these values and types. Places passed in place have to be aligned, and lose their contents
      before the remaining arguments are evaluated. *)
  Inductive args_allowed (m : Mach) : list ArgumentExpr -> list (Value P * Ty) -> Prop :=
  | aa_nil : args_allowed m [] []
  | aa_value e r v ty vs : value_means T m e v ty -> args_allowed m r vs -> args_allowed m (ByValue e :: r) ((v, ty) :: vs)
  | aa_place p r ptr ty s v vs : place_means T m p ptr true ty -> readable m (p_thin ptr) ty v -> aligned_for (p_thin ptr) ty ->
      size_of T ty = Ret s -> args_allowed (erased m (p_thin ptr) (N.to_nat s)) r vs ->
      args_allowed m (InPlace p :: r) ((v, ty) :: vs).

  (** the function may be called with this convention, return type and types of the arguments; C45 says which types
      may be passed for each other *)
  Definition accepts (func : Function) (conv : CallingConvention) (rty : Ty) (tys : list Ty) : Prop :=
    fn_conv func = conv /\ (exists rt, map_get (fn_locals func) (fn_ret func) = Some rt /\ check_abi_compatibility rty rt = Ret true) /\
    Forall2 (fun l ty => exists lt, map_get (fn_locals func) l = Some lt /\ check_abi_compatibility ty lt = Ret true) (fn_args func) tys.

  Definition call_allowed (m : Mach) (callee : ValueExpr) (conv : CallingConvention) (args : list ArgumentExpr) (ret : PlaceExpr) : Prop :=
    exists rptr al rty rs fv fty func vals, place_means T m ret rptr al rty /\ size_of T rty = Ret rs /\
      span m (p_thin rptr) (Z.of_N rs) /\ aligned_for (p_thin rptr) rty /\
      let m1 := erased m (p_thin rptr) (N.to_nat rs) in
      value_means T m1 callee fv fty /\ designates m1 fv func /\ args_allowed m1 args vals /\
      accepts func conv rty (List.map snd vals).

  (** the return value is valid; it is stored in memory that is not part of the frame that returns *)
  Definition return_allowed (m : Mach) : Prop :=
    exists f p ty v, top_frame m f /\ map_get (f_locals f) (fn_ret (f_func f)) = Some p /\
      map_get (fn_locals (f_func f)) (fn_ret (f_func f)) = Some ty /\ readable m p ty v /\
      match f_action f with
      | BottomOfStack => m_active m <> 0%nat
      | BackToCaller nb _ q => nb <> None /\ has_space m q ty /\ aligned_for q ty /\
          (size_of T ty = Ret 0%N \/ forall id pe, tp_prov q = Some (id, pe) -> ~ frame_owns f id)
      end.

  (** ** Intrinsics *)

  (** [v] can be accessed atomically at [p]: its size is a power of two and small enough, and [p] is aligned to it *)
  Definition atomic_at (p : ThinPtr P) (ty : Ty) : Prop :=
    exists s al, size_of T ty = Ret s /\ s = align_bytes al /\ (s <= MAX_ATOMIC_SIZE T)%N /\ tp_addr p mod Z.of_N s = 0.
  (** the [n] bytes from [p] on are initialised *)
  Definition initialised (m : Mach) (p : ThinPtr P) (n : Size) : Prop :=
    exists bs, length bs = N.to_nat n /\ stores_at m p bs /\ ~ In Uninit bs.

  (** arguments: values and types; type of the return place *)
  Definition intr_allowed (m : Mach) (op : IntrinsicOp) (vals : list (Value P * Ty)) (rty : Ty) : Prop :=
    match op with
    | InAbort | InExit => True
    | InAssume => rty = unit_ty /\ exists ty, vals = [(VBool true, ty)]
    | InPrintStdout | InPrintStderr => rty = unit_ty /\ forall v ty, In (v, ty) vals -> (exists i, v = VInt i) \/ exists b, v = VBool b
    | InAllocate => (exists pt, rty = TPtr pt /\ ptr_meta_kind pt = MKNone) /\ exists s al ty1 ty2,
        vals = [(VInt (Z.of_N s), ty1); (VInt (Z.of_N (align_bytes al)), ty2)] /\ valid_size T s = true
    | InDeallocate => rty = unit_ty /\ exists p s al ty1 ty2 ty3 id,
        vals = [(VPtr (mkPtr p None), ty1); (VInt (Z.of_N s), ty2); (VInt (Z.of_N (align_bytes al)), ty3)] /\
        object_at m p id AHeap s al
    | InSpawn => (exists it, rty = TInt it) /\ exists fv fty func d pt, vals = [(fv, fty); (d, TPtr pt)] /\
        designates m fv func /\ accepts func CcC unit_ty [TPtr pt]
    | InJoin => rty = unit_ty /\ exists i ty, vals = [(VInt (Z.of_nat i), ty)] /\ (i < length (m_threads m))%nat
    | InRawEq => rty = TBool /\ exists p q mu pi s al, vals = [(VPtr p, TPtr (PRef mu pi)); (VPtr q, TPtr (PRef mu pi))] /\
        pi_layout pi = LSized s al /\ tp_addr (p_thin p) mod Z.of_N (align_bytes al) = 0 /\
        tp_addr (p_thin q) mod Z.of_N (align_bytes al) = 0 /\ initialised m (p_thin p) s /\ initialised m (p_thin q) s
    | InAtomicStore => rty = unit_ty /\ exists p pty v ty, vals = [(VPtr (mkPtr p None), pty); (v, ty)] /\
        atomic_at p ty /\ has_space m p ty
    | InAtomicLoad => exists p pty v, vals = [(VPtr (mkPtr p None), pty)] /\ atomic_at p rty /\ readable m p rty v
    | InAtomicCompareExchange => exists it p pty cur next v, rty = TInt it /\
        vals = [(VPtr (mkPtr p None), pty); (cur, rty); (next, rty)] /\ atomic_at p rty /\ readable m p rty v
    | InAtomicFetchAndOp _ => exists it p pty x old, rty = TInt it /\
        vals = [(VPtr (mkPtr p None), pty); (VInt x, rty)] /\ atomic_at p rty /\ readable m p rty (VInt old)
    | InLock LkCreate => (exists it, rty = TInt it) /\ vals = []
    | InLock LkAcquire => rty = unit_ty /\ exists i ty, vals = [(VInt (Z.of_nat i), ty)] /\ (i < length (m_locks m))%nat
    | InLock LkRelease => rty = unit_ty /\ exists i ty, vals = [(VInt (Z.of_nat i), ty)] /\ m_locks m !! i = Some (LockedBy (m_active m))
    | InPointerExposeProvenance => rty = TInt (usize_ty T) /\ exists p ty, vals = [(VPtr (mkPtr p None), ty)]
    | InPointerWithExposedProvenance => (exists pt, rty = TPtr pt /\ ptr_meta_kind pt = MKNone) /\ exists x ty, vals = [(VInt x, ty)]
    | InGetUnwindPayload => (exists pt, rty = TPtr pt /\ ptr_meta_kind pt = MKNone) /\ vals = [] /\
        exists t, m_threads m !! m_active m = Some t /\ t_payloads t <> []
    end.

  (** the intrinsics that end the execution return nothing *)
  Definition ends (op : IntrinsicOp) : Prop := op = InAbort \/ op = InExit.

  (** ** Terminators *)

  Definition term_allowed (m : Mach) (tm : Terminator) : Prop :=
    match tm with
    | TmGoto _ => True
    | TmSwitch e _ _ | TmStartUnwind e _ => exists v ty, value_means T m e v ty
    | TmUnreachable => False
    | TmIntrinsic op args ret nb => exists rptr al rty vals, place_means T m ret rptr al rty /\ all_mean T m args vals /\
        intr_allowed m op vals rty /\ (ends op \/ al = true /\ has_space m (p_thin rptr) rty /\ nb <> None)
    | TmCall callee conv args ret _ _ => call_allowed m callee conv args ret
    | TmReturn => return_allowed m
    | TmStopUnwind _ => exists t, m_threads m !! m_active m = Some t /\ t_payloads t <> []
    | TmResumeUnwind => exists f nb b q, top_frame m f /\ f_action f = BackToCaller nb (Some b) q
    end.

  (** ** Steps *)

  (** the next statement or terminator of thread [a] is allowed *)
  Definition step_allowed (m : Mach) (a : nat) : Prop :=
    (exists s, at_statement m a s /\ stmt_allowed (turn m a) s) \/ (exists tm, at_terminator m a tm /\ term_allowed (turn m a) tm).

  (** thread [a] races with the step before, which another thread has taken: without the record of its accesses, the
      step would have gone on; one of its accesses cannot be made at the same time as one of the step before (C42) *)
  Definition races_before (MO : MemOps P F (BMem PE AE)) (m : Mach) (a : nat) (cs : list (Choice P)) : Prop :=
    a <> m_active m /\ a ∉ m_sync m /\
    exists m' x y, step T MO (ChThread a :: cs) (set_mem m (mkConc (cm_mem (m_mem m)) [])) = Ret m' /\
      x ∈ cm_accesses (m_mem m) /\ y ∈ cm_accesses (m_mem m') /\ races x y = true.
End Spec.
