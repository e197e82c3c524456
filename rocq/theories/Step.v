(** Evaluation: expressions, statements, terminators, intrinsics, locks, machine steps.
    Models spec/lang/step/*.md and the [new] and [step] functions of spec/lang/machine.md.

    Functions that make nondeterministic choices take and return the list of choices. Functions
    whose result type in the code is NdResult but that make no choice do not. *)
From Verif Require Export Machine.

Section Step.
  Context {P F M : Type} `{EqDecision P}.
  Variable T : Target.
  Variable MO : MemOps P F M.

  Notation Mach := (Machine P F M).
  Notation Val := (Value P).
  Notation Choices := (list (Choice P)).
  Notation Frame := (StackFrame P F).

  (** ** Expressions *)

  (** expressions.md:34-57 eval_constant *)
  Definition eval_constant (m : Mach) (c : Constant) : Outcome Val :=
    match c with
    | KInt i => Ret (VInt i)
    | KBool b => Ret (VBool b)
    | KGlobalPointer r =>
        let! p := unwrap (map_get (m_globals m) (r_name r)) in
        Ret (VPtr (widen (wrapping_offset T p (Z.of_N (r_offset r))) None))
    | KFnPointer f => let! p := unwrap (map_get (m_fnptrs m) f) in Ret (VPtr (widen p None))
    | KVTablePointer v => let! p := unwrap (map_get (m_vtptrs m) v) in Ret (VPtr (widen p None))
    | KPointerWithoutProvenance addr => Ret (VPtr (widen (mkThin addr None) None))
    end.

  (** expressions.md:119-123 the accessor of GetDiscriminant: loads from the place *)
  Definition load_accessor (ptr : ThinPtr P) (m : Mach) (idx : Offset) (size : Size)
    : Outcome (list (AByte P) * Mach) :=
    let! p := ptr_offset_inbounds T MO m ptr (Z.of_N idx) in
    let! '(bytes, mem) := cm_load MO (m_mem m) p size align_one NonAtomic in
    Ret (bytes, set_mem m mem).

  (** statements.md:77-81 the accessor of SetDiscriminant: stores to the place *)
  Definition store_accessor (ptr : ThinPtr P) (m : Mach) (offset : Offset) (bytes : list (AByte P))
    : Outcome Mach :=
    let! p := ptr_offset_inbounds T MO m ptr (Z.of_N offset) in
    let! mem := cm_store MO (m_mem m) p bytes align_one NonAtomic in
    Ret (set_mem m mem).

  (** expressions.md:271-299 the offset and type of a field *)
  Definition field_of (m : Mach) (ty : Ty) (meta : option (PtrMeta P)) (field : Z)
    : Outcome (Offset * Ty) :=
    match ty with
    | TTuple fields head unsized =>
        if (0 <=? field) && (field <? Z.of_nat (length fields)) then unwrap (list_get fields field)
        else if field =? Z.of_nat (length fields) then
          let! tail_ty := unwrap unsized in
          let! l := layout T tail_ty in
          let! tail_align := compute_align (chk_env MO m) l meta in
          Ret (tail_offset head tail_align, tail_ty)
        else Panic
    | TUnion fields _ _ _ => unwrap (list_get fields field)
    | _ => Panic
    end.

  (** expressions.md:59-340 eval_value and eval_place *)
  Fixpoint eval_value (e : ValueExpr) (m : Mach) {struct e} : Outcome (Val * Ty * Mach) :=
    match e with
    | EConstant c ty => let! v := eval_constant m c in Ret (v, ty, m)
    | ETuple exprs ty =>
        let! '(vals, m) := map_st (fun m e => eval_value e m) exprs m in
        Ret (VTuple (List.map fst vals), ty, m)
    | EUnion field expr union_ty =>
        match union_ty with
        | TUnion fields _ size _ =>
            let! '(offset, expr_ty) := unwrap (list_get fields field) in
            let! '(v, _, m) := eval_value expr m in
            let! bytes := encode T expr_ty v in
            let! data := write_subslice (list_repeat Uninit size) offset bytes in
            let! o := decode T union_ty data in
            let! u := unwrap o in
            Ret (u, union_ty, m)
        | _ => Panic
        end
    | EVariant d data enum_ty =>
        let! '(v, _, m) := eval_value data m in Ret (VVariant d v, enum_ty, m)
    | EGetDiscriminant place =>
        let! '(pl, ty, m) := eval_place place m in
        match ty with
        | TEnum _ dty discr _ _ =>
            if negb (pl_aligned pl)
            then throw_ub "Getting the discriminant of a place based on a misaligned pointer."
            else
              let! '(o, m) := decode_discriminant T (load_accessor (p_thin (pl_ptr pl))) discr m in
              match o with
              | Some d => Ret (VInt d, TInt dty, m)
              | None => throw_ub "ValueExpr::GetDiscriminant encountered invalid discriminant."
              end
        | _ => Panic
        end
    | ELoad source =>
        let! '(pl, ty, m) := eval_place source m in
        let! '(v, m) := place_load T MO m pl ty in
        Ret (v, ty, m)
    | EAddrOf target pt =>
        let! '(pl, _, m) := eval_place target m in
        let! _ := check_value T (chk_env MO m) (TPtr pt) (VPtr (pl_ptr pl)) in
        let! '(p, m) := retag_ptr MO m (pl_ptr pl) pt false in
        Ret (VPtr p, TPtr pt, m)
    | EUnOp op operand =>
        let! '(v, ty, m) := eval_value operand m in
        let! '(v, ty) := eval_un_op T MO m op (v, ty) in
        Ret (v, ty, m)
    | EBinOp op e1 e2 =>
        let! '(v1, ty1, m) := eval_value e1 m in
        let! '(v2, ty2, m) := eval_value e2 m in
        let! '(v, ty) := eval_bin_op T MO m op (v1, ty1) (v2, ty2) in
        Ret (v, ty, m)
    end
  with eval_place (p : PlaceExpr) (m : Mach) {struct p} : Outcome (Place P * Ty * Mach) :=
    match p with
    | PLocal name =>
        let! f := cur_frame m in
        let! ty := unwrap (map_get (fn_locals (f_func f)) name) in
        match map_get (f_locals f) name with
        | None => throw_ub "access to a dead local"
        | Some ptr => Ret (mkPlace (widen ptr None) true, ty, m)
        end
    | PDeref operand ty =>
        let! '(v, op_ty, m) := eval_value operand m in
        match v, op_ty with
        | VPtr ptr, TPtr pt =>
            let! _ :=
              match safe_pointee pt with
              | Some pi =>
                  let! a := compute_align (chk_env MO m) (pi_layout pi) (p_meta ptr) in
                  let! _ := assert_ (is_aligned a (tp_addr (p_thin ptr))) in
                  let! s := compute_size (chk_env MO m) (pi_layout pi) (p_meta ptr) in
                  cm_deref MO (m_mem m) (p_thin ptr) s
              | None => Ret tt
              end in
            let! l := layout T ty in
            let! a := compute_align (chk_env MO m) l (p_meta ptr) in
            Ret (mkPlace ptr (is_aligned a (tp_addr (p_thin ptr))), ty, m)
        | _, _ => Panic
        end
    | PField root field =>
        let! '(pl, ty, m) := eval_place root m in
        let! '(offset, field_ty) := field_of m ty (p_meta (pl_ptr pl)) field in
        let! l := layout T ty in
        let! s := compute_size (chk_env MO m) l (p_meta (pl_ptr pl)) in
        let! _ := assert_ (offset <=? s)%N in
        let! ptr := ptr_offset_inbounds T MO m (p_thin (pl_ptr pl)) (Z.of_N offset) in
        let! fl := layout T field_ty in
        let ptr := widen ptr (if is_sized fl then None else p_meta (pl_ptr pl)) in
        Ret (mkPlace ptr (pl_aligned pl), field_ty, m)
    | PIndex root index =>
        let! '(pl, ty, m) := eval_place root m in
        let! '(iv, _, m) := eval_value index m in
        match iv with
        | VInt i =>
            let! '(elem, count) :=
              match ty, p_meta (pl_ptr pl) with
              | TArray elem count, _ => Ret (elem, count)
              | TSlice elem, Some (MElementCount count) => Ret (elem, count)
              | _, _ => Panic
              end in
            if (i <? 0) || (count <=? i) then throw_ub "access to out-of-bounds index" else
            let! elem_size := size_of T elem in
            let! offset := size_mul elem_size i in
            let! l := layout T ty in
            let! s := compute_size (chk_env MO m) l (p_meta (pl_ptr pl)) in
            let! _ := assert_ (offset <=? s)%N in
            let! ptr := ptr_offset_inbounds T MO m (p_thin (pl_ptr pl)) (Z.of_N offset) in
            Ret (mkPlace (widen ptr None) (pl_aligned pl), elem, m)
        | _ => Panic
        end
    | PDowncast root d =>
        let! '(pl, ty, m) := eval_place root m in
        match ty with
        | TEnum variants _ _ _ _ =>
            let! v := unwrap (map_get variants d) in Ret (pl, fst v, m)
        | _ => Panic
        end
    end.

  (** ** Statements *)

  (** statements.md:97-118 retag_val *)
  Fixpoint retag_val (fn_entry : bool) (ty : Ty) (v : Val) (m : Mach) {struct ty}
    : Outcome (Val * Mach) :=
    match v with
    | VInt _ | VBool _ | VUnion _ => Ret (v, m)
    | VPtr ptr =>
        match ty with
        | TPtr pt => let! '(p, m) := retag_ptr MO m ptr pt fn_entry in Ret (VPtr p, m)
        | _ => Panic
        end
    | VTuple vals =>
        match ty with
        | TTuple fields _ _ =>
            let! '(vs, m) :=
              map_st2 (fun m f v => retag_val fn_entry (snd f) v m) fields vals m in
            Ret (VTuple vs, m)
        | TArray elem _ =>
            let! '(vs, m) := map_st (fun m v => retag_val fn_entry elem v m) vals m in
            Ret (VTuple vs, m)
        | _ => Panic
        end
    | VVariant d data =>
        match ty with
        | TEnum variants _ _ _ _ =>
            match map_get_with (fun var => retag_val fn_entry (fst var) data m) d variants with
            | None => Panic
            | Some r => let! '(v, m) := r in Ret (VVariant d v, m)
            end
        | _ => Panic
        end
    end.

  (** statements.md:178-185 StackFrame::storage_dead *)
  Definition storage_dead (f : Frame) (mem : ConcMem M) (local : LocalName)
    : Outcome (Frame * ConcMem M) :=
    let! ty := unwrap (map_get (fn_locals (f_func f)) local) in
    let! size := size_of T ty in
    let! align := align_of T ty in
    match map_get (f_locals f) local with
    | Some ptr =>
        let! mem := cm_deallocate MO mem ptr AStack size align in
        Ret (with_locals f (map_remove (f_locals f) local), mem)
    | None => Ret (f, mem)
    end.

  (** statements.md:166-176 StackFrame::storage_live *)
  Definition storage_live (f : Frame) (mem : ConcMem M) (local : LocalName) (cs : Choices)
    : Outcome (Frame * ConcMem M * Choices) :=
    let! '(f, mem) := storage_dead f mem local in
    let! ty := unwrap (map_get (fn_locals (f_func f)) local) in
    let! size := size_of T ty in
    let! align := align_of T ty in
    let! '(addr, cs) := pick_addr cs in
    let! '(ptr, mem) := cm_allocate MO mem AStack size align addr in
    Ret (with_locals f (map_insert (f_locals f) local ptr), mem, cs).

  (** statements.md:32-199 eval_statement *)
  Definition eval_statement (s : Statement) (m : Mach) (cs : Choices) : Outcome (Mach * Choices) :=
    match s with
    | SAssign destination source =>
        let! '(pl, ty, m) := eval_place destination m in
        let! '(v, _, m) := eval_value source m in
        let! m := place_store T MO m pl v ty in
        Ret (m, cs)
    | SPlaceMention place =>
        let! '(_, _, m) := eval_place place m in Ret (m, cs)
    | SSetDiscriminant destination value =>
        let! '(pl, ty, m) := eval_place destination m in
        match ty with
        | TEnum variants _ _ _ _ =>
            if negb (pl_aligned pl)
            then throw_ub "setting the discriminant of a place based on a misaligned pointer" else
            let! var := unwrap (map_get variants value) in
            let! m := encode_discriminant T (store_accessor (p_thin (pl_ptr pl))) (snd var) m in
            Ret (m, cs)
        | _ => Panic
        end
    | SValidate place fn_entry =>
        let! '(pl, ty, m) := eval_place place m in
        let! '(v, m) := place_load T MO m pl ty in
        let! '(v, m) := retag_val fn_entry ty v m in
        let! m := place_store T MO m pl v ty in
        Ret (m, cs)
    | SDeinit place =>
        let! '(pl, ty, m) := eval_place place m in
        if negb (pl_aligned pl)
        then throw_ub "de-initializing a place based on a misaligned pointer" else
        let! size := size_of T ty in
        let! m := deinit MO m (p_thin (pl_ptr pl)) size align_one in
        Ret (m, cs)
    | SStorageLive local =>
        let! f := cur_frame m in
        let! '(f, mem, cs) := storage_live f (m_mem m) local cs in
        let! m := set_cur_frame (set_mem m mem) f in
        Ret (m, cs)
    | SStorageDead local =>
        let! f := cur_frame m in
        let! '(f, mem) := storage_dead f (m_mem m) local in
        let! m := set_cur_frame (set_mem m mem) f in
        Ret (m, cs)
    end.

  (** ** Calls *)

  (** Iterator::all over one list, and over the zip of two lists, with a panicking predicate *)
  Definition all_m {A} (f : A -> Outcome bool) : list A -> Outcome bool :=
    fix go l := match l with
                | [] => Ret true
                | x :: r => let! b := f x in if b then go r else Ret false
                end.
  Definition all2_m {A B} (f : A -> B -> Outcome bool) : list A -> list B -> Outcome bool :=
    fix go l1 l2 := match l1, l2 with
                    | x :: r1, y :: r2 => let! b := f x y in if b then go r1 r2 else Ret false
                    | _, _ => Ret true
                    end.

  (** terminators.md:66-134 check_abi_compatibility *)
  Fixpoint check_abi_compatibility (caller callee : Ty) {struct caller} : Outcome bool :=
    match caller, callee with
    | TInt t1, TInt t2 => Ret (bool_decide (t1 = t2))
    | TBool, TBool => Ret true
    | TPtr p1, TPtr p2 => Ret (bool_decide (ptr_meta_kind p1 = ptr_meta_kind p2))
    | TTuple f1 h1 u1, TTuple f2 h2 u2 =>
        let '(s1, a1) := head_size_and_align h1 in
        let '(s2, a2) := head_size_and_align h2 in
        let! _ := assert_ (match u1 with None => true | Some _ => false end) in
        let! _ := assert_ (match u2 with None => true | Some _ => false end) in
        if negb (length f1 =? length f2)%nat then Ret false else
        let! b := all2_m (fun c1 c2 =>
            if (fst c1 =? fst c2)%N then check_abi_compatibility (snd c1) (snd c2) else Ret false)
            f1 f2 in
        Ret (b && (s1 =? s2)%N && bool_decide (a1 = a2))
    | TArray e1 c1, TArray e2 c2 =>
        let! b := check_abi_compatibility e1 e2 in Ret (b && (c1 =? c2))
    | TUnion f1 c1 s1 a1, TUnion f2 c2 s2 a2 =>
        if negb (length f1 =? length f2)%nat then Ret false else
        let! b := all2_m (fun c1 c2 =>
            if (fst c1 =? fst c2)%N then check_abi_compatibility (snd c1) (snd c2) else Ret false)
            f1 f2 in
        Ret (b && bool_decide (c1 = c2) && (s1 =? s2)%N && bool_decide (a1 = a2))
    | TEnum v1 t1 d1 s1 a1, TEnum v2 t2 d2 s2 a2 =>
        if negb (length v1 =? length v2)%nat then Ret false else
        let! b := all_m (fun var =>
            match map_get v2 (fst var) with
            | None => Ret false
            | Some var2 =>
                let! b := check_abi_compatibility (fst (snd var)) (fst var2) in
                Ret (b && bool_decide (snd (snd var) = snd var2))
            end) v1 in
        Ret (b && bool_decide (d1 = d2) && bool_decide (t1 = t2) && (s1 =? s2)%N &&
             bool_decide (a1 = a2))
    | _, _ => Ret false
    end.

  (** terminators.md:138-154 prepare_for_inplace_passing *)
  Definition prepare_for_inplace_passing (m : Mach) (pl : Place P) (ty : Ty) : Outcome Mach :=
    let! size := size_of T ty in
    let! align := align_of T ty in
    deinit MO m (p_thin (pl_ptr pl)) size align.

  (** terminators.md:157-175 eval_argument *)
  Definition eval_argument (m : Mach) (a : ArgumentExpr) : Outcome (Val * Ty * Mach) :=
    match a with
    | ByValue e => eval_value e m
    | InPlace place =>
        let! '(pl, ty, m) := eval_place place m in
        let! '(v, m) := place_load T MO m pl ty in
        let! m := prepare_for_inplace_passing m pl ty in
        Ret (v, ty, m)
    end.

  (** terminators.md:179-229 create_frame *)
  Definition create_frame (m : Mach) (func : Function) (action : StackPopAction P)
      (caller_conv : CallingConvention) (caller_ret_ty : Ty) (caller_args : list (Val * Ty))
      (cs : Choices) : Outcome (Frame * Mach * Choices) :=
    let f := mkFrame func [] action (fn_start func) 0 (mo_new_call MO) in
    let! '(f, mem, cs) :=
      fold_m (fun '(f, mem, cs) local => storage_live f mem local cs)
        (fn_ret func :: fn_args func) (f, m_mem m, cs) in
    let m := set_mem m mem in
    if negb (bool_decide (caller_conv = fn_conv func))
    then throw_ub "call ABI violation: calling conventions are not the same" else
    let! ret_ty := unwrap (map_get (fn_locals func) (fn_ret func)) in
    let! ok := check_abi_compatibility caller_ret_ty ret_ty in
    if negb ok then throw_ub "call ABI violation: return types are not compatible" else
    if negb (length (fn_args func) =? length caller_args)%nat
    then throw_ub "call ABI violation: number of arguments does not agree" else
    let! m :=
      fold_m2 (fun m callee_local arg =>
          let! ty := unwrap (map_get (fn_locals func) callee_local) in
          let! ok := check_abi_compatibility (snd arg) ty in
          if negb ok then throw_ub "call ABI violation: argument types are not compatible" else
          let! align := align_of T (snd arg) in
          let! ptr := unwrap (map_get (f_locals f) callee_local) in
          expect_ok (typed_store T MO m ptr (fst arg) (snd arg) align NonAtomic))
        (fn_args func) caller_args m in
    Ret (f, m, cs).

  (** terminators.md:231-259 eval_call *)
  Definition eval_call (m : Mach) (callee : Function) (conv : CallingConvention)
      (arguments : list (Val * Ty)) (ret_place : Place P) (ret_ty : Ty)
      (next_block unwind_block : option BbName) (cs : Choices) : Outcome (Mach * Choices) :=
    let action := BackToCaller next_block unwind_block (p_thin (pl_ptr ret_place)) in
    let! '(f, m, cs) := create_frame m callee action conv ret_ty arguments cs in
    let! t := active_thread m in
    Ret (set_active_thread m (with_stack t (f :: t_stack t)), cs).

  (** machine.md:310-329 new_thread *)
  Definition new_thread (m : Mach) (func : Function) (args : list (Val * Ty)) (cs : Choices)
    : Outcome (nat * Mach * Choices) :=
    let! '(f, m, cs) := create_frame m func BottomOfStack CcC unit_ty args cs in
    let id := length (m_threads m) in
    Ret (id, set_threads m (m_threads m ++ [mkThread [f] Enabled []]), cs).

  (** ** Locks *)

  (** locks.md:23-29 lock_create *)
  Definition lock_create (m : Mach) : nat * Mach :=
    (length (m_locks m), set_locks m (m_locks m ++ [Unlocked])).

  (** locks.md:31-54 lock_acquire *)
  Definition lock_acquire (m : Mach) (lock_id : Z) : Outcome Mach :=
    match list_get (m_locks m) lock_id with
    | None => throw_ub "acquiring non-existing lock"
    | Some Unlocked => Ret (set_locks m (<[Z.to_nat lock_id := LockedBy (m_active m)]> (m_locks m)))
    | Some (LockedBy _) =>
        let! t := active_thread m in
        Ret (set_active_thread m (with_state t (BlockedOnLock (Z.to_nat lock_id))))
    end.

  (** whether thread [i] is in state [s] *)
  Definition thread_in (m : Mach) (s : ThreadState) (i : nat) : bool :=
    match m_threads m !! i with
    | Some t => bool_decide (t_state t = s)
    | None => false
    end.
  (** [self.threads.any(|thread| thread.state == s)] *)
  Definition some_thread_in (m : Mach) (s : ThreadState) : bool :=
    existsb (fun t => bool_decide (t_state t = s)) (m_threads m).

  (** locks.md:56-107 lock_release *)
  Definition lock_release (m : Mach) (lock_id : Z) (cs : Choices) : Outcome (Mach * Choices) :=
    match list_get (m_locks m) lock_id with
    | None => throw_ub "releasing non-existing lock"
    | Some Unlocked => throw_ub "releasing non-acquired lock"
    | Some (LockedBy owner) =>
        if negb (owner =? m_active m)%nat then throw_ub "releasing non-acquired lock" else
        let id := Z.to_nat lock_id in
        if some_thread_in m (BlockedOnLock id) then
          let! '(acquirer, cs) := pick_thread (thread_in m (BlockedOnLock id)) cs in
          let! t := unwrap (m_threads m !! acquirer) in
          let m := set_thread m acquirer (with_state t Enabled) in
          let m := set_sync m (set_add (m_sync m) acquirer) in
          Ret (set_locks m (<[id := LockedBy acquirer]> (m_locks m)), cs)
        else
          Ret (set_locks m (<[id := Unlocked]> (m_locks m)), cs)
    end.

  (** ** Intrinsics *)

  (** intrinsics.md:182-198 eval_print: the text printed. In the code the text printed before an
      unsupported value reaches the stream before the UB is raised; here a stopped machine has no
      state, so that text is not visible. *)
  Definition eval_print (args : list (Val * Ty)) : Outcome string :=
    fold_m (fun s arg =>
              match fst arg with
              | VInt i => Ret (s ++ print_int i)%string
              | VBool b => Ret (s ++ print_bool b)%string
              | _ => throw_ub "unsupported value for printing"
              end) args EmptyString.

  (** Align::from_bytes of an Int *)
  Definition align_from_int (i : Z) : option Align :=
    if i <? 0 then None else align_from_bytes (Z.to_N i).

  (** intrinsics.md:289-300 spawn *)
  Definition spawn (m : Mach) (func : Function) (data_ptr : Val) (data_ptr_ty : Ty) (cs : Choices)
    : Outcome (nat * Mach * Choices) :=
    let! '(id, m, cs) := new_thread m func [(data_ptr, data_ptr_ty)] cs in
    Ret (id, set_sync m (set_add (m_sync m) id), cs).

  (** intrinsics.md:326-341 join *)
  Definition join (m : Mach) (thread_id : Z) : Outcome Mach :=
    match list_get (m_threads m) thread_id with
    | None => throw_ub "`Join` intrinsic: join non existing thread"
    | Some t =>
        match t_state t with
        | Terminated => Ret m
        | _ =>
            let! a := active_thread m in
            Ret (set_active_thread m (with_state a (BlockedOnJoin (Z.to_nat thread_id))))
        end
    end.

  (** intrinsics.md:369-386 load_raw_data *)
  Definition load_raw_data (m : Mach) (ptr : Pointer P) (pt : PtrType)
    : Outcome (list byte * Mach) :=
    match pt with
    | PRef _ pi =>
        match pi_layout pi with
        | LSized size align =>
            let! '(bytes, mem) := cm_load MO (m_mem m) (p_thin ptr) size align NonAtomic in
            match bytes_data bytes with
            | Some data => Ret (data, set_mem m mem)
            | None => throw_ub "invalid argument to `RawEq` intrinsic: byte is uninitialized"
            end
        | _ => throw_ub "invalid argument to `RawEq` intrinsic: unsized pointee"
        end
    | _ => throw_ub "invalid argument to `RawEq` intrinsic: not a reference"
    end.

  (** [ret_ty != unit_type()] *)
  Definition ensure_unit (ret_ty : Ty) (msg : string) : Outcome unit :=
    if bool_decide (ret_ty = unit_ty) then Ret tt else throw_ub msg.

  (** intrinsics.md:31-619 and locks.md:117-180 eval_intrinsic *)
  Definition eval_intrinsic (m : Mach) (op : IntrinsicOp) (args : list (Val * Ty)) (ret_ty : Ty)
      (cs : Choices) : Outcome (Val * Mach * Choices) :=
    match op with
    | InPointerExposeProvenance =>
        match args with
        | [(VPtr (mkPtr ptr None), _)] =>
            if negb (bool_decide (ret_ty = TInt (usize_ty T)))
            then throw_ub "invalid return type for `PointerExposeProvenance` intrinsic" else
            Ret (VInt (tp_addr ptr), set_exposed m (ipc_expose (m_exposed m) ptr), cs)
        | [_] => throw_ub "invalid argument for `PointerExposeProvenance` intrinsic: not a thin pointer"
        | _ => throw_ub "invalid number of arguments for `PointerExposeProvenance` intrinsic"
        end
    | InPointerWithExposedProvenance =>
        match args with
        | [(VInt addr, _)] =>
            match ret_ty with
            | TPtr pt =>
                if bool_decide (ptr_meta_kind pt <> MKNone)
                then throw_ub "unsized pointee requested for `PointerWithExposedProvenance` intrinsic"
                else
                  let! '(prov, cs) := pick_prov cs in
                  let! ptr := ipc_int2ptr (m_exposed m) addr prov in
                  Ret (VPtr (widen ptr None), m, cs)
            | _ => throw_ub "invalid return type for `PointerWithExposedProvenance` intrinsic"
            end
        | [_] => throw_ub "invalid argument for `PointerWithExposedProvenance` intrinsic: not an integer"
        | _ => throw_ub "invalid number of arguments for `PointerWithExposedProvenance` intrinsic"
        end
    | InExit =>
        let! _ := cm_leak_check MO (m_mem m) in
        Stop TMachineStop
    | InAbort => Stop TAbort
    | InAssume =>
        match args with
        | [(VBool b, _)] =>
            let! _ := ensure_unit ret_ty "invalid return type for `Assume` intrinsic" in
            if negb b then throw_ub "`Assume` intrinsic called on condition that is violated" else
            Ret (unit_value, m, cs)
        | [_] => throw_ub "invalid argument for `Assume` intrinsic: not a Boolean"
        | _ => throw_ub "invalid number of arguments for `Assume` intrinsic"
        end
    | InPrintStdout =>
        let! _ := ensure_unit ret_ty "invalid return type for `PrintStdout` intrinsic" in
        let! s := eval_print args in
        Ret (unit_value, set_stdout m (m_stdout m ++ s)%string, cs)
    | InPrintStderr =>
        let! _ := ensure_unit ret_ty "invalid return type for `PrintStderr` intrinsic" in
        let! s := eval_print args in
        Ret (unit_value, set_stderr m (m_stderr m ++ s)%string, cs)
    | InAllocate =>
        match args with
        | [(sv, _); (av, _)] =>
            match sv with
            | VInt size =>
                match size_from_bytes size with
                | None => throw_ub "invalid size for `Allocate` intrinsic: negative size"
                | Some size =>
                    match av with
                    | VInt align =>
                        match align_from_int align with
                        | None => throw_ub "invalid alignment for `Allocate` intrinsic: not a power of 2"
                        | Some align =>
                            match ret_ty with
                            | TPtr pt =>
                                if bool_decide (ptr_meta_kind pt <> MKNone)
                                then throw_ub "unsized pointee requested for `Allocate` intrinsic" else
                                let! '(addr, cs) := pick_addr cs in
                                let! '(ptr, mem) := cm_allocate MO (m_mem m) AHeap size align addr in
                                Ret (VPtr (widen ptr None), set_mem m mem, cs)
                            | _ => throw_ub "invalid return type for `Allocate` intrinsic"
                            end
                        end
                    | _ => throw_ub "invalid second argument to `Allocate` intrinsic: not an integer"
                    end
                end
            | _ => throw_ub "invalid first argument to `Allocate` intrinsic: not an integer"
            end
        | _ => throw_ub "invalid number of arguments for `Allocate` intrinsic"
        end
    | InDeallocate =>
        match args with
        | [(pv, _); (sv, _); (av, _)] =>
            match pv with
            | VPtr (mkPtr ptr None) =>
                match sv with
                | VInt size =>
                    match size_from_bytes size with
                    | None => throw_ub "invalid size for `Deallocate` intrinsic: negative size"
                    | Some size =>
                        match av with
                        | VInt align =>
                            match align_from_int align with
                            | None => throw_ub "invalid alignment for `Deallocate` intrinsic: not a power of 2"
                            | Some align =>
                                let! _ := ensure_unit ret_ty "invalid return type for `Deallocate` intrinsic" in
                                let! mem := cm_deallocate MO (m_mem m) ptr AHeap size align in
                                Ret (unit_value, set_mem m mem, cs)
                            end
                        | _ => throw_ub "invalid third argument to `Deallocate` intrinsic: not an integer"
                        end
                    end
                | _ => throw_ub "invalid second argument to `Deallocate` intrinsic: not an integer"
                end
            | _ => throw_ub "invalid first argument to `Deallocate` intrinsic: not a thin pointer"
            end
        | _ => throw_ub "invalid number of arguments for `Deallocate` intrinsic"
        end
    | InSpawn =>
        match args with
        | [(fv, _); (data_ptr, data_ptr_ty)] =>
            let! func := fn_from_ptr m fv in
            match data_ptr_ty with
            | TPtr _ =>
                match ret_ty with
                | TInt _ =>
                    let! '(id, m, cs) := spawn m func data_ptr data_ptr_ty cs in
                    Ret (VInt (Z.of_nat id), m, cs)
                | _ => throw_ub "invalid return type for `Spawn` intrinsic"
                end
            | _ => throw_ub "invalid second argument to `Spawn` intrinsic: not a pointer"
            end
        | _ => throw_ub "invalid number of arguments for `Spawn` intrinsic"
        end
    | InJoin =>
        match args with
        | [(VInt id, _)] =>
            let! _ := ensure_unit ret_ty "invalid return type for `Join` intrinsic" in
            let! m := join m id in
            Ret (unit_value, m, cs)
        | [_] => throw_ub "invalid first argument to `Join` intrinsic: not an integer"
        | _ => throw_ub "invalid number of arguments for `Join` intrinsic"
        end
    | InRawEq =>
        match args with
        | [(lv, l_ty); (rv, r_ty)] =>
            if negb (bool_decide (ret_ty = TBool))
            then throw_ub "invalid return type for `RawEq` intrinsic" else
            if negb (bool_decide (l_ty = r_ty))
            then throw_ub "invalid arguments to `RawEq` intrinsic: types of arguments are not identical"
            else
            match lv, rv, l_ty with
            | VPtr p, VPtr q, TPtr pt =>
                let! '(data1, m) := load_raw_data m p pt in
                let! '(data2, m) := load_raw_data m q pt in
                Ret (VBool (bool_decide (data1 = data2)), m, cs)
            | _, _, _ => throw_ub "invalid argument to `RawEq` intrinsic: not a pointer"
            end
        | _ => throw_ub "invalid number of arguments for `RawEq` intrinsic"
        end
    | InAtomicStore =>
        match args with
        | [(pv, _); (v, ty)] =>
            match pv with
            | VPtr (mkPtr ptr None) =>
                let! l := layout T ty in
                match l with
                | LSized size _ =>
                    match align_from_bytes size with
                    | None => throw_ub "invalid second argument to `AtomicStore` intrinsic: size not power of two"
                    | Some align =>
                        if (MAX_ATOMIC_SIZE T <? size)%N
                        then throw_ub "invalid second argument to `AtomicStore` intrinsic: size too big" else
                        let! _ := ensure_unit ret_ty "invalid return type for `AtomicStore` intrinsic" in
                        let! m := typed_store T MO m ptr v ty align Atomic in
                        Ret (unit_value, m, cs)
                    end
                | _ => throw_ub "invalid second argument to `AtomicStore` intrinsic: unsized type"
                end
            | _ => throw_ub "invalid first argument to `AtomicStore` intrinsic: not a thin pointer"
            end
        | _ => throw_ub "invalid number of arguments for `AtomicStore` intrinsic"
        end
    | InAtomicLoad =>
        match args with
        | [(VPtr (mkPtr ptr None), _)] =>
            let! size := size_of T ret_ty in
            match align_from_bytes size with
            | None => throw_ub "invalid return type for `AtomicLoad` intrinsic: size not power of two"
            | Some align =>
                if (MAX_ATOMIC_SIZE T <? size)%N
                then throw_ub "invalid return type for `AtomicLoad` intrinsic: size too big" else
                let! '(v, m) := typed_load T MO m ptr ret_ty align Atomic in
                Ret (v, m, cs)
            end
        | [_] => throw_ub "invalid first argument to `AtomicLoad` intrinsic: not a thin pointer"
        | _ => throw_ub "invalid number of arguments for `AtomicLoad` intrinsic"
        end
    | InAtomicCompareExchange =>
        match args with
        | [(pv, _); (current, curr_ty); (next, next_ty)] =>
            match pv with
            | VPtr (mkPtr ptr None) =>
                if negb (bool_decide (curr_ty = ret_ty))
                then throw_ub "invalid second argument to `AtomicCompareExchange` intrinsic: not same type as return value" else
                if negb (bool_decide (next_ty = ret_ty))
                then throw_ub "invalid third argument to `AtomicCompareExchange` intrinsic: not same type as return value" else
                match ret_ty with
                | TInt _ =>
                    let! size := size_of T ret_ty in
                    let! align := unwrap (align_from_bytes size) in
                    if (MAX_ATOMIC_SIZE T <? size)%N
                    then throw_ub "invalid return type for `AtomicCompareExchange` intrinsic: size too big" else
                    let! '(before, m) := typed_load T MO m ptr ret_ty align Atomic in
                    if value_eqb current before then
                      let! m := typed_store T MO m ptr next ret_ty align Atomic in
                      Ret (before, m, cs)
                    else Ret (before, m, cs)
                | _ => throw_ub "invalid return type for `Intrinis::AtomicCompareExchange`: only works with integers"
                end
            | _ => throw_ub "invalid first argument to `AtomicCompareExchange` intrinsic: not a thin pointer"
            end
        | _ => throw_ub "invalid number of arguments for `AtomicCompareExchange` intrinsic"
        end
    | InAtomicFetchAndOp op =>
        match args with
        | [(pv, _); (other, other_ty)] =>
            match pv with
            | VPtr (mkPtr ptr None) =>
                if negb (bool_decide (other_ty = ret_ty))
                then throw_ub "invalid second argument to `AtomicFetchAndOp` intrinsic: not same type as return value" else
                match ret_ty with
                | TInt it =>
                    let! size := size_of T ret_ty in
                    let! align := unwrap (align_from_bytes size) in
                    if (MAX_ATOMIC_SIZE T <? size)%N
                    then throw_ub "invalid return type for `AtomicFetchAndOp` intrinsic: size too big" else
                    let! '(previous, m) := typed_load T MO m ptr ret_ty align Atomic in
                    match other, previous with
                    | VInt other_int, VInt previous_int =>
                        let! next := eval_int_bin_op op previous_int other_int it in
                        let! m := typed_store T MO m ptr (VInt next) ret_ty align Atomic in
                        Ret (previous, m, cs)
                    | _, _ => Panic
                    end
                | _ => throw_ub "invalid return type for `AtomicFetchAndOp` intrinsic: only works with integers"
                end
            | _ => throw_ub "invalid first argument to `AtomicFetchAndOp` intrinsic: not a thin pointer"
            end
        | _ => throw_ub "invalid number of arguments for `AtomicFetchAndOp` intrinsic"
        end
    | InGetUnwindPayload =>
        match args with
        | [] =>
            match ret_ty with
            | TPtr pt =>
                if bool_decide (ptr_meta_kind pt <> MKNone)
                then throw_ub "invalid return type for `GetUnwindPayload` intrinsic" else
                let! t := active_thread m in
                match head (t_payloads t) with
                | None => throw_ub "GetUnwindPayload: the payload stack is empty"
                | Some p => Ret (VPtr (mkPtr p None), m, cs)
                end
            | _ => throw_ub "invalid return type for `GetUnwindPayload` intrinsic"
            end
        | _ => throw_ub "invalid number of arguments for `GetUnwindPayload` intrinsic"
        end
    | InLock LkCreate =>
        match args with
        | [] =>
            match ret_ty with
            | TInt _ => let '(id, m) := lock_create m in Ret (VInt (Z.of_nat id), m, cs)
            | _ => throw_ub "invalid return type for `Create` lock intrinsic"
            end
        | _ => throw_ub "invalid number of arguments for `Create` lock intrinsic"
        end
    | InLock LkAcquire =>
        match args with
        | [(VInt id, _)] =>
            let! _ := ensure_unit ret_ty "invalid return type for `Acquire` lock intrinsic" in
            let! m := lock_acquire m id in
            Ret (unit_value, m, cs)
        | [_] => throw_ub "invalid first argument to `Acquire` lock intrinsic"
        | _ => throw_ub "invalid number of arguments for `Acquire` lock intrinsic"
        end
    | InLock LkRelease =>
        match args with
        | [(VInt id, _)] =>
            let! _ := ensure_unit ret_ty "invalid return type for `Release` lock intrinsic" in
            let! '(m, cs) := lock_release m id cs in
            Ret (unit_value, m, cs)
        | [_] => throw_ub "invalid first argument to `Release` lock intrinsic"
        | _ => throw_ub "invalid number of arguments for `Release` lock intrinsic"
        end
    end.

  (** ** Terminators *)

  (** terminators.md:299-321 terminate_active_thread *)
  Definition terminate_active_thread (m : Mach) : Outcome Mach :=
    let active := m_active m in
    if (active =? 0)%nat then throw_ub "the start function must not return" else
    let! t := active_thread m in
    let! _ := assert_ (match t_stack t with [] => true | _ => false end) in
    let m := set_active_thread m (with_state t Terminated) in
    let waits t := bool_decide (t_state t = BlockedOnJoin active) in
    let woken := List.filter (thread_in m (BlockedOnJoin active)) (seq 0 (length (m_threads m))) in
    let m := set_sync m (fold_left set_add woken (m_sync m)) in
    Ret (set_threads m (List.map (fun t => if waits t then with_state t Enabled else t) (m_threads m))).

  (** terminators.md:324-327, 425-428 pops the top frame *)
  Definition pop_frame (m : Mach) : Outcome (Frame * Mach) :=
    let! t := active_thread m in
    match t_stack t with
    | [] => Panic
    | f :: r => Ret (f, set_active_thread m (with_stack t r))
    end.

  (** terminators.md:336-339, 429-432 deallocates the locals of a popped frame. The code removes the
      first local until none is left; each iteration removes exactly that one. *)
  Definition dealloc_locals (f : Frame) (mem : ConcMem M) : Outcome (Frame * ConcMem M) :=
    fold_m (fun '(f, mem) local => storage_dead f mem local) (List.map fst (f_locals f)) (f, mem).

  (** terminators.md:20-487 eval_terminator *)
  Definition eval_terminator (t : Terminator) (m : Mach) (cs : Choices) : Outcome (Mach * Choices) :=
    match t with
    | TmGoto b => let! m := jump_to_block m b in Ret (m, cs)
    | TmSwitch value cases fallback =>
        let! '(v, _, m) := eval_value value m in
        match v with
        | VInt i =>
            let next := match map_get cases i with Some b => b | None => fallback end in
            let! m := jump_to_block m next in
            Ret (m, cs)
        | _ => Panic
        end
    | TmUnreachable => throw_ub "reached unreachable code"
    | TmCall callee conv arguments ret next_block unwind_block =>
        let! '(ret_place, ret_ty, m) := eval_place ret m in
        let! m := prepare_for_inplace_passing m ret_place ret_ty in
        let! '(callee_val, _, m) := eval_value callee m in
        let! callee := fn_from_ptr m callee_val in
        let! '(args, m) := map_st eval_argument arguments m in
        eval_call m callee conv args ret_place ret_ty next_block unwind_block cs
    | TmReturn =>
        let! '(f, m) := pop_frame m in
        let! callee_ty := unwrap (map_get (fn_locals (f_func f)) (fn_ret (f_func f))) in
        let! align := align_of T callee_ty in
        let! ret_ptr := unwrap (map_get (f_locals f) (fn_ret (f_func f))) in
        let! '(ret_val, m) := typed_load T MO m ret_ptr callee_ty align NonAtomic in
        let! '(f, mem) := dealloc_locals f (m_mem m) in
        let! mem := cm_end_call MO mem (f_extra f) in
        let m := set_mem m mem in
        match f_action f with
        | BottomOfStack => let! m := terminate_active_thread m in Ret (m, cs)
        | BackToCaller next_block _ caller_ret_ptr =>
            let! t := active_thread m in
            let! _ := assert_ (match t_stack t with [] => false | _ => true end) in
            let! m := typed_store T MO m caller_ret_ptr ret_val callee_ty align NonAtomic in
            match next_block with
            | Some b => let! m := jump_to_block m b in Ret (m, cs)
            | None => throw_ub "return from a function where caller did not specify next block"
            end
        end
    | TmStartUnwind payload unwind_block =>
        let! '(v, ty, m) := eval_value payload m in
        match v, ty with
        | VPtr p, TPtr (PRaw MKNone) =>
            let! t := active_thread m in
            let m := set_active_thread m (with_payloads t (p_thin p :: t_payloads t)) in
            let! m := jump_to_block m unwind_block in
            Ret (m, cs)
        | _, _ => Panic
        end
    | TmStopUnwind b =>
        let! t := active_thread m in
        match t_payloads t with
        | [] => throw_ub "StopUnwind: the payload stack is empty"
        | _ :: r =>
            let m := set_active_thread m (with_payloads t r) in
            let! m := jump_to_block m b in
            Ret (m, cs)
        end
    | TmResumeUnwind =>
        let! '(f, m) := pop_frame m in
        let! '(f, mem) := dealloc_locals f (m_mem m) in
        let! mem := cm_end_call MO mem (f_extra f) in
        let m := set_mem m mem in
        match f_action f with
        | BottomOfStack => throw_ub "the function at the bottom of the stack must not unwind"
        | BackToCaller _ unwind_block _ =>
            match unwind_block with
            | Some b => let! m := jump_to_block m b in Ret (m, cs)
            | None =>
                throw_ub "unwinding from a function where the caller did not specify an unwind_block"
            end
        end
    | TmIntrinsic op arguments ret next_block =>
        let! '(ret_place, ret_ty, m) := eval_place ret m in
        let! '(args, m) := map_st (fun m e => eval_value e m) arguments m in
        let! '(v, m, cs) := eval_intrinsic m op args ret_ty cs in
        let! m := place_store T MO m ret_place v ret_ty in
        match next_block with
        | Some b => let! m := jump_to_block m b in Ret (m, cs)
        | None => throw_ub "return from an intrinsic where caller did not specify next block"
        end
    end.

  (** ** Steps *)

  (** machine.md:197-239 step. Choices that the step does not use are ignored. *)
  Definition step (cs : Choices) (m : Mach) : Outcome Mach :=
    if negb (some_thread_in m Enabled) then Stop TDeadlock else
    let '(prev_sync, prev_accesses, m) := reset_data_race_tracking m in
    let! '(active, cs) := pick_thread (thread_in m Enabled) cs in
    let m := set_active m active in
    let! f := cur_frame m in
    let! block := unwrap (map_get (fn_blocks (f_func f)) (f_block f)) in
    let! '(m, _) :=
      if (f_stmt f =? length (bb_statements block))%nat then
        eval_terminator (bb_terminator block) m cs
      else
        let! stmt := unwrap (bb_statements block !! f_stmt f) in
        let! '(m, cs) := eval_statement stmt m cs in
        let! f := cur_frame m in
        let! m := set_cur_frame m (with_pc f (f_block f) (S (f_stmt f))) in
        Ret (m, cs) in
    let! _ := cm_check_data_races (m_mem m) (m_active m) prev_sync prev_accesses in
    Ret m.

  (** machine.md:138-142, 164-174 allocates a list of named objects *)
  Definition alloc_all {A} (kind : AllocKind) (size_align : A -> Size * Align)
      (mem : ConcMem M) (cs : Choices) (l : list (N * A))
    : Outcome (list (N * ThinPtr P) * ConcMem M * Choices) :=
    fold_m (fun '(ptrs, mem, cs) entry =>
        let '(size, align) := size_align (snd entry) in
        let! '(addr, cs) := pick_addr cs in
        let! '(ptr, mem) := cm_allocate MO mem kind size align addr in
        Ret (map_insert ptrs (fst entry) ptr, mem, cs)) l ([], mem, cs).

  (** machine.md:145-159 the contents of a global *)
  Definition global_bytes (ptrs : list (GlobalName * ThinPtr P)) (g : Global)
    : Outcome (list (AByte P)) :=
    let bytes := List.map (fun b => match b with Some x => Init x None | None => Uninit end)
                   (g_bytes g) in
    fold_m (fun bytes entry =>
        let '(i, reloc) := entry in
        let! base := unwrap (map_get ptrs (r_name reloc)) in
        let ptr := wrapping_offset T base (Z.of_N (r_offset reloc)) in
        let! encoded := encode_ptr T ptr in
        write_subslice bytes i encoded) (g_relocations g) bytes.

  (** machine.md:144-162 fills the globals *)
  Definition fill_globals (ptrs : list (GlobalName * ThinPtr P)) (globals : list (GlobalName * Global))
      (mem : ConcMem M) : Outcome (ConcMem M) :=
    fold_m (fun mem entry =>
        let '(name, g) := entry in
        let! bytes := global_bytes ptrs g in
        let! ptr := unwrap (map_get ptrs name) in
        expect_ok (cm_store MO mem ptr bytes (g_align g) NonAtomic)) globals mem.

  (** machine.md:129-194 new, with empty output streams *)
  Definition machine_new (prog : Program) (cs : Choices) : Outcome (Mach * Choices) :=
    let! _ := program_check_wf T prog in
    let mem := cm_new MO in
    let! '(globals, mem, cs) :=
      alloc_all AGlobal (fun g => (N.of_nat (length (g_bytes g)), g_align g)) mem cs
        (pr_globals prog) in
    let! mem := fill_globals globals (pr_globals prog) mem in
    let! '(fnptrs, mem, cs) :=
      alloc_all AFunction (fun _ => (0%N, align_one)) mem cs (pr_functions prog) in
    let! '(vtptrs, mem, cs) :=
      alloc_all AVTable (fun _ => (0%N, align_one)) mem cs (pr_vtables prog) in
    let m := mkMachine prog mem ipc_new [] 0 [] [] globals fnptrs vtptrs EmptyString EmptyString in
    let! start_fn := unwrap (map_get (pr_functions prog) (pr_start prog)) in
    let! '(_, m, cs) := new_thread m start_fn [] cs in
    Ret (m, cs).
End Step.
