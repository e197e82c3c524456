(** What the translation of a function of MIR has to be: relations between MIR and MiniRust code. Expressions are related by what
    they mean (MirMeans.v), code by what it does: which statement is done by which statement, and where control goes. *)
From Verif Require Export MirMeans.

(** The names of functions, constant allocations and vtables in a program, and of locals and blocks in a function *)
Record Naming := mkNaming {
  nm_fn : Inst -> option FnName;
  nm_glob : RAlloc -> option GlobalName;
  nm_vtab : RTy * TraitName -> option VTableName;
  nm_loc : RLocal -> LocalName;
  nm_bb : RBb -> BbName;
}.

(** ** The intrinsics of Rust that compute a value *)
Section Intrinsics.
  Context {PE AE F : Type} `{EqDecision (nat * PE)}.
  Variable T : Target.
  Notation P := (nat * PE)%type.
  Notation Mach := (Machine P F (BMem PE AE)).
  Variable m : Mach.
  Variables (R : Rustc) (B : RBody) (env : Env P).
  Notation om := (operand_means T m R B env).
  Notation isize_ty := (mkIntTy Signed (PTR_SIZE T)).
  Notation thin_ty := (TPtr (PRaw MKNone)).

  Inductive intrinsic_means : RsIntrinsic -> list ROperand -> Value P -> Ty -> Prop :=
  | in_arith_offset l o rl p x it pl size a : operand_ok T R B l rl thin_ty -> om l (VPtr (mkPtr p None)) thin_ty -> om o (VInt x) (TInt it) ->
      rc_deref R rl = Some pl -> rc_size R pl = Some size -> fits it (x * Z.of_N size) -> wrapped_addr T (tp_addr p + x * Z.of_N size) a ->
      intrinsic_means RiArithOffset [l; o] (VPtr (mkPtr (mkThin a (tp_prov p)) None)) thin_ty
  | in_offset_from (u : bool) l o rl p q d k pl size : operand_ok T R B l rl thin_ty -> om l (VPtr (mkPtr p None)) thin_ty -> om o (VPtr (mkPtr q None)) thin_ty ->
      rc_deref R rl = Some pl -> rc_size R pl = Some size -> wraps_to isize_ty (tp_addr p - tp_addr q) d -> (u = true -> 0 <= d) ->
      size <> 0%N -> d = k * Z.of_N size ->
      intrinsic_means (RiPtrOffsetFrom u) [l; o] (VInt k) (TInt (if u then usize_ty T else isize_ty))
  | in_ctpop o x it : om o (VInt x) (TInt it) ->
      intrinsic_means RiCtpop [o] (VInt (Z.of_nat (ones_below (Z.to_nat (8 * Z.of_N (it_size it))) x))) (TInt (mkIntTy Unsigned 4))
  | in_exact_div l o x y it k : om l (VInt x) (TInt it) -> om o (VInt y) (TInt it) -> y <> 0 -> x = k * y -> fits it k ->
      intrinsic_means RiExactDiv [l; o] (VInt k) (TInt it)
  | in_size_of_val rt t o p pt w wt s al : rc_ty R rt = Some t -> om o (VPtr p) (TPtr pt) -> meta_value T (ptr_meta_kind pt) (p_meta p) w wt ->
      measures T m t (p_meta p) s al -> intrinsic_means (RiSizeOfVal rt) [o] (VInt (Z.of_N s)) (TInt (usize_ty T))
  | in_align_of_val rt t o p pt w wt s al : rc_ty R rt = Some t -> om o (VPtr p) (TPtr pt) -> meta_value T (ptr_meta_kind pt) (p_meta p) w wt ->
      measures T m t (p_meta p) s al -> intrinsic_means (RiAlignOfVal rt) [o] (VInt (Z.of_N (align_bytes al))) (TInt (usize_ty T)).

  (** the method with the given number of the vtable to which the metadata of the pointer points *)
  Definition method_of (p : Pointer P) (method : N) (v : Value P) (t : Ty) : Prop :=
    exists q n vt fn fp, p_meta p = Some (MVTablePointer q) /\ In (n, q) (m_vtptrs m) /\ map_get (pr_vtables (m_prog m)) n = Some vt /\
      map_get (vt_methods vt) method = Some fn /\ map_get (m_fnptrs m) fn = Some fp /\ v = VPtr (mkPtr fp None) /\ t = TPtr PFnPtr.
  (** a raw pointer to the place *)
  Definition raw_pointer (p : RPlace) (q : Pointer P) : Prop :=
    exists ptr b r t, rplace_means T m R B env p ptr b r t /\ valid T m (TPtr (PRaw (ty_meta_kind t))) (VPtr ptr) /\ same_dest ptr q.
End Intrinsics.

(** the intrinsics of MiniRust by name *)
Definition mini_names : list (string * IntrinsicOp) :=
  [("print", InPrintStdout); ("eprint", InPrintStderr); ("exit", InExit); ("panic", InAbort); ("allocate", InAllocate); ("deallocate", InDeallocate);
   ("spawn", InSpawn); ("join", InJoin); ("create_lock", InLock LkCreate); ("acquire", InLock LkAcquire); ("release", InLock LkRelease);
   ("atomic_store", InAtomicStore); ("atomic_load", InAtomicLoad); ("compare_exchange", InAtomicCompareExchange);
   ("atomic_fetch_add", InAtomicFetchAndOp IAdd); ("atomic_fetch_sub", InAtomicFetchAndOp ISub)]%string.

Section Code.
  Context (T : Target) (R : Rustc) (B : RBody) (F : Function) (N : Naming).
  Notation loc := (nm_loc N).
  Notation bb := (nm_bb N).
  Notation u8 := (TInt (mkIntTy Unsigned 1)).
  Notation i32 := (TInt (mkIntTy Signed 4)).
  Notation thin_ty := (TPtr (PRaw MKNone)).

  (** ** Expressions *)

  (** the addresses of what is named, while [f] runs *)
  Definition env_of {PE AE FX} (m : Machine (nat * PE) FX (BMem PE AE)) (f : StackFrame (nat * PE) FX) : Env (nat * PE) :=
    mkEnv (fun l => map_get (f_locals f) (loc l))
          (fun i => nm_fn N i ≫= map_get (m_fnptrs m))
          (fun a => nm_glob N a ≫= map_get (m_globals m))
          (fun k => nm_vtab N k ≫= map_get (m_vtptrs m)).
  (** a relation of values and types, for all machines *)
  Definition Meaning : Type := forall (PE AE FX : Type) (D : EqDecision (nat * PE)),
    Machine (nat * PE) FX (BMem PE AE) -> Env (nat * PE) -> Value (nat * PE) -> Ty -> Prop.
  (** in every state of every machine that runs this function, the expression means just that *)
  Definition value_is (e : ValueExpr) (K : Meaning) : Prop := forall PE AE FX (D : EqDecision (nat * PE))
    (m : Machine (nat * PE) FX (BMem PE AE)) f, top_frame m f -> f_func f = F ->
    forall v t, value_means T m e v t <-> K PE AE FX D m (env_of m f) v t.
  Definition place_is (e : PlaceExpr) (p : RPlace) : Prop := forall PE AE FX (D : EqDecision (nat * PE))
    (m : Machine (nat * PE) FX (BMem PE AE)) f, top_frame m f -> f_func f = F ->
    forall ptr b t, place_means T m e ptr b t <-> exists r, rplace_means T m R B (env_of m f) p ptr b r t.
  Definition rvalue_is (e : ValueExpr) (rv : Rvalue) : Prop := value_is e (fun _ _ _ _ m env => rvalue_means T m R B env rv).
  Definition operand_is (e : ValueExpr) (o : ROperand) : Prop := value_is e (fun _ _ _ _ m env => operand_means T m R B env o).
  Definition function_pointer_is (e : ValueExpr) (i : Inst) : Prop :=
    value_is e (fun _ _ _ _ m env v t => exists p, ev_fn env i = Some p /\ v = VPtr (mkPtr p None) /\ t = TPtr PFnPtr).

  (** a place of the unit type *)
  Definition nowhere : PlaceExpr := PDeref (EConstant (KPointerWithoutProvenance 1) thin_ty) unit_ty.
  Definition abort : Terminator := TmIntrinsic InAbort [] nowhere None.

  (** ** Blocks *)
  Definition kind_of (cleanup : bool) : BbKind := if cleanup then BkCleanup else BkRegular.
  (** the block [n] *)
  Definition block_at (n : BbName) (sts : list Statement) (tm : Terminator) (k : BbKind) : Prop := map_get (fn_blocks F) n = Some (mkBlock sts tm k).

  (** ** Statements *)
  Inductive stmt_is : RStmt -> Statement -> Prop :=
  | si_assign p rv d e : place_is d p -> rvalue_is e rv -> stmt_is (MsAssign p rv) (SAssign d e)
  | si_live l : stmt_is (MsStorageLive l) (SStorageLive (loc l))
  | si_dead l : stmt_is (MsStorageDead l) (SStorageDead (loc l))
  | si_retag fe p d : place_is d p -> stmt_is (MsRetag fe p) (SValidate d fe)
  | si_discr p v d r t bits it x : place_is d p -> place_ok R B p r t -> rc_discr R r v = Some (bits, it) -> wraps_to it bits x ->
      stmt_is (MsSetDiscriminant p v) (SSetDiscriminant d x)
  | si_mention p d : place_is d p -> stmt_is (MsPlaceMention p) (SPlaceMention d).
  (** statements that are intrinsics of MiniRust, with destination and arguments *)
  Inductive stmt_op : RStmt -> IntrinsicOp -> PlaceExpr -> list ValueExpr -> Prop :=
  | sp_expose p o rt d e : place_is d p -> operand_is e o -> stmt_op (MsAssign p (RvCast CkExpose o rt)) InPointerExposeProvenance d [e]
  | sp_with_exposed p o rt d e : place_is d p -> operand_is e o -> stmt_op (MsAssign p (RvCast CkWithExposed o rt)) InPointerWithExposedProvenance d [e]
  | sp_assume o e : operand_is e o -> stmt_op (MsAssume o) InAssume nowhere [e].

  (** ** Terminators *)

  (** where a call in a block with the given cleanup mark unwinds to *)
  Inductive unwind_is (c : bool) : RUnwind -> BbName -> Prop :=
  | ui_continue n : c = false -> block_at n [] TmResumeUnwind BkCleanup -> unwind_is c UwContinue n
  | ui_unreachable n : block_at n [] TmUnreachable (if c then BkTerminate else BkCleanup) -> unwind_is c UwUnreachable n
  | ui_terminate n : block_at n [] abort (if c then BkTerminate else BkCleanup) -> unwind_is c UwTerminate n
  | ui_cleanup b : unwind_is c (UwCleanup b) (bb b).
  (** a panic unwinds, or aborts if panics abort *)
  Inductive panic_is (c : bool) (u : RUnwind) : Terminator -> Prop :=
  | pi_unwind n : rc_unwinds R = true -> unwind_is c u n -> panic_is c u (TmStartUnwind (EConstant (KPointerWithoutProvenance 1) thin_ty) n)
  | pi_abort : rc_unwinds R = false -> panic_is c u abort.

  (** Arguments: moved places are passed in place. With [spread] the fields of the last argument are passed in its stead. *)
  Inductive arg_is : ROperand -> ArgumentExpr -> Prop :=
  | ai_move p e : place_is e p -> arg_is (OpMove p) (InPlace e)
  | ai_value o e : (forall p, o <> OpMove p) -> operand_is e o -> arg_is o (ByValue e).
  Definition field_arg (p : RPlace) (f : nat * RTy) (a : ArgumentExpr) : Prop :=
    exists e, a = InPlace e /\ place_is e (mkRPlace (rp_local p) (rp_proj p ++ [PjField (fst f) (snd f)])).
  Inductive args_are : bool -> list ROperand -> list ArgumentExpr -> Prop :=
  | ar_plain os es : Forall2 arg_is os es -> args_are false os es
  | ar_none : args_are true [] []
  | ar_spread os o p r t tys es fs : o = OpMove p \/ o = OpCopy p -> place_ok R B p r t -> rc_fields R r = Some tys ->
      Forall2 arg_is os es -> Forall2 (field_arg p) (zip (seq 0 (length tys)) tys) fs -> args_are true (os ++ [o]) (es ++ fs).

  (** the value that a switch on an operand looks at, and its type *)
  Inductive switch_value (o : ROperand) : ValueExpr -> IntType -> Prop :=
  | sv_int e it : operand_ty T R B o (TInt it) -> operand_is e o -> switch_value o e it
  | sv_bool e : operand_ty T R B o TBool ->
      value_is e (fun _ _ _ _ m env v t => exists b : bool, operand_means T m R B env o (VBool b) TBool /\ v = VInt (if b then 1 else 0) /\ t = u8) ->
      switch_value o e (mkIntTy Unsigned 1).
  (** the targets of a switch *)
  Definition cases_are (it : IntType) (ts : list (Z * RBb)) (cases : list (Z * BbName)) : Prop :=
    (forall x n, map_get cases x = Some n -> exists bits b, In (bits, b) ts /\ wraps_to it bits x /\ n = bb b) /\
    (forall bits b x, In (bits, b) ts -> wraps_to it bits x -> is_Some (map_get cases x)).

  (** The code of catch_unwind: calls [try_fn] with [data]. When it returns, 0 is stored at the destination. When it unwinds,
      1 is stored there, and [catch_fn] is called with [data] and the payload. *)
  Definition catch_code (f data g : ROperand) (d : RPlace) (b : RBb) (tm : Terminator) : Prop :=
    exists dest try_fn arg catch_fn n1 n2 n3 n4 n5 l1 l2 l3 l4 l5,
      tm = TmGoto n1 /\ place_is dest d /\ operand_is try_fn f /\ operand_is arg data /\ operand_is catch_fn g /\
      NoDup [l1; l2; l3; l4; l5] /\ (forall l, (l < length (ro_locals B))%nat -> loc l ∉ [l1; l2; l3; l4; l5]) /\
      Forall2 (fun l t => map_get (fn_locals F) l = Some t) [l1; l2; l3; l4; l5] [thin_ty; TPtr PFnPtr; thin_ty; TPtr PFnPtr; thin_ty] /\
      block_at n1
        [SStorageLive l1; SStorageLive l2; SStorageLive l3; SStorageLive l4; SAssign (PLocal l1) (EAddrOf dest (PRaw MKNone));
         SAssign (PLocal l2) try_fn; SAssign (PLocal l3) arg; SAssign (PLocal l4) catch_fn]
        (TmCall (ELoad (PLocal l2)) CcRust [ByValue (ELoad (PLocal l3))] nowhere (Some n2) (Some n3)) BkRegular /\
      block_at n2
        [SAssign (PDeref (ELoad (PLocal l1)) i32) (EConstant (KInt 0) i32); SStorageDead l1; SStorageDead l2; SStorageDead l3; SStorageDead l4]
        (TmGoto (bb b)) BkRegular /\
      block_at n3 [SStorageLive l5] (TmIntrinsic InGetUnwindPayload [] (PLocal l5) (Some n4)) BkCatch /\
      block_at n4 [SAssign (PDeref (ELoad (PLocal l1)) i32) (EConstant (KInt 1) i32)]
        (TmCall (ELoad (PLocal l4)) CcRust [ByValue (ELoad (PLocal l3)); ByValue (ELoad (PLocal l5))] nowhere (Some n5) None) BkCatch /\
      block_at n5 [SStorageDead l1; SStorageDead l2; SStorageDead l3; SStorageDead l4] (TmStopUnwind (bb b)) BkCatch.

  (** calls of the intrinsics of Rust: statements and a terminator *)
  Inductive intrinsic_is : RsIntrinsic -> list ROperand -> RPlace -> option RBb -> list Statement -> Terminator -> Prop :=
  | ii_assert args d b : intrinsic_is (RiAssert true) args d (Some b) [] (TmGoto (bb b))
  | ii_assert_fails args d b : intrinsic_is (RiAssert false) args d b [] abort
  | ii_raw_eq args d b es dest : Forall2 (fun o e => operand_is e o) args es -> place_is dest d ->
      intrinsic_is RiRawEq args d b [] (TmIntrinsic InRawEq es dest (option_map bb b))
  | ii_value i args d b dest e : i ∈ [RiArithOffset; RiPtrOffsetFrom true; RiPtrOffsetFrom false; RiCtpop; RiExactDiv] \/
        (exists r, i = RiSizeOfVal r) \/ (exists r, i = RiAlignOfVal r) ->
      place_is dest d -> value_is e (fun _ _ _ _ m env => intrinsic_means T m R B env i args) ->
      intrinsic_is i args d (Some b) [SAssign dest e] (TmGoto (bb b))
  | ii_cold_path args d b : intrinsic_is RiColdPath args d (Some b) [] (TmGoto (bb b))
  | ii_catch f data g d b tm : catch_code f data g d b tm -> intrinsic_is RiCatchUnwind [f; data; g] d (Some b) [] tm
  | ii_abort args d b : intrinsic_is RiAbort args d b [] abort.

  (** calls *)
  Inductive call_is (c : bool) : RCallee -> list ROperand -> RPlace -> option RBb -> RUnwind -> list Statement -> Terminator -> Prop :=
  | ci_ptr f conv args d b u e es dest n : operand_is e f -> args_are false args es -> place_is dest d -> unwind_is c u n ->
      call_is c (CePtr f (Some conv)) args d b u [] (TmCall e conv es dest (option_map bb b) (Some n))
  | ci_intrinsic i args d b u sts tm : intrinsic_is i args d b sts tm -> call_is c (CeIntrinsic i) args d b u sts tm
  | ci_mini name op args d b u es dest : (name, op) ∈ mini_names -> Forall2 (fun o e => operand_is e o) args es -> place_is dest d ->
      call_is c (CeMini name) args d b u [] (TmIntrinsic op es dest (option_map bb b))
  | ci_panic args d b u tm : panic_is c u tm -> call_is c CePanic args d b u [] tm
  | ci_fn conv spread i args d b u e es dest n : function_pointer_is e i -> args_are spread args es -> place_is dest d -> unwind_is c u n ->
      call_is c (CeFn (Some conv) spread i) args d b u [] (TmCall e conv es dest (option_map bb b) (Some n))
  | ci_virtual conv spread method o args d b u e a es e0 dest n :
      (* the callee is the method of the receiver, which is passed as thin pointer *)
      value_is e (fun _ _ _ _ m env v t => exists p pt, operand_means T m R B env o (VPtr p) (TPtr pt) /\ method_of m p method v t) ->
      value_is e0 (fun _ _ _ _ m env v t => exists p pt, operand_means T m R B env o (VPtr p) (TPtr pt) /\ v = VPtr (mkPtr (p_thin p) None) /\ t = thin_ty) ->
      args_are spread (o :: args) (a :: es) -> place_is dest d -> unwind_is c u n ->
      call_is c (CeVirtual (Some conv) spread method) (o :: args) d b u [] (TmCall e conv (ByValue e0 :: es) dest (option_map bb b) (Some n)).

  (** terminators of blocks with the given cleanup mark: statements and a terminator *)
  Inductive term_is (c : bool) : RTerm -> list Statement -> Terminator -> Prop :=
  | ti_return : term_is c MtReturn [] TmReturn
  | ti_goto b : term_is c (MtGoto b) [] (TmGoto (bb b))
  | ti_call f args d b u sts tm : call_is c f args d b u sts tm -> term_is c (MtCall f args d b u) sts tm
  | ti_switch o ts b e it cases : switch_value o e it -> cases_are it ts cases -> term_is c (MtSwitch o ts b) [] (TmSwitch e cases (bb b))
  | ti_unreachable : term_is c MtUnreachable [] TmUnreachable
  | ti_assert o expected b u e n tm :
      value_is e (fun _ _ _ _ m env v t => exists x, operand_means T m R B env o (VBool x) TBool /\ v = VInt (if Bool.eqb x expected then 1 else 0) /\ t = u8) ->
      block_at n [] tm (kind_of c) -> panic_is c u tm -> term_is c (MtAssert o expected b u) [] (TmSwitch e [(1, bb b)] n)
  | ti_drop p i b u r t e a : place_ok R B p r t -> rc_dyn R r = None -> function_pointer_is e i ->
      value_is a (fun _ _ _ _ m env v t => exists q, raw_pointer T m R B env p q /\ v = VPtr q /\ t = thin_ty) ->
      term_is c (MtDrop p i b u) [] (TmCall e CcRust [ByValue a] nowhere (Some (bb b)) None)
  | ti_drop_dyn p i b u r t tn e a : place_ok R B p r t -> rc_dyn R r = Some tn ->
      value_is e (fun _ _ _ _ m env v t => exists q, raw_pointer T m R B env p q /\ method_of m q 0 v t) ->
      value_is a (fun _ _ _ _ m env v t => exists q, raw_pointer T m R B env p q /\ v = VPtr (mkPtr (p_thin q) None) /\ t = thin_ty) ->
      term_is c (MtDrop p i b u) [] (TmCall e CcRust [ByValue a] nowhere (Some (bb b)) None)
  | ti_resume : term_is c MtResume [] TmResumeUnwind.

  (** ** Code: the statements and the terminator of a block do the given statements and the given terminator, in this order,
         perhaps going through further blocks *)
  Inductive does (c : bool) : list RStmt -> RTerm -> list Statement -> Terminator -> Prop :=
  | do_stmt x y xs tm ys t : stmt_is x y -> does c xs tm ys t -> does c (x :: xs) tm (y :: ys) t
  | do_op x op d es n xs tm ys t : stmt_op x op d es -> block_at n ys t (kind_of c) -> does c xs tm ys t ->
      does c (x :: xs) tm [] (TmIntrinsic op es d (Some n))
  | do_term tm ys t : term_is c tm ys t -> does c [] tm ys t.

  (** ** Functions *)

  (** the arguments of a function for the given locals, and the statements by which it starts: the fields of the spread argument are
      passed in locals of their own, and then put together *)
  Inductive params_are : list RLocal -> list LocalName -> list Statement -> Prop :=
  | pr_none : params_are [] [] []
  | pr_local l ls args sts : ro_spread B <> Some l -> params_are ls args sts -> params_are (l :: ls) (loc l :: args) sts
  | pr_spread l ls r tys tmps args sts : ro_spread B = Some l -> ro_locals B !! l = Some r -> rc_fields R r = Some tys ->
      Forall2 (fun ty tmp => exists t, rc_ty R ty = Some t /\ map_get (fn_locals F) tmp = Some t) tys tmps ->
      (forall l', (l' < length (ro_locals B))%nat -> loc l' ∉ tmps) -> params_are ls args sts ->
      params_are (l :: ls) (tmps ++ args)
        (SStorageLive (loc l) :: zip_with (fun i tmp => SAssign (PField (PLocal (loc l)) (Z.of_nat i)) (ELoad (PLocal tmp))) (seq 0 (length tys)) tmps ++ sts).

  Record function_is : Prop := {
    (* different locals and blocks have different names *)
    fu_loc : forall l l', loc l = loc l' -> l = l';
    fu_bb : forall b b', bb b = bb b' -> b = b';
    fu_locals : forall l r, ro_locals B !! l = Some r -> exists t, rc_ty R r = Some t /\ map_get (fn_locals F) (loc l) = Some t;
    fu_ret : fn_ret F = loc 0;
    fu_conv : ro_conv B = Some (fn_conv F);
    (* different arguments are in different locals *)
    fu_args : NoDup (fn_args F);
    (* the function starts by putting the arguments together and with storage for the locals that are always live, then goes to the first block *)
    fu_start : exists sts, params_are (seq 1 (ro_args B)) (fn_args F) sts /\
      block_at (fn_start F) (sts ++ List.map (fun l => SStorageLive (loc l)) (List.filter (fun l => ro_args B <? l)%nat (ro_always_live B))) (TmGoto (bb 0)) BkRegular;
    (* every block does what it does in MIR *)
    fu_blocks : forall i b, ro_blocks B !! i = Some b -> exists sts tm, block_at (bb i) sts tm (kind_of (rb_cleanup b)) /\
      does (rb_cleanup b) (rb_stmts b) (rb_term b) sts tm;
  }.
End Code.
