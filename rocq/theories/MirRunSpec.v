(** Specification: executions of MIR. The machine that runs a translated program is MiniRust's; this file says, in terms of MIR, what its
    threads do. Each frame has a task, what it still has to do. *)
From Verif Require Export MirCode MachSpec.
From Verif Require Import DataSpec ExprSpec.

(** The code of catch_unwind (see [catch_code] in MirCode.v): the destination, the function to try, its argument, the function that
    catches, and the locals in which the address of the destination, these three and the payload are stored *)
Record Catch := mkCatch {
  ca_dest : PlaceExpr; ca_try : ValueExpr; ca_data : ValueExpr; ca_catch : ValueExpr;
  ca_l1 : LocalName; ca_l2 : LocalName; ca_l3 : LocalName; ca_l4 : LocalName; ca_l5 : LocalName;
}.
Section CatchCode.
  Variable x : Catch.
  Notation l1 := (ca_l1 x). Notation l2 := (ca_l2 x). Notation l3 := (ca_l3 x). Notation l4 := (ca_l4 x). Notation l5 := (ca_l5 x).
  Notation i32 := (TInt (mkIntTy Signed 4)).
  (** before the call of the function to try *)
  Definition catch_prepare : list Statement :=
    [SStorageLive l1; SStorageLive l2; SStorageLive l3; SStorageLive l4; SAssign (PLocal l1) (EAddrOf (ca_dest x) (PRaw MKNone));
     SAssign (PLocal l2) (ca_try x); SAssign (PLocal l3) (ca_data x); SAssign (PLocal l4) (ca_catch x)].
  Definition catch_clean : list Statement := [SStorageDead l1; SStorageDead l2; SStorageDead l3; SStorageDead l4].
  (** stores the result *)
  Definition catch_result (r : Z) : Statement := SAssign (PDeref (ELoad (PLocal l1)) i32) (EConstant (KInt r) i32).
End CatchCode.
(** the parts of this code: up to the call of the function to try; when it has returned; when it has unwound; up to the call of
    the function that catches; when that has returned *)
Inductive Phase := PhTry | PhOk | PhUnwound | PhCatch | PhDone.

Inductive Task :=
(** the rest of a block of function [i]: statements and a terminator, and whether it is a cleanup block *)
| KBody (i : Inst) (cleanup : bool) (xs : list RStmt) (tm : RTerm)
(** function [i] before its first block: statements by which the arguments are put together (MirCode.v, [params_are]) and the variables that
    are always live get storage *)
| KEnter (i : Inst) (ys : list Statement)
(** inside the code of catch_unwind, which is going to continue with the given block *)
| KCatch (i : Inst) (x : Catch) (b : RBb) (ph : Phase) (ys : list Statement)
(** the start function: before the call of the entry function, after it has returned, after it has unwound *)
| KStart (k : nat).

Section Run.
  Context {PE AE FX : Type} `{EqDecision (nat * PE)}.
  Variable T : Target.
  Notation P := (nat * PE)%type.
  Variable MO : MemOps P FX (BMem PE AE).
  Notation Mach := (Machine P FX (BMem PE AE)).
  Variables (R : Rustc) (N : Naming) (entry : Inst) (prog : Program).
  Notation loc := (nm_loc N).
  Notation thin_ty := (TPtr (PRaw MKNone)).
  Notation Args := (list (Value P * Ty)).

  (** *** Tasks *)

  (** block [b] of function [i] *)
  Definition block_task (i : Inst) (b : RBb) (k : Task) : Prop :=
    exists B blk, rc_body R i = Some B /\ ro_blocks B !! b = Some blk /\ k = KBody i (rb_cleanup blk) (rb_stmts blk) (rb_term blk).
  (** what follows when a call in a block with the given cleanup mark unwinds *)
  Definition somewhere : RPlace := mkRPlace 0 [].
  Inductive unwind_task (i : Inst) (c : bool) : RUnwind -> Task -> Prop :=
  | ut_continue : c = false -> unwind_task i c UwContinue (KBody i true [] MtResume)
  | ut_unreachable : unwind_task i c UwUnreachable (KBody i true [] MtUnreachable)
  | ut_terminate : unwind_task i c UwTerminate (KBody i true [] (MtCall (CeIntrinsic RiAbort) [] somewhere None UwTerminate))
  | ut_cleanup b k : block_task i b k -> unwind_task i c (UwCleanup b) k.
  (** the caller's task after the call has returned *)
  Inductive returned : Task -> Task -> Prop :=
  | re_call i c f args d b u k : block_task i b k -> returned (KBody i c [] (MtCall f args d (Some b) u)) k
  | re_drop i c p j b u k : block_task i b k -> returned (KBody i c [] (MtDrop p j b u)) k
  | re_try i x b : returned (KCatch i x b PhTry []) (KCatch i x b PhOk (catch_result x 0 :: catch_clean x))
  | re_catch i x b : returned (KCatch i x b PhCatch []) (KCatch i x b PhDone (catch_clean x))
  | re_start : returned (KStart 0) (KStart 1).
  (** the caller's task after the call has unwound *)
  Inductive unwound : Task -> Task -> Prop :=
  | un_call i c f args d b u k : unwind_task i c u k -> unwound (KBody i c [] (MtCall f args d b u)) k
  | un_try i x b : unwound (KCatch i x b PhTry []) (KCatch i x b PhUnwound [SStorageLive (ca_l5 x)])
  | un_start : unwound (KStart 0) (KStart 2).
  (** the task of a frame that enters the function with the given name *)
  Inductive entered (n : FnName) : Task -> Prop :=
  | en_start : n = pr_start prog -> entered n (KStart 0)
  | en_fn i B F sts : nm_fn N i = Some n -> rc_body R i = Some B -> map_get (pr_functions prog) n = Some F ->
      params_are R B F N (seq 1 (ro_args B)) (fn_args F) sts ->
      entered n (KEnter i (sts ++ List.map (fun l => SStorageLive (loc l)) (List.filter (fun l => ro_args B <? l)%nat (ro_always_live B)))).

  (** *** One step, of thread [a] from [m] to [m'] *)
  Section Step.
    Variables (m m' : Mach) (a : nat).
    Notation s := (turn m a).

    (** thread [a] runs the function [i], and things have these addresses for it *)
    Definition here (i : Inst) (B : RBody) (env : Env P) : Prop :=
      rc_body R i = Some B /\ exists f r, stack_of m a (f :: r) /\ env = env_of N m f.
    (** where the variable is, in the top frame of thread [a] *)
    Definition var_at (m : Mach) (l : RLocal) : option (ThinPtr P) :=
      match m_threads m !! a with Some t => match t_stack t with f :: _ => map_get (f_locals f) (loc l) | [] => None end | None => None end.
    Definition same_vars : Prop := forall l, var_at m' l = var_at m l.
    Definition payloads (m : Mach) : list (ThinPtr P) := match m_threads m !! a with Some t => t_payloads t | None => [] end.
    (** only control moves *)
    Definition silent : Prop := keeps_all m m' /\ same_vars /\ payloads m' = payloads m.

    (** intrinsics of MiniRust: [D] says what the destination is. The last case of [intr_gives] yields the payload. *)
    Inductive op_does (D : Pointer P -> Ty -> Prop) : IntrinsicOp -> Args -> Prop :=
    | od_result op vals ptr t v mid bs : D ptr t -> intr_gives T a m mid op vals v -> keeps_all m mid ->
        encode T t v = Ret bs -> writes mid m' (p_thin ptr) bs -> op_does D op vals
    | od_load ptr t p pty v bs : D ptr t -> holds T m p t v -> encode T t v = Ret bs -> writes m m' (p_thin ptr) bs ->
        op_does D InAtomicLoad [(VPtr (mkPtr p None), pty)]
    | od_store ptr t p pty v ty bs : D ptr t -> encode T ty v = Ret bs -> writes m m' p bs ->
        op_does D InAtomicStore [(VPtr (mkPtr p None), pty); (v, ty)]
    | od_exchange ptr it p pty cur next old mid bs : D ptr (TInt it) -> holds T m p (TInt it) old ->
        (cur = old -> exists bs', encode T (TInt it) next = Ret bs' /\ writes m mid p bs') -> (cur <> old -> keeps_all m mid) ->
        encode T (TInt it) old = Ret bs -> writes mid m' (p_thin ptr) bs ->
        op_does D InAtomicCompareExchange [(VPtr (mkPtr p None), pty); (cur, TInt it); (next, TInt it)]
    | od_fetch op ptr it p pty x old new mid bs bs' : D ptr (TInt it) -> holds T m p (TInt it) (VInt old) -> eval_int_bin_op op old x it = Ret new ->
        encode T (TInt it) (VInt new) = Ret bs' -> writes m mid p bs' -> encode T (TInt it) (VInt old) = Ret bs -> writes mid m' (p_thin ptr) bs ->
        op_does D (InAtomicFetchAndOp op) [(VPtr (mkPtr p None), pty); (VInt x, TInt it)]
    | od_raw_eq ptr p q mu pi n al bs1 d1 bs2 d2 bs : D ptr TBool -> pi_layout pi = LSized n al ->
        length bs1 = N.to_nat n -> stores_at m (p_thin p) bs1 -> Forall2 (fun b x => exists o, b = Init x o) bs1 d1 ->
        length bs2 = N.to_nat n -> stores_at m (p_thin q) bs2 -> Forall2 (fun b x => exists o, b = Init x o) bs2 d2 ->
        encode T TBool (VBool (bool_decide (d1 = d2))) = Ret bs -> writes m m' (p_thin ptr) bs ->
        op_does D InRawEq [(VPtr p, TPtr (PRef mu pi)); (VPtr q, TPtr (PRef mu pi))].

    (** the arguments of a call, in state [s]. Moved places lose their contents as soon as they are read. *)
    Inductive passes (B : RBody) (env : Env P) : Mach -> list ROperand -> Args -> list (ThinPtr P * Size) -> Prop :=
    | pa_nil s : passes B env s [] [] []
    | pa_value s o r v t vs mv : (forall p, o <> OpMove p) -> operand_means T s R B env o v t -> passes B env s r vs mv ->
        passes B env s (o :: r) ((v, t) :: vs) mv
    | pa_move s p r ptr rt t n v s1 vs mv : rplace_means T s R B env p ptr true rt t -> holds T s (p_thin ptr) t v -> valid T s t v ->
        size_of T t = Ret n -> only_writes s s1 (p_thin ptr) (repeat Uninit (N.to_nat n)) -> passes B env s1 r vs mv ->
        passes B env s (OpMove p :: r) ((v, t) :: vs) ((p_thin ptr, n) :: mv).
    (** with [spread] the fields of the last argument are moved in its stead *)
    Inductive spreads (B : RBody) : bool -> list ROperand -> list ROperand -> Prop :=
    | sp_plain os : spreads B false os os
    | sp_none : spreads B true [] []
    | sp_fields os o p r t tys : o = OpMove p \/ o = OpCopy p -> place_ok R B p r t -> rc_fields R r = Some tys ->
        spreads B true (os ++ [o])
          (os ++ List.map (fun f => OpMove (mkRPlace (rp_local p) (rp_proj p ++ [PjField (fst f) (snd f)]))) (zip (seq 0 (length tys)) tys)).

    (** A call: [D] says what the destination is, [C] which function is called, and [A] what the arguments are and which places they
        are moved from. The destination loses its contents before the latter. The function gets a frame of its own, with the
        arguments in its locals for them, and the task [k]. *)
    Definition calls (D : Mach -> Pointer P -> Ty -> Prop) (C : Mach -> Value P -> Prop) (A : Mach -> Args -> list (ThinPtr P * Size) -> Prop)
        (k : Task) : Prop :=
      exists ptr t n s1 fn p F vals moved f st st' nb ub,
        D s ptr t /\ size_of T t = Ret n /\ only_writes s s1 (p_thin ptr) (repeat Uninit (N.to_nat n)) /\
        C s1 (VPtr (mkPtr p None)) /\ In (fn, p) (m_fnptrs m) /\ map_get (pr_functions prog) fn = Some F /\ entered fn k /\
        A s1 vals moved /\
        stack_of m a st /\ stack_of m' a (f :: st') /\ Forall2 same_frame st st' /\
        f_func f = F /\ f_action f = BackToCaller nb ub (p_thin ptr) /\ Forall2 (local_holds T m' f) (fn_args F) vals /\
        keeps m m' (fun id j => cell_in m (p_thin ptr) (N.to_nat n) id j \/ exists q l, In (q, l) moved /\ cell_in m q (N.to_nat l) id j).
    (** no destination *)
    Definition no_dest (s : Mach) (ptr : Pointer P) (t : Ty) : Prop := t = unit_ty.

    (** what a switch looks at: a number and its type *)
    Inductive switch_on (B : RBody) (env : Env P) (o : ROperand) : Z -> IntType -> Prop :=
    | so_int x it : operand_means T s R B env o (VInt x) (TInt it) -> switch_on B env o x it
    | so_bool (x : bool) : operand_means T s R B env o (VBool x) TBool -> switch_on B env o (if x then 1 else 0) (mkIntTy Unsigned 1).
    Inductive picks (it : IntType) (ts : list (Z * RBb)) (other : RBb) (x : Z) : RBb -> Prop :=
    | pk_case bits b : In (bits, b) ts -> wraps_to it bits x -> picks it ts other x b
    | pk_other : (forall bits b, In (bits, b) ts -> ~ wraps_to it bits x) -> picks it ts other x other.

    (** [mir_step ks ks']: the tasks of the frames of the thread, top frame first, before and after *)
    Inductive mir_step : list Task -> list Task -> Prop :=
    (** statements *)
    | ms_assign i B env c p rv xs tm ks ptr r t v vt bs : here i B env -> rplace_means T s R B env p ptr true r t -> rvalue_means T s R B env rv v vt ->
        encode T t v = Ret bs -> writes m m' (p_thin ptr) bs -> same_vars ->
        mir_step (KBody i c (MsAssign p rv :: xs) tm :: ks) (KBody i c xs tm :: ks)
    | ms_expose i B env c p o rt xs tm ks v t : here i B env -> operand_means T s R B env o v t -> same_vars ->
        op_does (fun ptr pt => exists r, rplace_means T s R B env p ptr true r pt) InPointerExposeProvenance [(v, t)] ->
        mir_step (KBody i c (MsAssign p (RvCast CkExpose o rt) :: xs) tm :: ks) (KBody i c xs tm :: ks)
    | ms_with_exposed i B env c p o rt xs tm ks v t : here i B env -> operand_means T s R B env o v t -> same_vars ->
        op_does (fun ptr pt => exists r, rplace_means T s R B env p ptr true r pt) InPointerWithExposedProvenance [(v, t)] ->
        mir_step (KBody i c (MsAssign p (RvCast CkWithExposed o rt) :: xs) tm :: ks) (KBody i c xs tm :: ks)
    | ms_assume i B env c o xs tm ks t : here i B env -> operand_means T s R B env o (VBool true) t -> silent ->
        mir_step (KBody i c (MsAssume o :: xs) tm :: ks) (KBody i c xs tm :: ks)
    | ms_live i B env c l xs tm ks r t n al q : here i B env -> ro_locals B !! l = Some r -> rc_ty R r = Some t -> size_of T t = Ret n ->
        align_of T t = Ret al -> object_at m' q (length (cm_mem (m_mem m))) AStack n al -> stores_at m' q (repeat Uninit (N.to_nat n)) ->
        var_at m' l = Some q -> (forall l', l' <> l -> var_at m' l' = var_at m l') -> keeps_all m m' ->
        mir_step (KBody i c (MsStorageLive l :: xs) tm :: ks) (KBody i c xs tm :: ks)
    | ms_dead i c l xs tm ks : var_at m' l = None -> (forall l', l' <> l -> var_at m' l' = var_at m l') -> keeps_all m m' ->
        mir_step (KBody i c (MsStorageDead l :: xs) tm :: ks) (KBody i c xs tm :: ks)
    | ms_retag i B env c fe p xs tm ks ptr r t v w bs : here i B env -> rplace_means T s R B env p ptr true r t ->
        holds T m (p_thin ptr) t v -> valid T s t v -> retagged v w -> encode T t w = Ret bs -> writes m m' (p_thin ptr) bs -> same_vars ->
        mir_step (KBody i c (MsRetag fe p :: xs) tm :: ks) (KBody i c xs tm :: ks)
    | ms_discr i B env c p v xs tm ks ptr r vs dty d n al bits it x vt tags : here i B env ->
        rplace_means T s R B env p ptr true r (TEnum vs dty d n al) -> rc_discr R r v = Some (bits, it) -> wraps_to it bits x ->
        map_get vs x = Some (vt, tags) -> keeps m m' (tag_cells m (p_thin ptr) tags) ->
        (forall l1 o tt y l2, tags = l1 ++ (o, (tt, y)) :: l2 ->
           Forall (fun e => (o + it_size tt <= fst e)%N \/ (fst e + it_size (fst (snd e)) <= o)%N) l2 ->
           exists bs, encode T (TInt tt) (VInt y) = Ret bs /\ stores_at m' (past (p_thin ptr) o) bs) -> same_vars ->
        mir_step (KBody i c (MsSetDiscriminant p v :: xs) tm :: ks) (KBody i c xs tm :: ks)
    | ms_mention i B env c p xs tm ks ptr al r t : here i B env -> rplace_means T s R B env p ptr al r t -> silent ->
        mir_step (KBody i c (MsPlaceMention p :: xs) tm :: ks) (KBody i c xs tm :: ks)
    (** jumps *)
    | ms_goto i c b ks k : block_task i b k -> silent -> mir_step (KBody i c [] (MtGoto b) :: ks) (k :: ks)
    | ms_switch i B env c o ts b ks x it b' k : here i B env -> switch_on B env o x it -> picks it ts b x b' -> block_task i b' k -> silent ->
        mir_step (KBody i c [] (MtSwitch o ts b) :: ks) (k :: ks)
    | ms_assert i B env c o e b u ks k : here i B env -> operand_means T s R B env o (VBool e) TBool -> block_task i b k -> silent ->
        mir_step (KBody i c [] (MtAssert o e b u) :: ks) (k :: ks)
    | ms_assert_fails i B env c o e b u ks : here i B env -> operand_means T s R B env o (VBool (negb e)) TBool -> silent ->
        mir_step (KBody i c [] (MtAssert o e b u) :: ks) (KBody i c [] (MtCall CePanic [] somewhere None u) :: ks)
    (** the start of unwinding *)
    | ms_panic i c args d b u ks k : rc_unwinds R = true -> unwind_task i c u k -> keeps_all m m' -> same_vars ->
        payloads m' = mkThin 1 None :: payloads m ->
        mir_step (KBody i c [] (MtCall CePanic args d b u) :: ks) (k :: ks)
    (** calls *)
    | ms_call i B env c conv spread j args args' d b u ks ys : here i B env -> spreads B spread args args' ->
        calls (fun s ptr t => exists al r, rplace_means T s R B env d ptr al r t) (fun s v => exists p, ev_fn env j = Some p /\ v = VPtr (mkPtr p None))
          (fun s => passes B env s args') (KEnter j ys) ->
        mir_step (KBody i c [] (MtCall (CeFn (Some conv) spread j) args d b u) :: ks) (KEnter j ys :: KBody i c [] (MtCall (CeFn (Some conv) spread j) args d b u) :: ks)
    | ms_call_ptr i B env c f conv args d b u ks k : here i B env ->
        calls (fun s ptr t => exists al r, rplace_means T s R B env d ptr al r t) (fun s v => exists t, operand_means T s R B env f v t)
          (fun s => passes B env s args) k ->
        mir_step (KBody i c [] (MtCall (CePtr f (Some conv)) args d b u) :: ks) (k :: KBody i c [] (MtCall (CePtr f (Some conv)) args d b u) :: ks)
    | ms_call_virtual i B env c conv spread method o args o1 args' d b u ks k : here i B env -> spreads B spread (o :: args) (o1 :: args') ->
        calls (fun s ptr t => exists al r, rplace_means T s R B env d ptr al r t)
          (fun s v => exists p pt t, operand_means T s R B env o (VPtr p) (TPtr pt) /\ MirCode.method_of s p method v t)
          (fun s vals moved => exists p pt vals', operand_means T s R B env o (VPtr p) (TPtr pt) /\
             vals = (VPtr (mkPtr (p_thin p) None), thin_ty) :: vals' /\ passes B env s args' vals' moved) k ->
        mir_step (KBody i c [] (MtCall (CeVirtual (Some conv) spread method) (o :: args) d b u) :: ks)
          (k :: KBody i c [] (MtCall (CeVirtual (Some conv) spread method) (o :: args) d b u) :: ks)
    | ms_drop i B env c p j b u ks ys r t : here i B env -> place_ok R B p r t -> rc_dyn R r = None ->
        calls no_dest (fun s v => exists p, ev_fn env j = Some p /\ v = VPtr (mkPtr p None))
          (fun s vals moved => exists q, raw_pointer T s R B env p q /\ vals = [(VPtr q, thin_ty)] /\ moved = []) (KEnter j ys) ->
        mir_step (KBody i c [] (MtDrop p j b u) :: ks) (KEnter j ys :: KBody i c [] (MtDrop p j b u) :: ks)
    | ms_drop_dyn i B env c p j b u ks k r t tn : here i B env -> place_ok R B p r t -> rc_dyn R r = Some tn ->
        calls no_dest (fun s v => exists q t, raw_pointer T s R B env p q /\ MirCode.method_of s q 0 v t)
          (fun s vals moved => exists q, raw_pointer T s R B env p q /\ vals = [(VPtr (mkPtr (p_thin q) None), thin_ty)] /\ moved = []) k ->
        mir_step (KBody i c [] (MtDrop p j b u) :: ks) (k :: KBody i c [] (MtDrop p j b u) :: ks)
    (** intrinsics *)
    | ms_intr_assert i c args d b u ks k : block_task i b k -> silent ->
        mir_step (KBody i c [] (MtCall (CeIntrinsic (RiAssert true)) args d (Some b) u) :: ks) (k :: ks)
    | ms_intr_cold i c args d b u ks k : block_task i b k -> silent ->
        mir_step (KBody i c [] (MtCall (CeIntrinsic RiColdPath) args d (Some b) u) :: ks) (k :: ks)
    | ms_intr_value i B env c op args d b u ks ptr r t v vt bs : here i B env -> rplace_means T s R B env d ptr true r t ->
        intrinsic_means T s R B env op args v vt -> encode T t v = Ret bs -> writes m m' (p_thin ptr) bs -> same_vars ->
        mir_step (KBody i c [] (MtCall (CeIntrinsic op) args d (Some b) u) :: ks) (KBody i c [] (MtGoto b) :: ks)
    | ms_intr_raw_eq i B env c args vals d b u ks k : here i B env -> Forall2 (fun o v => operand_means T s R B env o (fst v) (snd v)) args vals ->
        op_does (fun ptr t => exists r, rplace_means T s R B env d ptr true r t) InRawEq vals -> same_vars -> block_task i b k ->
        mir_step (KBody i c [] (MtCall (CeIntrinsic RiRawEq) args d (Some b) u) :: ks) (k :: ks)
    | ms_mini i B env c name op args vals d b u ks k : here i B env -> In (name, op) mini_names ->
        Forall2 (fun o v => operand_means T s R B env o (fst v) (snd v)) args vals ->
        op_does (fun ptr t => exists r, rplace_means T s R B env d ptr true r t) op vals -> same_vars -> block_task i b k ->
        mir_step (KBody i c [] (MtCall (CeMini name) args d (Some b) u) :: ks) (k :: ks)
    (** the frame is left: the value of local 0 is stored where the caller wants it *)
    | ms_return i B env c ks k k' r t p v f st nb ub rp bs : here i B env -> ro_locals B !! 0%nat = Some r -> rc_ty R r = Some t -> ev_local env 0%nat = Some p ->
        holds T m p t v -> stack_of m a (f :: st) -> f_action f = BackToCaller nb ub rp -> encode T t v = Ret bs -> writes m m' rp bs ->
        returned k k' -> mir_step (KBody i c [] MtReturn :: k :: ks) (k' :: ks)
    | ms_return_end i B env c r t p v : here i B env -> ro_locals B !! 0%nat = Some r -> rc_ty R r = Some t -> ev_local env 0%nat = Some p -> holds T m p t v ->
        keeps_all m m' -> mir_step [KBody i c [] MtReturn] []
    | ms_resume i c ks k k' : unwound k k' -> keeps_all m m' -> payloads m' = payloads m -> mir_step (KBody i c [] MtResume :: k :: ks) (k' :: ks)
    (** the start of a function *)
    | ms_enter i y ys ks : at_statement m a y -> mir_step (KEnter i (y :: ys) :: ks) (KEnter i ys :: ks)
    | ms_entered i ks k : block_task i 0 k -> silent -> mir_step (KEnter i [] :: ks) (k :: ks)
    (** catch_unwind. Its locals are not those of MIR. *)
    | ms_catch i B F n c f data g d b u ks x : rc_body R i = Some B -> nm_fn N i = Some n -> map_get (pr_functions prog) n = Some F ->
        place_is T R B F N (ca_dest x) d -> operand_is T R B F N (ca_try x) f -> operand_is T R B F N (ca_data x) data -> operand_is T R B F N (ca_catch x) g ->
        NoDup [ca_l1 x; ca_l2 x; ca_l3 x; ca_l4 x; ca_l5 x] ->
        (forall l, (l < length (ro_locals B))%nat -> loc l ∉ [ca_l1 x; ca_l2 x; ca_l3 x; ca_l4 x; ca_l5 x]) -> silent ->
        mir_step (KBody i c [] (MtCall (CeIntrinsic RiCatchUnwind) [f; data; g] d (Some b) u) :: ks) (KCatch i x b PhTry (catch_prepare x) :: ks)
    | ms_catch_stmt i x b ph y ys ks : at_statement m a y -> mir_step (KCatch i x b ph (y :: ys) :: ks) (KCatch i x b ph ys :: ks)
    | ms_catch_try i x b ks k :
        calls no_dest (fun s v => exists t, value_means T s (ELoad (PLocal (ca_l2 x))) v t) (fun s => args_mean T s [ByValue (ELoad (PLocal (ca_l3 x)))]) k ->
        mir_step (KCatch i x b PhTry [] :: ks) (k :: KCatch i x b PhTry [] :: ks)
    | ms_catch_ok i x b ks k : block_task i b k -> silent -> mir_step (KCatch i x b PhOk [] :: ks) (k :: ks)
    | ms_catch_payload i x b ks : op_does (fun ptr t => place_means T s (PLocal (ca_l5 x)) ptr true t) InGetUnwindPayload [] -> same_vars ->
        mir_step (KCatch i x b PhUnwound [] :: ks) (KCatch i x b PhCatch [catch_result x 1] :: ks)
    | ms_catch_call i x b ks k :
        calls no_dest (fun s v => exists t, value_means T s (ELoad (PLocal (ca_l4 x))) v t)
          (fun s => args_mean T s [ByValue (ELoad (PLocal (ca_l3 x))); ByValue (ELoad (PLocal (ca_l5 x)))]) k ->
        mir_step (KCatch i x b PhCatch [] :: ks) (k :: KCatch i x b PhCatch [] :: ks)
    | ms_catch_done i x b ks k p : block_task i b k -> keeps_all m m' -> same_vars -> payloads m = p :: payloads m' ->
        mir_step (KCatch i x b PhDone [] :: ks) (k :: ks)
    (** the start function calls the entry function *)
    | ms_start ks ys : calls no_dest (fun s v => exists n p, nm_fn N entry = Some n /\ map_get (m_fnptrs m) n = Some p /\ v = VPtr (mkPtr p None))
          (fun s vals moved => vals = [] /\ moved = []) (KEnter entry ys) ->
        mir_step (KStart 0 :: ks) (KEnter entry ys :: KStart 0 :: ks).
  End Step.

  (** *** Executions: [m] is reached by an execution in which every step is one of MIR by some thread; now the frames of the threads have
          the tasks [ps]. New threads enter a function. *)
  Inductive runs_mir : Mach -> list (list Task) -> Prop :=
  | rm_start m : starts T MO prog m -> runs_mir m [[KStart 0]]
  | rm_step m m' ps ks ks' new : runs_mir m ps -> steps_to T MO m m' -> ps !! m_active m' = Some ks -> mir_step m m' (m_active m') ks ks' ->
      (new = [] \/ at_intrinsic m (m_active m') InSpawn /\ exists n k, entered n k /\ new = [[k]]) ->
      runs_mir m' (<[m_active m' := ks']> ps ++ new).

  (** *** Tasks at which the machine stops, and how: the entry function has returned or unwound; the program aborts or exits; it panics, and
          panics abort *)
  Inductive stops_by : Task -> IntrinsicOp -> Prop :=
  | sb_returned : stops_by (KStart 1) InExit
  | sb_unwound : stops_by (KStart 2) InAbort
  | sb_abort i c args d b u : stops_by (KBody i c [] (MtCall (CeIntrinsic RiAbort) args d b u)) InAbort
  | sb_assert i c args d b u : stops_by (KBody i c [] (MtCall (CeIntrinsic (RiAssert false)) args d b u)) InAbort
  | sb_panic i c args d b u : rc_unwinds R = false -> stops_by (KBody i c [] (MtCall CePanic args d b u)) InAbort
  | sb_exit i c args d b u : stops_by (KBody i c [] (MtCall (CeMini "exit"%string) args d b u)) InExit
  | sb_mini_panic i c args d b u : stops_by (KBody i c [] (MtCall (CeMini "panic"%string) args d b u)) InAbort.
  Definition stops_right (m : Mach) (ps : list (list Task)) : Prop :=
    (forall a k ks op, ps !! a = Some (k :: ks) -> stops_by k op -> at_intrinsic m a op) /\
    (forall a i c ks, ps !! a = Some (KBody i c [] MtUnreachable :: ks) -> at_terminator m a TmUnreachable).
End Run.
