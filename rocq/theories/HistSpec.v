(** What the steps of the machine may do with the memory. *)
From Verif Require Export MachSpec MemSpec.

Section Hist.
  Context {P F M : Type}.
  Notation Mach := (Machine P F M).

  (** what the thread does next, and its top frame *)
  Definition about_to (m : Mach) (a : nat) (fr : StackFrame P F) (x : Statement + Terminator) : Prop :=
    exists t r b, m_threads m !! a = Some t /\ t_stack t = fr :: r /\
      map_get (fn_blocks (f_func fr)) (f_block fr) = Some b /\
      match x with
      | inl s => bb_statements b !! f_stmt fr = Some s
      | inr tm => f_stmt fr = length (bb_statements b) /\ bb_terminator b = tm
      end.

  (** statements and terminators with expressions *)
  Definition evaluates (x : Statement + Terminator) : Prop :=
    match x with
    | inl (SStorageLive _) | inl (SStorageDead _) => False
    | inr (TmGoto _) | inr TmUnreachable | inr TmReturn | inr (TmStopUnwind _) | inr TmResumeUnwind => False
    | _ => True
    end.
  Definition writes (x : Statement + Terminator) : Prop :=
    match x with
    | inl (SAssign _ _) | inl (SSetDiscriminant _ _) | inl (SValidate _ _) | inl (SDeinit _) => True
    | inr (TmIntrinsic _ _ _ _) | inr (TmCall _ _ _ _ _ _) | inr TmReturn => True
    | _ => False
    end.
  (** a call begins, here or in a new thread *)
  Definition enters (x : Statement + Terminator) : Prop :=
    match x with
    | inr (TmCall _ _ _ _ _ _) | inr (TmIntrinsic InSpawn _ _ _) => True
    | _ => False
    end.
  Definition leaves (x : Statement + Terminator) : Prop := x = inr TmReturn \/ x = inr TmResumeUnwind.

  (** Which operations which statement or terminator may do: the stack is allocated and freed where
      storage begins and ends, the heap by the intrinsics for it, and protectors end only with the call
      of the top frame. *)
  Definition may_do (fr : StackFrame P F) (x : Statement + Terminator) (op : MemOp P F) : Prop :=
    match op with
    | OpLoad _ _ _ => evaluates x \/ x = inr TmReturn
    | OpRetag _ _ _ _ _ => evaluates x
    | OpStore _ _ _ => writes x
    | OpAllocate AStack _ _ _ => (exists l, x = inl (SStorageLive l)) \/ enters x
    | OpAllocate AHeap _ _ _ => exists args ret nb, x = inr (TmIntrinsic InAllocate args ret nb)
    | OpAllocate _ _ _ _ => False
    | OpDeallocate _ AStack _ _ => (exists l, x = inl (SStorageLive l)) \/ (exists l, x = inl (SStorageDead l)) \/ enters x \/ leaves x
    | OpDeallocate _ AHeap _ _ => exists args ret nb, x = inr (TmIntrinsic InDeallocate args ret nb)
    | OpDeallocate _ _ _ _ => False
    | OpEndCall f => leaves x /\ f = f_extra fr
    end.

  (** what happens before the first step: globals, functions, vtables and the start function's locals *)
  Definition start_op (op : MemOp P F) : Prop :=
    match op with
    | OpAllocate AHeap _ _ _ | OpLoad _ _ _ | OpRetag _ _ _ _ _ | OpEndCall _ => False
    | OpDeallocate _ k _ _ => k = AStack
    | _ => True
    end.
End Hist.

Section Along.
  Context {P F M : Type} `{EqDecision P}.
  Variable T : Target.
  Variable MO : MemOps P F M.
  Notation Mach := (Machine P F M).
  (** the memory operations of an execution: those of its steps, one after the other *)
  Inductive exec_ops : Mach -> list Mach -> list (MemOp P F) -> Mach -> Prop :=
  | eo_nil m : exec_ops m [] [] m
  | eo_cons m m1 l m' fr x ops1 ops :
      steps_to T MO m m1 -> about_to m (m_active m1) fr x ->
      mem_run MO (cm_mem (m_mem m)) ops1 = Ret (cm_mem (m_mem m1)) -> (forall op, op ∈ ops1 -> may_do fr x op) ->
      exec_ops m1 l ops m' -> exec_ops m (m :: l) (ops1 ++ ops) m'.
End Along.

(** the frame data of all calls of all threads *)
Definition call_data {P F M} (m : Machine P F M) : list F := concat (List.map (fun t => List.map f_extra (t_stack t)) (m_threads m)).
