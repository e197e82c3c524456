(** Specifications for the theorems about machine executions, written without the model's helper
    functions: executions, program positions, and the scheduler as a transition system on thread states
    and locks. *)
From Verif Require Export Step.

Section Spec.
  Context {P F M : Type} `{EqDecision P}.
  Variable T : Target.
  Variable MO : MemOps P F M.
  Notation Mach := (Machine P F M).

  (** ** Executions *)

  Definition starts (prog : Program) (m : Mach) : Prop :=
    exists cs rest, machine_new T MO prog cs = Ret (m, rest).
  Definition steps_to (m m' : Mach) : Prop := exists cs, step T MO cs m = Ret m'.
  Inductive reachable (prog : Program) : Mach -> Prop :=
  | reach_start m : starts prog m -> reachable prog m
  | reach_step m m' : reachable prog m -> steps_to m m' -> reachable prog m'.
  (** an execution from one state to another, listing the states in which its steps begin *)
  Inductive execution (m : Mach) : list Mach -> Mach -> Prop :=
  | exec_nil : execution m [] m
  | exec_cons l m' m'' : steps_to m m' -> execution m' l m'' -> execution m (m :: l) m''.

  (** ** Positions *)

  (** frame [f] is the top frame of thread [a] and is in block [b] *)
  Definition in_block (m : Mach) (a : nat) (f : StackFrame P F) (b : BasicBlock) : Prop :=
    exists t r, m_threads m !! a = Some t /\ t_stack t = f :: r /\
      map_get (fn_blocks (f_func f)) (f_block f) = Some b.
  (** the next thing thread [a] does is the statement, the terminator *)
  Definition at_statement (m : Mach) (a : nat) (s : Statement) : Prop :=
    exists f b, in_block m a f b /\ bb_statements b !! f_stmt f = Some s.
  Definition at_terminator (m : Mach) (a : nat) (tm : Terminator) : Prop :=
    exists f b, in_block m a f b /\ f_stmt f = length (bb_statements b) /\ bb_terminator b = tm.
  Definition at_intrinsic (m : Mach) (a : nat) (op : IntrinsicOp) : Prop :=
    exists args ret nb, at_terminator m a (TmIntrinsic op args ret nb).

  (** ** Threads and locks *)

  Definition state_of (m : Mach) (i : nat) : option ThreadState :=
    match m_threads m !! i with Some t => Some (t_state t) | None => None end.
  Definition enabled (m : Mach) (i : nat) : Prop := state_of m i = Some Enabled.
  Definition terminated (m : Mach) (i : nat) : Prop := state_of m i = Some Terminated.
  Definition waits_for_lock (m : Mach) (i l : nat) : Prop := state_of m i = Some (BlockedOnLock l).
  Definition joining (m : Mach) (i j : nat) : Prop := state_of m i = Some (BlockedOnJoin j).
  Definition is_thread (m : Mach) (i : nat) : Prop := exists s, state_of m i = Some s.
  Definition holds (m : Mach) (l i : nat) : Prop := m_locks m !! l = Some (LockedBy i).
  Definition is_free (m : Mach) (l : nat) : Prop := m_locks m !! l = Some Unlocked.

  (** what one step of thread [a] may do to the locks and to the states of the threads. Whatever is not
      mentioned stays as it was. *)
  Definition same_locks (m m' : Mach) : Prop := m_locks m' = m_locks m.
  Definition lock_set (m m' : Mach) (l : nat) (s : LockState) : Prop :=
    length (m_locks m') = length (m_locks m) /\
    forall k, m_locks m' !! k = if decide (k = l) then Some s else m_locks m !! k.
  Definition same_states (m m' : Mach) : Prop := forall i, state_of m' i = state_of m i.
  Definition state_set (m m' : Mach) (i : nat) (s : ThreadState) : Prop :=
    forall k, state_of m' k = if decide (k = i) then Some s else state_of m k.

  Inductive sched_step (a : nat) (m m' : Mach) : Prop :=
  (** most steps do neither *)
  | ss_none : same_states m m' -> same_locks m m' -> sched_step a m m'
  (** a new thread gets the next number and may run *)
  | ss_spawn : at_intrinsic m a InSpawn -> state_set m m' (length (m_threads m)) Enabled ->
      same_locks m m' -> sched_step a m m'
  (** joining a thread that has not terminated *)
  | ss_join j : at_intrinsic m a InJoin -> is_thread m j -> ~ terminated m j ->
      state_set m m' a (BlockedOnJoin j) -> same_locks m m' -> sched_step a m m'
  (** a new lock gets the next number and is free *)
  | ss_create : at_intrinsic m a (InLock LkCreate) -> same_states m m' ->
      m_locks m' = m_locks m ++ [Unlocked] -> sched_step a m m'
  (** acquiring a free lock *)
  | ss_acquire l : at_intrinsic m a (InLock LkAcquire) -> is_free m l -> same_states m m' ->
      lock_set m m' l (LockedBy a) -> sched_step a m m'
  (** acquiring a lock that is held *)
  | ss_wait l o : at_intrinsic m a (InLock LkAcquire) -> holds m l o ->
      state_set m m' a (BlockedOnLock l) -> same_locks m m' -> sched_step a m m'
  (** the holder releases a lock for which nobody waits *)
  | ss_release l : at_intrinsic m a (InLock LkRelease) -> holds m l a ->
      (forall i, ~ waits_for_lock m i l) -> same_states m m' -> lock_set m m' l Unlocked ->
      sched_step a m m'
  (** the holder releases a lock; one of the waiters gets it and may run *)
  | ss_pass l w : at_intrinsic m a (InLock LkRelease) -> holds m l a -> waits_for_lock m w l ->
      state_set m m' w Enabled -> lock_set m m' l (LockedBy w) -> sched_step a m m'
  (** a thread other than the first returns from its last function; all who wait for it may run *)
  | ss_end : at_terminator m a TmReturn -> a <> 0%nat ->
      (forall k, state_of m' k =
         if decide (k = a) then Some Terminated
         else if decide (state_of m k = Some (BlockedOnJoin a)) then Some Enabled else state_of m k) ->
      same_locks m m' -> sched_step a m m'.

  (** ** Stacks and blocks *)

  (** where a frame is *)
  Record Pos := mkPos { po_func : Function; po_action : StackPopAction P; po_block : BbName; po_stmt : nat }.
  Definition pos (f : StackFrame P F) : Pos := mkPos (f_func f) (f_action f) (f_block f) (f_stmt f).
  Definition positions (t : Thread P F) : list Pos := List.map pos (t_stack t).

  Definition block_of (f : Pos) : option BasicBlock := map_get (fn_blocks (po_func f)) (po_block f).
  Definition kind_of (f : Pos) : option BbKind := option_map bb_kind (block_of f).

  (** the frame runs a function of the program and its program counter denotes a statement of its block,
      or the terminator *)
  Definition frame_ok (prog : Program) (f : Pos) : Prop :=
    (exists n, map_get (pr_functions prog) n = Some (po_func f)) /\
    exists b, block_of f = Some b /\ (po_stmt f <= length (bb_statements b))%nat.

  (** the stack of a running thread, top frame first: the frame below each frame is at the call that
      created it, and the frame remembers where that call continues *)
  Inductive stack_ok (prog : Program) : list (Pos) -> Prop :=
  | so_bottom f : frame_ok prog f -> po_action f = BottomOfStack -> stack_ok prog [f]
  | so_call f g r b callee conv args ret nb ub p :
      frame_ok prog f -> po_action f = BackToCaller nb ub p ->
      block_of g = Some b -> po_stmt g = length (bb_statements b) ->
      bb_terminator b = TmCall callee conv args ret nb ub ->
      stack_ok prog (g :: r) -> stack_ok prog (f :: g :: r).

  (** every function has a start block, and it is a regular block. [Function::check_wf] does not check
      this. *)
  Definition starts_regular (prog : Program) : Prop :=
    forall n f, map_get (pr_functions prog) n = Some f ->
      exists b, map_get (fn_blocks f) (fn_start f) = Some b /\ bb_kind b = BkRegular.

  (** the kind of block in which unwinding through a frame may continue, given the kind it was in:
      from regular blocks to cleanup or catch blocks, from cleanup and terminate blocks to terminate
      blocks, and catch blocks do not unwind *)
  Inductive unwinds_to : BbKind -> BbKind -> Prop :=
  | uw_cleanup : unwinds_to BkRegular BkCleanup
  | uw_catch : unwinds_to BkRegular BkCatch
  | uw_term1 : unwinds_to BkCleanup BkTerminate
  | uw_term2 : unwinds_to BkTerminate BkTerminate.

  (** how a step of a thread may move between blocks: the thread is at [at_], its stack was [s] and
      is [s'] *)
  Inductive moves (at_ : Terminator -> Prop) : list (Pos) -> list (Pos) -> Prop :=
  (** inside a function the kind of block stays the same *)
  | mv_stay f f' r k : po_func f' = po_func f -> kind_of f = Some k -> kind_of f' = Some k ->
      moves at_ (f :: r) (f' :: r)
  (** unwinding starts in a regular block *)
  | mv_start f f' r v b k : at_ (TmStartUnwind v b) -> po_func f' = po_func f -> po_block f' = b ->
      kind_of f = Some BkRegular -> kind_of f' = Some k -> unwinds_to BkRegular k ->
      moves at_ (f :: r) (f' :: r)
  (** and stops in a catch block *)
  | mv_stop f f' r b : at_ (TmStopUnwind b) -> po_func f' = po_func f -> po_block f' = b ->
      kind_of f = Some BkCatch -> kind_of f' = Some BkRegular ->
      moves at_ (f :: r) (f' :: r)
  (** calls enter the regular start block of the function and leave the caller at the call *)
  | mv_call f g r callee conv args ret nb ub : at_ (TmCall callee conv args ret nb ub) ->
      kind_of g = Some BkRegular -> po_block g = fn_start (po_func g) -> po_stmt g = 0%nat ->
      moves at_ (f :: r) (g :: f :: r)
  (** regular blocks return to the next block of the call, of the same kind as the caller's block *)
  | mv_return f g g' r b ub p k : at_ TmReturn -> kind_of f = Some BkRegular ->
      po_action f = BackToCaller (Some b) ub p -> po_func g' = po_func g -> po_block g' = b ->
      kind_of g = Some k -> kind_of g' = Some k -> moves at_ (f :: g :: r) (g' :: r)
  (** the bottom function returns *)
  | mv_end f : at_ TmReturn -> kind_of f = Some BkRegular -> po_action f = BottomOfStack ->
      moves at_ [f] []
  (** cleanup blocks resume unwinding in the unwind block of the call *)
  | mv_resume f g g' r nb b p k k' : at_ TmResumeUnwind -> kind_of f = Some BkCleanup ->
      po_action f = BackToCaller nb (Some b) p -> po_func g' = po_func g -> po_block g' = b ->
      kind_of g = Some k -> kind_of g' = Some k' -> unwinds_to k k' -> moves at_ (f :: g :: r) (g' :: r).

  (** the frames that are in a block that is not regular, that is, that are being unwound *)
  Definition unwinding (s : list (Pos)) : list (Pos) :=
    List.filter (fun f => bool_decide (kind_of f <> Some BkRegular)) s.
End Spec.
