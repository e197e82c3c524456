(** Specification: what it means that a machine runs structured programs. Each frame has a plan, the commands it still has
    to execute. *)
From Verif Require Export BuildSpec ExprSpec MachSpec WfProg.

(** the function was built for the body [c] *)
Definition built_for (func : Function) (c : Cmd) : Prop := exists name h, build_function name h c = Ret func.
(** all functions of the program were built *)
Definition built_program (prog : Program) : Prop :=
  forall n func, map_get (pr_functions prog) n = Some func -> exists c, built_for func c.

Section Plans.
  Context {PE AE F : Type} `{EqDecision (nat * PE)}.
  Variable T : Target.
  Notation P := (nat * PE)%type.
  Variable MO : MemOps P F (BMem PE AE).
  Notation Mach := (Machine P F (BMem PE AE)).

  (** the frame on top of the stack of thread [a] is at the beginning of [func] *)
  Definition enters (m : Mach) (a : nat) (func : Function) : Prop :=
    exists f r, stack_of m a (f :: r) /\ f_func f = func /\ f_block f = fn_start func /\ f_stmt f = 0%nat.

  (** [plan_step m m' a ks ks']: in the step from [m] to [m'] thread [a] does what comes next in the plan of its top frame.
      [ks] and [ks'] are the plans of its frames before and after, top frame first. *)
  Inductive plan_step (m m' : Mach) (a : nat) : list (list Cmd) -> list (list Cmd) -> Prop :=
  (** gotos do nothing *)
  | ps_goto b ks : at_terminator m a (TmGoto b) -> plan_step m m' a ks ks
  | ps_stmt s k k' r : at_statement m a s -> does k (AStmt s) k' -> plan_step m m' a (k :: r) (k' :: r)
  | ps_intr op args ret nb k k' r : at_terminator m a (TmIntrinsic op args ret (Some nb)) -> does k (AIntr op args ret) k' ->
      plan_step m m' a (k :: r) (k' :: r)
  (** branches are chosen by the value in the present state *)
  | ps_branch v i ty k k' r : value_means T (turn m a) v (VInt i) ty -> does k (ABranch v i) k' ->
      plan_step m m' a (k :: r) (k' :: r)
  | ps_test c v ty b k k' r : value_means T (turn m a) c v ty -> (ty = TBool -> v = VBool b) -> does k (ATest c b) k' ->
      plan_step m m' a (k :: r) (k' :: r)
  | ps_throw v ub k k' r : at_terminator m a (TmStartUnwind v ub) -> does k (AThrow v) k' -> plan_step m m' a (k :: r) (k' :: r)
  (** the body of the function that is called comes first *)
  | ps_call f conv args ret nb ub u func c k k' r : at_terminator m a (TmCall f conv args ret nb ub) ->
      does k (ACall f conv args ret u) k' -> enters m' a func -> built_for func c ->
      plan_step m m' a (k :: r) ([c] :: k :: r)
  | ps_call_end f args ret func c k r : at_terminator m a (TmCall f CcRust args ret None None) ->
      does k (AEnd (EnCall f args ret)) [] -> enters m' a func -> built_for func c ->
      plan_step m m' a (k :: r) ([c] :: k :: r)
  (** the caller goes on after the call *)
  | ps_return f conv args ret u k k1 k1' r : at_terminator m a TmReturn -> does k (AEnd EnReturn) [] ->
      does k1 (ACall f conv args ret u) k1' -> plan_step m m' a (k :: k1 :: r) (k1' :: r)
  | ps_return_end k : at_terminator m a TmReturn -> does k (AEnd EnReturn) [] -> plan_step m m' a [k] []
  (** the caller goes on with the handler *)
  | ps_resume f conv args ret k k1 k1' r : at_terminator m a TmResumeUnwind -> does k (AEnd EnResume) [] ->
      does k1 (AUnwind f conv args ret) k1' -> plan_step m m' a (k :: k1 :: r) (k1' :: r).

  (** [runs_as prog m ps]: [m] is reached by an execution in which every step is the next step of the plan of some thread;
      now the threads have the plans [ps] *)
  Inductive runs_as (prog : Program) : Mach -> list (list (list Cmd)) -> Prop :=
  | ra_start m func c : starts T MO prog m -> map_get (pr_functions prog) (pr_start prog) = Some func -> built_for func c ->
      runs_as prog m [[[c]]]
  | ra_step m m' ps ks ks' new : runs_as prog m ps -> steps_to T MO m m' -> ps !! m_active m' = Some ks ->
      plan_step m m' (m_active m') ks ks' ->
      (new = [] \/ at_intrinsic m (m_active m') InSpawn /\ exists func c, built_for func c /\
         enters m' (length ps) func /\ new = [[[c]]]) ->
      runs_as prog m' (<[m_active m' := ks']> ps ++ new).
End Plans.
