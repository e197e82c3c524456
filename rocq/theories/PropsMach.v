(** The properties of machine executions: locks (C38), joins (C39), deadlock (C40), data races (C41),
    calls (C45), stacks and unwinding (C50, C60), output (C51) and the end of executions (C52). Only the statements
    are here; the proofs are in the files imported. The vocabulary of the statements is defined in
    MachSpec.v, RaceSpec.v, AbiSpec.v and OutSpec.v. *)
From Verif Require Import SyncProofs RaceProofs ExSched AbiProofs.

(** C38. Steps of the machine are steps of the scheduler specification [sched_step], and the thread that
    takes them is enabled. *)
Theorem C38_C39_scheduler {P F M} `{EqDecision P} T (MO : MemOps P F M) (m m' : Machine P F M) :
  steps_to T MO m m' -> enabled m (m_active m') /\ sched_step (m_active m') m m'.
Proof. exact (step_sched T MO m m'). Qed.
Print Assumptions C38_C39_scheduler.

(** In every reachable state a thread waits for a lock only while some thread holds it, and the holder
    exists. *)
Theorem C38_waiters {P F M} `{EqDecision P} T (MO : MemOps P F M) prog (m : Machine P F M) i l :
  reachable T MO prog m -> waits_for_lock m i l -> exists o, holds m l o /\ is_thread m o.
Proof.
  intros H Hw. destruct (reach_lock_inv T MO prog m H) as [I1 I2]. destruct (I2 _ _ Hw) as [o Ho].
  exists o. split; [exact Ho|exact (I1 _ _ Ho)].
Qed.
Print Assumptions C38_waiters.

(** Mutual exclusion: once a thread holds a lock, no other thread holds it until the thread itself
    releases it. *)
Theorem C38_exclusion {P F M} `{EqDecision P} T (MO : MemOps P F M) (m m' : Machine P F M) ms l i :
  execution T MO m ms m' -> holds m l i -> ~ holds m' l i ->
  exists m1, m1 ∈ ms /\ holds m1 l i /\ at_intrinsic m1 i (InLock LkRelease).
Proof. exact (holder_execution T MO m ms m' l i). Qed.
Print Assumptions C38_exclusion.

(** A lock is acquired by a thread that finds it free, or by a thread that waits for it when the
    holder releases it. *)
Theorem C38_acquire {P F M} `{EqDecision P} T (MO : MemOps P F M) (m m' : Machine P F M) l i :
  steps_to T MO m m' -> holds m' l i -> ~ holds m l i ->
  (i = m_active m' /\ at_intrinsic m i (InLock LkAcquire) /\ is_free m l) \/
  (waits_for_lock m i l /\ holds m l (m_active m') /\ at_intrinsic m (m_active m') (InLock LkRelease)).
Proof. exact (acquire_step T MO m m' l i). Qed.
Print Assumptions C38_acquire.

(** When a lock is released, it becomes free if nobody waits; otherwise exactly one of the waiters
    gets it and may run, and the others keep waiting. *)
Theorem C38_release {P F M} `{EqDecision P} T (MO : MemOps P F M) (m m' : Machine P F M) l :
  steps_to T MO m m' -> holds m l (m_active m') -> ~ holds m' l (m_active m') ->
  (is_free m' l /\ forall i, ~ waits_for_lock m i l) \/
  (exists w, waits_for_lock m w l /\ holds m' l w /\ enabled m' w /\
     forall i, i <> w -> waits_for_lock m i l -> waits_for_lock m' i l).
Proof. exact (release_step T MO m m' l). Qed.
Print Assumptions C38_release.

(** A waiter stops waiting only by getting the lock. *)
Theorem C38_waiter {P F M} `{EqDecision P} T (MO : MemOps P F M) (m m' : Machine P F M) i l :
  steps_to T MO m m' -> waits_for_lock m i l ->
  waits_for_lock m' i l \/
  (enabled m' i /\ holds m l (m_active m') /\ at_intrinsic m (m_active m') (InLock LkRelease) /\ holds m' l i).
Proof. exact (waiter_step T MO m m' i l). Qed.
Print Assumptions C38_waiter.

(** Only the holder can release: a thread that is not the holder and executes a release is stopped. *)
Theorem C38_only_holder {P F M} `{EqDecision P} T (MO : MemOps P F M) (m m' : Machine P F M) l i :
  steps_to T MO m m' -> holds m l i -> m_active m' <> i -> holds m' l i.
Proof.
  intros Hs Hl Hne. destruct (holder_step T MO m m' l i Hs Hl) as [Hh|[Hi _]]; [exact Hh|].
  destruct Hne. symmetry. exact Hi.
Qed.
Print Assumptions C38_only_holder.

(** A thread starts waiting only for a lock that is held. *)
Theorem C38_block {P F M} `{EqDecision P} T (MO : MemOps P F M) (m m' : Machine P F M) l i :
  steps_to T MO m m' -> waits_for_lock m' i l -> ~ waits_for_lock m i l ->
  i = m_active m' /\ at_intrinsic m i (InLock LkAcquire) /\ exists o, holds m l o /\ holds m' l o.
Proof. exact (block_step T MO m m' l i). Qed.
Print Assumptions C38_block.

(** The lock is the one that the operand names. Acquiring succeeds if it is free and waits if it is
    held. *)
Theorem C38_acquire_operand {P F M} `{EqDecision P} T (MO : MemOps P F M) (m m' : Machine P F M) cs args ret nb :
  step T MO cs m = Ret m' -> at_terminator m (m_active m') (TmIntrinsic (InLock LkAcquire) args ret nb) ->
  exists n ty, operands T MO m (m_active m') args ret [(VInt n, ty)] /\ 0 <= n /\
    ((is_free m (Z.to_nat n) /\ holds m' (Z.to_nat n) (m_active m') /\ enabled m' (m_active m')) \/
     ((exists o, holds m (Z.to_nat n) o) /\ waits_for_lock m' (m_active m') (Z.to_nat n))).
Proof. exact (acquire_result T MO cs m m' args ret nb). Qed.
Print Assumptions C38_acquire_operand.
Theorem C38_release_operand {P F M} `{EqDecision P} T (MO : MemOps P F M) (m m' : Machine P F M) cs args ret nb :
  step T MO cs m = Ret m' -> at_terminator m (m_active m') (TmIntrinsic (InLock LkRelease) args ret nb) ->
  exists n ty, operands T MO m (m_active m') args ret [(VInt n, ty)] /\ 0 <= n /\
    holds m (Z.to_nat n) (m_active m') /\
    ((is_free m' (Z.to_nat n) /\ forall i, ~ waits_for_lock m i (Z.to_nat n)) \/
     exists w, waits_for_lock m w (Z.to_nat n) /\ holds m' (Z.to_nat n) w /\ enabled m' w).
Proof. exact (release_result T MO cs m m' args ret nb). Qed.
Print Assumptions C38_release_operand.

(** Acquiring a lock that does not exist, and releasing a lock that the thread does not hold, is UB. *)
Theorem C38_acquire_ub {P F M} `{EqDecision P} T (MO : MemOps P F M) (m : Machine P F M) a args ret nb n ty cs :
  enabled m a -> at_terminator m a (TmIntrinsic (InLock LkAcquire) args ret nb) ->
  operands T MO m a args ret [(VInt n, ty)] -> (n < 0 \/ m_locks m !! Z.to_nat n = None) ->
  is_ub (step T MO (ChThread a :: cs) m).
Proof. exact (acquire_missing T MO m a args ret nb n ty cs). Qed.
Print Assumptions C38_acquire_ub.
Theorem C38_release_ub {P F M} `{EqDecision P} T (MO : MemOps P F M) (m : Machine P F M) a args ret nb n ty cs :
  enabled m a -> at_terminator m a (TmIntrinsic (InLock LkRelease) args ret nb) ->
  operands T MO m a args ret [(VInt n, ty)] -> (n < 0 \/ ~ holds m (Z.to_nat n) a) ->
  is_ub (step T MO (ChThread a :: cs) m).
Proof. exact (release_missing T MO m a args ret nb n ty cs). Qed.
Print Assumptions C38_release_ub.

(** The holder need not be another thread: a thread that acquires a lock it holds waits for itself. *)
Theorem C38_another_refuted : exists prog (m : MachB) i l,
  reachable x86_64 (BasicOps x86_64) prog m /\ waits_for_lock m i l /\ holds m l i.
Proof. exists self_prog, self_m1, 0%nat, 0%nat. split; [exact self_m1_reach|]. split; reflexivity. Qed.
Print Assumptions C38_another_refuted.

(** a reachable state in which thread 1 waits for the lock held by thread 0, and the release *)
Example C38_hyps :
  reachable x86_64 (BasicOps x86_64) lk_prog lk_m1 /\ waits_for_lock lk_m1 1 0 /\ holds lk_m1 0 0 /\
  steps_to x86_64 (BasicOps x86_64) lk_m1 lk_m2 /\ m_active lk_m2 = 0%nat /\ ~ holds lk_m2 0 0 /\
  holds lk_m2 0 1 /\ execution x86_64 (BasicOps x86_64) lk_m1 [lk_m1] lk_m2.
Proof.
  assert (Hs : steps_to x86_64 (BasicOps x86_64) lk_m1 lk_m2).
  { exists [ChThread 0; ChThread 1]. vm_compute. reflexivity. }
  split; [exact lk_m1_reach|]. split; [reflexivity|]. split; [reflexivity|]. split; [exact Hs|].
  split; [reflexivity|]. split; [discriminate|]. split; [reflexivity|].
  econstructor; [exact Hs|constructor].
Qed.

(** C39. A thread that joins another keeps waiting as long as that thread runs, and may run in the very
    step that terminates it. *)
Theorem C39_join {P F M} `{EqDecision P} T (MO : MemOps P F M) prog (m m' : Machine P F M) i j :
  reachable T MO prog m -> steps_to T MO m m' -> joining m i j ->
  is_thread m j /\
  ((~ terminated m' j /\ joining m' i j) \/ (terminated m' j /\ enabled m' i)).
Proof.
  intros Hr Hs Hj. destruct (reach_join_inv T MO prog m Hr i j Hj) as [H1 H2]. split; [exact H1|].
  exact (join_step T MO m m' i j Hs Hj H2).
Qed.
Print Assumptions C39_join.

(** In every reachable state, a thread that somebody joins exists and has not terminated. *)
Theorem C39_not_lost {P F M} `{EqDecision P} T (MO : MemOps P F M) prog (m : Machine P F M) i j :
  reachable T MO prog m -> joining m i j -> is_thread m j /\ ~ terminated m j.
Proof. intros Hr. exact (reach_join_inv T MO prog m Hr i j). Qed.
Print Assumptions C39_not_lost.

(** A thread starts waiting only at a join of a thread that exists and has not terminated. *)
Theorem C39_starts_waiting {P F M} `{EqDecision P} T (MO : MemOps P F M) (m m' : Machine P F M) i j :
  steps_to T MO m m' -> joining m' i j -> ~ joining m i j ->
  i = m_active m' /\ at_intrinsic m i InJoin /\ is_thread m j /\ ~ terminated m j.
Proof. exact (joining_step T MO m m' i j). Qed.
Print Assumptions C39_starts_waiting.

(** The thread that is joined is the one that the operand names. If it has terminated the join does not
    block, otherwise it does. *)
Theorem C39_join_operand {P F M} `{EqDecision P} T (MO : MemOps P F M) (m m' : Machine P F M) cs args ret nb :
  step T MO cs m = Ret m' -> at_terminator m (m_active m') (TmIntrinsic InJoin args ret nb) ->
  exists n ty, operands T MO m (m_active m') args ret [(VInt n, ty)] /\ 0 <= n /\ is_thread m (Z.to_nat n) /\
    (terminated m (Z.to_nat n) -> enabled m' (m_active m')) /\
    (~ terminated m (Z.to_nat n) -> joining m' (m_active m') (Z.to_nat n)).
Proof. exact (join_result T MO cs m m' args ret nb). Qed.
Print Assumptions C39_join_operand.
Theorem C39_join_ub {P F M} `{EqDecision P} T (MO : MemOps P F M) (m : Machine P F M) a args ret nb n ty cs :
  enabled m a -> at_terminator m a (TmIntrinsic InJoin args ret nb) ->
  operands T MO m a args ret [(VInt n, ty)] -> (n < 0 \/ ~ is_thread m (Z.to_nat n)) ->
  is_ub (step T MO (ChThread a :: cs) m).
Proof. exact (join_missing T MO m a args ret nb n ty cs). Qed.
Print Assumptions C39_join_ub.

(** Threads terminate only by returning from their first function; the first thread never does. They
    stay terminated. *)
Theorem C39_terminates {P F M} `{EqDecision P} T (MO : MemOps P F M) (m m' : Machine P F M) i :
  steps_to T MO m m' ->
  (terminated m' i -> ~ terminated m i -> i = m_active m' /\ i <> 0%nat /\ at_terminator m i TmReturn) /\
  (terminated m i -> terminated m' i).
Proof. intros Hs. split; [exact (terminates_step T MO m m' i Hs)|exact (terminated_step T MO m m' i Hs)]. Qed.
Print Assumptions C39_terminates.

(** a reachable state in which thread 0 joins thread 1, and the step that ends thread 1 *)
Example C39_hyps :
  reachable x86_64 (BasicOps x86_64) lk_prog lk_m3 /\ joining lk_m3 0 1 /\
  steps_to x86_64 (BasicOps x86_64) lk_m3 lk_m4 /\ terminated lk_m4 1 /\ enabled lk_m4 0.
Proof.
  split; [exact lk_m3_reach|]. split; [reflexivity|]. split; [|split; reflexivity].
  exists [ChThread 1]. vm_compute. reflexivity.
Qed.

(** C40. A step reports deadlock exactly if no thread is enabled. *)
Theorem C40_deadlock_basic T (m : MachB) cs :
  step T (BasicOps T) cs m = Stop TDeadlock <-> forall i, ~ enabled m i.
Proof.
  split; [|exact (step_no_enabled T (BasicOps T) cs m)]. intros H.
  destruct (end_cases T (BasicOps T) (basic_like T) (basic_ub T) cs m _ H)
    as [[_ H1]|[[msg H1]|(a & rest & _ & _ & [[_ H1]|[(_ & _ & H1)|(_ & _ & H1)]])]]; [exact H1|discriminate..].
Qed.
Print Assumptions C40_deadlock_basic.
Theorem C40_deadlock_tree T (m : MachT) cs :
  step T (TreeOps T) cs m = Stop TDeadlock <-> forall i, ~ enabled m i.
Proof.
  split; [|exact (step_no_enabled T (TreeOps T) cs m)]. intros H.
  destruct (end_cases T (TreeOps T) (tree_like T) (tree_ub T) cs m _ H)
    as [[_ H1]|[[msg H1]|(a & rest & _ & _ & [[_ H1]|[(_ & _ & H1)|(_ & _ & H1)]])]]; [exact H1|discriminate..].
Qed.
Print Assumptions C40_deadlock_tree.

(** Otherwise the step is taken by the thread that the scheduler picks, which must be enabled; picking
    any other thread is not an execution. *)
Theorem C40_picks {P F M} `{EqDecision P} T (MO : MemOps P F M) (m m' : Machine P F M) cs :
  step T MO cs m = Ret m' -> enabled m (m_active m') /\ exists rest, cs = ChThread (m_active m') :: rest.
Proof.
  intros H. split; [|exact (step_picks T MO cs m m' H)].
  apply (step_sched T MO m m'). exists cs. exact H.
Qed.
Print Assumptions C40_picks.
Theorem C40_only_enabled {P F M} `{EqDecision P} T (MO : MemOps P F M) (m : Machine P F M) a i cs :
  enabled m i -> ~ enabled m a -> step T MO (ChThread a :: cs) m = NoBehavior.
Proof. exact (step_not_enabled T MO cs m a i). Qed.
Print Assumptions C40_only_enabled.

(** a reachable deadlock, and a reachable state in which one thread is enabled and another is not *)
Example C40_hyps :
  (forall i, ~ enabled self_m1 i) /\ reachable x86_64 (BasicOps x86_64) self_prog self_m1 /\
  enabled lk_m1 0 /\ ~ enabled lk_m1 1.
Proof.
  split; [|split; [exact self_m1_reach|split; [reflexivity|discriminate]]].
  intros [|i]; [discriminate|]. unfold enabled, state_of. cbn. discriminate.
Qed.

(** C41. If an access of a step conflicts with an access of the previous step, which was taken by
    another thread, and no step of the execution so far synchronised with the second thread, then the
    step is UB. What is missing: the statement should only exclude synchronisation by the previous step,
    which is false of the code, see C41_races_refuted. The second step is described by what the same
    thread does when the accesses of the previous step are forgotten, because a step that is UB has no
    final state. *)
Theorem C41_races_partial {P F M} `{EqDecision P} T (MO : MemOps P F M) prog (m0 m m' : Machine P F M) ms cs x y :
  starts T MO prog m0 -> execution T MO m0 ms m ->
  (forall m1 m2 ms1 ms2, execution T MO m0 ms1 m1 -> steps_to T MO m1 m2 -> execution T MO m2 ms2 m ->
     ~ synchronises m1 m2 (m_active m')) ->
  step T MO cs (forget_accesses m) = Ret m' -> m_active m' <> m_active m ->
  x ∈ cm_accesses (m_mem m) -> y ∈ cm_accesses (m_mem m') -> conflict x y ->
  is_ub (step T MO cs m).
Proof.
  intros H0 He Hn Hs Ha Hx Hy Hc. apply (conflict_step T MO cs m m' x y Hs Ha); [|exact Hx|exact Hy|exact Hc].
  intros Hi. destruct (sync_execution T MO prog m0 m ms _ H0 He Hi) as (m1 & m2 & ms1 & ms2 & H1 & H2 & H3 & H4).
  exact (Hn _ _ _ _ H1 H2 H3 H4).
Qed.
Print Assumptions C41_races_partial.

(** A race that is not reported: the worker was synchronised with when it was spawned; later the first
    thread writes a global and the worker reads it in the next step. *)
Theorem C41_races_refuted : exists prog (m m1 m2 : MachB) cs1 cs2 x y,
  reachable x86_64 (BasicOps x86_64) prog m /\
  step x86_64 (BasicOps x86_64) cs1 m = Ret m1 /\ step x86_64 (BasicOps x86_64) cs2 m1 = Ret m2 /\
  m_active m2 <> m_active m1 /\ (exists s, at_statement m (m_active m1) s) /\
  ~ synchronises m m1 (m_active m2) /\
  x ∈ cm_accesses (m_mem m1) /\ y ∈ cm_accesses (m_mem m2) /\ conflict x y.
Proof.
  exists race_prog, race_m1, race_m2, race_m3, [ChThread 0], [ChThread 1],
    (mkAccess AcStore NonAtomic 4096 4), (mkAccess AcLoad NonAtomic 4096 4).
  split; [exact race_m1_reach|]. split; [exact race_m2_step|]. split; [exact race_m3_step|].
  split; [discriminate|].
  assert (Hat : at_statement race_m1 0 (SAssign g_place (u32_e 7))).
  { eexists _, _. split; [eexists _, _; split; [reflexivity|split; reflexivity]|reflexivity]. }
  split; [eexists; exact Hat|]. split.
  { intros [(? & ? & ? & H)|? (? & ? & ? & H) _ _ _|H _ _]; exact (at_terminator_statement _ _ _ _ H Hat). }
  split; [apply elem_of_list_In; left; reflexivity|].
  split; [apply elem_of_list_In; left; reflexivity|].
  split; [exists 4096; repeat split; vm_compute; congruence|]. split; [left|left]; reflexivity.
Qed.
Print Assumptions C41_races_refuted.

(** What counts as synchronised: exactly the threads with which some earlier step synchronised. *)
Theorem C41_synchronised {P F M} `{EqDecision P} T (MO : MemOps P F M) (m m' : Machine P F M) i :
  steps_to T MO m m' -> i ∈ m_sync m' <-> i ∈ m_sync m \/ synchronises m m' i.
Proof. exact (sync_step T MO m m' i). Qed.
Print Assumptions C41_synchronised.

(** No step is stopped for a race without a race. *)
Theorem C41_no_false_alarm {M} (c : ConcMem M) a sync prev t :
  cm_check_data_races c a sync prev = Stop t ->
  a ∉ sync /\ exists x y, x ∈ prev /\ y ∈ cm_accesses c /\ races x y = true.
Proof. exact (check_race c a sync prev t). Qed.
Print Assumptions C41_no_false_alarm.

(** The second hypothesis of C41_races_partial can be read off the set of synchronised threads. *)
Theorem C41_never_synchronised {P F M} `{EqDecision P} T (MO : MemOps P F M) (m1 m2 m : Machine P F M) ms i :
  steps_to T MO m1 m2 -> execution T MO m2 ms m -> synchronises m1 m2 i -> i ∈ m_sync m.
Proof.
  intros Hs He Hy. assert (Hi : i ∈ m_sync m2) by (apply (sync_step T MO m1 m2 i Hs); right; exact Hy).
  clear Hs Hy. induction He as [m2|m2 ms m3 m Hs He IH]; [exact Hi|].
  apply IH, (sync_step T MO m2 m3 i Hs). left. exact Hi.
Qed.
Print Assumptions C41_never_synchronised.

(** a reachable state in which the first thread writes what the worker read in the previous step *)
Example C41_hyps :
  reachable x86_64 (BasicOps x86_64) race_prog race_m1 /\
  step x86_64 (BasicOps x86_64) [ChThread 1] race_m1 = Ret race_m4 /\
  step x86_64 (BasicOps x86_64) [ChThread 0] (forget_accesses race_m4) = Ret race_m5 /\
  m_active race_m5 <> m_active race_m4 /\ m_active race_m5 ∉ m_sync race_m4 /\
  In (mkAccess AcLoad NonAtomic 4096 4) (cm_accesses (m_mem race_m4)) /\
  In (mkAccess AcStore NonAtomic 4096 4) (cm_accesses (m_mem race_m5)) /\
  step x86_64 (BasicOps x86_64) [ChThread 0] race_m4 = Stop (TUb "Data race").
Proof.
  split; [exact race_m1_reach|]. split; [exact race_m4_step|]. split; [exact race_m5_step|].
  split; [discriminate|]. split.
  { change (0%nat ∉ [1%nat]). intros H. apply elem_of_list_In in H as [H|[]]. discriminate. }
  split; [left; reflexivity|]. split; [left; reflexivity|]. vm_compute. reflexivity.
Qed.

(** C45. The compatibility check of calls decides [abi_same] on all well-formed sized types; *)
Definition passable T ht ty : Prop := ty_check_wf T ht ty = Ret tt /\ sized T ty /\ maps_ok ty.
Theorem C45_decides T ht a b : passable T ht a -> passable T ht b ->
  exists r, check_abi_compatibility a b = Ret r /\ (r = true <-> abi_same a b).
Proof.
  intros (H1 & H2 & H3) (H4 & H5 & H6).
  exact (abi_decides a b (wf_arg_type T ht a H1 H2 H3) (wf_arg_type T ht b H4 H5 H6)).
Qed.
Print Assumptions C45_decides.

(** it is an equivalence, *)
Theorem C45_equivalence T ht a b c : passable T ht a -> passable T ht b -> passable T ht c ->
  check_abi_compatibility a a = Ret true /\
  (check_abi_compatibility a b = Ret true -> check_abi_compatibility b a = Ret true) /\
  (check_abi_compatibility a b = Ret true -> check_abi_compatibility b c = Ret true ->
   check_abi_compatibility a c = Ret true).
Proof.
  intros Ha Hb Hc.
  assert (D : forall x y, passable T ht x -> passable T ht y ->
    (check_abi_compatibility x y = Ret true <-> abi_same x y)).
  { intros x y Hx Hy. destruct (C45_decides T ht x y Hx Hy) as (r & -> & <-). split; [congruence|intros ->; done]. }
  rewrite !D by assumption. split; [|split].
  - destruct Ha as (Ha1 & Ha2 & Ha3). apply arg_refl. exact (wf_arg_type T ht a Ha1 Ha2 Ha3).
  - apply abi_sym.
  - apply abi_trans.
Qed.
Print Assumptions C45_equivalence.

(** and compatible types have the same size and alignment. *)
Theorem C45_layout T ht a b : passable T ht a -> passable T ht b -> check_abi_compatibility a b = Ret true ->
  exists s l, size_of T a = Ret s /\ size_of T b = Ret s /\ align_of T a = Ret l /\ align_of T b = Ret l.
Proof.
  intros Ha Hb H. destruct (C45_decides T ht a b Ha Hb) as (r & E & Hr). rewrite E in H. injection H as ->.
  pose proof (abi_layout T a b (proj1 Hr eq_refl)) as El.
  destruct Ha as (_ & (s & l & Hl) & _). exists s, l. unfold size_of, align_of. rewrite <-El, Hl. done.
Qed.
Print Assumptions C45_layout.

(** a reference and a raw pointer inside a tuple *)
Example C45_hyps :
  let t p := TTuple [(0%N, TPtr p); (8%N, TBool)] (mkHead 9 (mkAlign 3) None) None in
  let a := t (PRaw MKNone) in
  let b := t (PRef Immutable (mkPointee (LSized 4 (mkAlign 2)) true (CSized []) true true)) in
  passable x86_64 (fun _ => false) a /\ passable x86_64 (fun _ => false) b /\
  check_abi_compatibility a b = Ret true /\ a <> b.
Proof.
  cbn zeta. assert (M : forall p, maps_ok (TTuple [(0%N, TPtr p); (8%N, TBool)] (mkHead 9 (mkAlign 3) None) None)).
  { intros p. constructor; [|discriminate]. repeat constructor. }
  split; [split; [vm_compute; reflexivity|split; [eexists _, _; vm_compute; reflexivity|apply M]]|].
  split; [split; [vm_compute; reflexivity|split; [eexists _, _; vm_compute; reflexivity|apply M]]|].
  split; [vm_compute; reflexivity|discriminate].
Qed.

(** C50. In every reachable state of a well-formed program whose functions have regular start blocks,
    every thread has terminated and has no frames, or its frames form a proper stack: each frame is at
    an existing statement or terminator of a function of the program, and at the call that the frame
    above it returns to. *)
Theorem C50_stacks {P F M} `{EqDecision P} T (MO : MemOps P F M) prog (m : Machine P F M) i t :
  program_check_wf T prog = Ret tt -> starts_regular prog -> reachable T MO prog m ->
  m_threads m !! i = Some t ->
  (t_state t = Terminated -> t_stack t = []) /\ (t_state t <> Terminated -> stack_ok prog (positions t)).
Proof.
  intros Hwf Hst Hr Ht.
  destruct (reach_stack T MO prog (program_wf_blocks T prog Hwf) Hst m i t Hr Ht) as (H1 & H2 & _).
  split; [exact H1|exact H2].
Qed.
Print Assumptions C50_stacks.

(** Every step moves the active thread as [moves] allows and leaves the frames of other threads where
    they are; a new thread begins at the start of a function. *)
Theorem C50_moves {P F M} `{EqDecision P} T (MO : MemOps P F M) prog (m m' : Machine P F M) :
  program_check_wf T prog = Ret tt -> starts_regular prog -> reachable T MO prog m -> steps_to T MO m m' ->
  (exists t t', m_threads m !! m_active m' = Some t /\ m_threads m' !! m_active m' = Some t' /\
     moves (at_terminator m (m_active m')) (positions t) (positions t')) /\
  forall i t', i <> m_active m' -> m_threads m' !! i = Some t' ->
    (exists t, m_threads m !! i = Some t /\ positions t' = positions t /\ t_payloads t' = t_payloads t) \/
    (m_threads m !! i = None /\ exists n func, map_get (pr_functions prog) n = Some func /\
       positions t' = [mkPos func BottomOfStack (fn_start func) 0]).
Proof. intros Hwf Hst. exact (reach_moves T MO prog (program_wf_blocks T prog Hwf) Hst m m'). Qed.
Print Assumptions C50_moves.

(** a reachable state with a cleanup block above a catching call, and the step that resumes unwinding *)
Example C50_hyps :
  program_check_wf x86_64 uw_prog = Ret tt /\ starts_regular uw_prog /\
  reachable x86_64 (BasicOps x86_64) uw_prog uw_m1 /\ at_terminator uw_m1 0 TmResumeUnwind /\
  steps_to x86_64 (BasicOps x86_64) uw_m1 uw_m2 /\ at_terminator uw_m2 0 (TmStopUnwind 2).
Proof.
  split; [vm_compute; reflexivity|]. split.
  { intros n f H. apply map_get_in in H as [H|[H|[]]]; injection H as <- <-; eexists; split; reflexivity. }
  split; [exact uw_m1_reach|]. split.
  { eexists _, _. split; [eexists _, _; split; [reflexivity|split; reflexivity]|split; reflexivity]. }
  split; [exists [ChThread 0]; vm_compute; reflexivity|].
  eexists _, _. split; [eexists _, _; split; [reflexivity|split; reflexivity]|split; reflexivity].
Qed.

(** C60. In every reachable state of such a program a thread has at least as many unwind payloads as
    frames that are being unwound. *)
Theorem C60_payloads {P F M} `{EqDecision P} T (MO : MemOps P F M) prog (m : Machine P F M) i t :
  program_check_wf T prog = Ret tt -> starts_regular prog -> reachable T MO prog m ->
  m_threads m !! i = Some t -> (length (unwinding (positions t)) <= length (t_payloads t))%nat.
Proof.
  intros Hwf Hst Hr Ht.
  exact (proj2 (proj2 (reach_stack T MO prog (program_wf_blocks T prog Hwf) Hst m i t Hr Ht))).
Qed.
Print Assumptions C60_payloads.

(** Hence stopping unwinding always succeeds: it drops the latest payload and continues in the given
    block. *)
Theorem C60_stop_unwind {P F M} `{EqDecision P} T (MO : MemOps P F M) prog (m : Machine P F M) a t b cs :
  program_check_wf T prog = Ret tt -> starts_regular prog -> reachable T MO prog m ->
  enabled m a -> m_threads m !! a = Some t -> at_terminator m a (TmStopUnwind b) ->
  exists m' t' p f r, step T MO (ChThread a :: cs) m = Ret m' /\ m_threads m' !! a = Some t' /\
    t_payloads t = p :: t_payloads t' /\
    t_stack t = f :: r /\ positions t' = mkPos (f_func f) (f_action f) b 0 :: List.map pos r.
Proof.
  intros Hwf Hst Hr He Ht Hat.
  assert (Hnt : t_state t <> Terminated).
  { unfold enabled, state_of in He. rewrite Ht in He. congruence. }
  pose proof (reach_payload T MO prog (program_wf_blocks T prog Hwf) Hst m a b t Hr Ht Hnt Hat) as Hp.
  destruct (t_payloads t) as [|p ps] eqn:E; [contradiction|].
  destruct (stop_unwind_step T MO m a t p ps b cs He Ht E Hat) as (m' & t' & H1 & _ & H2 & H3 & f & r & H4 & H5).
  exists m', t', p, f, r. rewrite H3. repeat split; assumption.
Qed.
Print Assumptions C60_stop_unwind.

Example C60_hyps :
  reachable x86_64 (BasicOps x86_64) uw_prog uw_m2 /\ enabled uw_m2 0 /\
  at_terminator uw_m2 0 (TmStopUnwind 2) /\
  exists t, m_threads uw_m2 !! 0%nat = Some t /\ length (unwinding (positions t)) = 1%nat.
Proof.
  split; [exact uw_m2_reach|]. split; [reflexivity|]. split.
  - eexists _, _. split; [eexists _, _; split; [reflexivity|split; reflexivity]|split; reflexivity].
  - eexists. split; [reflexivity|]. vm_compute. reflexivity.
Qed.

(** C51. A step appends to the output streams, and only a step at a print intrinsic appends anything. *)
Theorem C51_appends {P F M} `{EqDecision P} T (MO : MemOps P F M) (m m' : Machine P F M) :
  steps_to T MO m m' ->
  exists s1 s2, m_stdout m' = (m_stdout m ++ s1)%string /\ m_stderr m' = (m_stderr m ++ s2)%string /\
    (s1 <> EmptyString -> at_intrinsic m (m_active m') InPrintStdout) /\
    (s2 <> EmptyString -> at_intrinsic m (m_active m') InPrintStderr).
Proof. exact (step_out T MO m m'). Qed.
Print Assumptions C51_appends.

(** What a print intrinsic appends: one line for each of its operands, with the decimal numeral of an
    integer or the name of a boolean. *)
Theorem C51_text {P F M} `{EqDecision P} T (MO : MemOps P F M) (m m' : Machine P F M) cs op args ret nb :
  step T MO cs m = Ret m' -> at_terminator m (m_active m') (TmIntrinsic op args ret nb) ->
  op = InPrintStdout \/ op = InPrintStderr ->
  exists vs s, operands T MO m (m_active m') args ret vs /\ lines vs s /\
    (op = InPrintStdout -> m_stdout m' = (m_stdout m ++ s)%string) /\
    (op = InPrintStderr -> m_stderr m' = (m_stderr m ++ s)%string).
Proof. exact (print_step T MO cs m m' op args ret nb). Qed.
Print Assumptions C51_text.

(** What has been printed stays. *)
Theorem C51_execution {P F M} `{EqDecision P} T (MO : MemOps P F M) (m m' : Machine P F M) ms :
  execution T MO m ms m' -> begins_with (m_stdout m) (m_stdout m') /\ begins_with (m_stderr m) (m_stderr m').
Proof. exact (execution_out T MO m ms m'). Qed.
Print Assumptions C51_execution.

(** a step that prints 42 *)
Example C51_hyps : exists m m' : MachB, reachable x86_64 (BasicOps x86_64) ex_prog m /\
  step x86_64 (BasicOps x86_64) [ChThread 0] m = Ret m' /\
  at_terminator m (m_active m') (TmIntrinsic InPrintStdout [ELoad (PLocal 1)] (PLocal 0) (Some 2%N)) /\
  m_stdout m' = ("42" ++ line_end)%string.
Proof.
  exists (out m_dummyB (run x86_64 (BasicOps x86_64) [[ChThread 0]] ex_m1)),
    (out m_dummyB (run x86_64 (BasicOps x86_64) [[ChThread 0]; [ChThread 0]] ex_m1)).
  split.
  { eapply (run_reachable x86_64 (BasicOps x86_64) ex_prog [[ChThread 0]] ex_m1).
    - exact (reachB _ _ _ _ _ _ ex_m0_new ex_m1_run).
    - vm_compute. reflexivity. }
  split; [vm_compute; reflexivity|]. split; [|vm_compute; reflexivity].
  eexists _, _. split; [eexists _, _; split; [vm_compute; reflexivity|split; vm_compute; reflexivity]|split; vm_compute; reflexivity].
Qed.

(** C52. How a step can end the execution, other than by UB or deadlock: the thread that takes the step
    is at the abort or the exit intrinsic; exit reports a leak exactly if a heap allocation is live. *)
Theorem C52_ends_basic T (m : MachB) cs t :
  step T (BasicOps T) cs m = Stop t ->
  (t = TDeadlock /\ forall i, ~ enabled m i) \/ (exists msg, t = TUb msg) \/
  exists a rest, cs = ChThread a :: rest /\ enabled m a /\
    ((at_intrinsic m a InAbort /\ t = TAbort) \/
     (at_intrinsic m a InExit /\ heap_live (cm_mem (m_mem m)) /\ t = TMemoryLeak) \/
     (at_intrinsic m a InExit /\ ~ heap_live (cm_mem (m_mem m)) /\ t = TMachineStop)).
Proof. exact (end_cases T (BasicOps T) (basic_like T) (basic_ub T) cs m t). Qed.
Print Assumptions C52_ends_basic.
Theorem C52_ends_tree T (m : MachT) cs t :
  step T (TreeOps T) cs m = Stop t ->
  (t = TDeadlock /\ forall i, ~ enabled m i) \/ (exists msg, t = TUb msg) \/
  exists a rest, cs = ChThread a :: rest /\ enabled m a /\
    ((at_intrinsic m a InAbort /\ t = TAbort) \/
     (at_intrinsic m a InExit /\ heap_live (cm_mem (m_mem m)) /\ t = TMemoryLeak) \/
     (at_intrinsic m a InExit /\ ~ heap_live (cm_mem (m_mem m)) /\ t = TMachineStop)).
Proof. exact (end_cases T (TreeOps T) (tree_like T) (tree_ub T) cs m t). Qed.
Print Assumptions C52_ends_tree.

(** Conversely, a thread at the exit intrinsic whose operands evaluate ends the execution, with a leak
    exactly if a heap allocation is live; *)
Theorem C52_exit_basic T (m : MachB) a args ret nb vs cs :
  enabled m a -> at_terminator m a (TmIntrinsic InExit args ret nb) ->
  operands T (BasicOps T) m a args ret vs ->
  (heap_live (cm_mem (m_mem m)) -> step T (BasicOps T) (ChThread a :: cs) m = Stop TMemoryLeak) /\
  (~ heap_live (cm_mem (m_mem m)) -> step T (BasicOps T) (ChThread a :: cs) m = Stop TMachineStop).
Proof. exact (exit_result T (BasicOps T) (basic_like T) m a args ret nb vs cs). Qed.
Print Assumptions C52_exit_basic.
Theorem C52_exit_tree T (m : MachT) a args ret nb vs cs :
  enabled m a -> at_terminator m a (TmIntrinsic InExit args ret nb) ->
  operands T (TreeOps T) m a args ret vs ->
  (heap_live (cm_mem (m_mem m)) -> step T (TreeOps T) (ChThread a :: cs) m = Stop TMemoryLeak) /\
  (~ heap_live (cm_mem (m_mem m)) -> step T (TreeOps T) (ChThread a :: cs) m = Stop TMachineStop).
Proof. exact (exit_result T (TreeOps T) (tree_like T) m a args ret nb vs cs). Qed.
Print Assumptions C52_exit_tree.

(** and no thread goes on after exit or abort, *)
Theorem C52_no_return {P F M} `{EqDecision P} T (MO : MemOps P F M) (m m' : Machine P F M) cs op :
  op = InExit \/ op = InAbort -> at_intrinsic m (m_active m') op -> step T MO cs m <> Ret m'.
Proof. exact (exit_no_step T MO cs m m' op). Qed.
Print Assumptions C52_no_return.

(** and the first thread does not end by returning. *)
Theorem C52_main {P F M} `{EqDecision P} T (MO : MemOps P F M) prog (m : Machine P F M) :
  reachable T MO prog m -> ~ terminated m 0%nat.
Proof. exact (main_running T MO prog m). Qed.
Print Assumptions C52_main.

Example C52_hyps :
  reachable x86_64 (BasicOps x86_64) ex_prog ex_m2 /\ enabled ex_m2 0 /\ at_intrinsic ex_m2 0 InExit /\
  step x86_64 (BasicOps x86_64) [ChThread 0] ex_m2 = Stop TMachineStop.
Proof.
  split; [exact (run_reachable _ _ _ _ _ _ (reachB _ _ _ _ _ _ ex_m0_new ex_m1_run) ex_m2_run)|].
  split; [reflexivity|]. split; [|exact ex_m2_exit].
  eexists _, _, _, _, _. split; [eexists _, _; split; [reflexivity|split; reflexivity]|split; reflexivity].
Qed.
