(** Concrete programs with locks, data races and unwinding, and some of their states. *)
From Verif Require Export ExMach MachSpec RaceSpec.

Definition u32_e (i : Z) : ValueExpr := EConstant (KInt i) (TInt u32_t).
Definition fn_e (n : N) : ValueExpr := EConstant (KFnPointer n) (TPtr PFnPtr).
Definition blk (st : list Statement) (tm : Terminator) : BasicBlock := mkBlock st tm BkRegular.
Definition intr (op : IntrinsicOp) (args : list ValueExpr) (ret : N) (next : N) : Terminator :=
  TmIntrinsic op args (PLocal ret) (Some next).

Notation B64 := (BasicOps x86_64).
Definition newB (prog : Program) (cs : list (Choice (nat * unit))) : MachB :=
  fst (out (m_dummyB, []) (machine_new x86_64 B64 prog cs)).
Definition runB (css : list (list (Choice (nat * unit)))) (m : MachB) : MachB := out m_dummyB (run x86_64 B64 css m).

Lemma run_reachable {P F M} `{EqDecision P} (T : Target) (MO : MemOps P F M) prog css m m' :
  reachable T MO prog m -> run T MO css m = Ret m' -> reachable T MO prog m'.
Proof.
  unfold run. revert m. induction css as [|cs css IH]; intros m Hr H; cbn in H.
  - by injection H as <-.
  - apply obind_ret in H as (m1 & H1 & H). apply (IH m1); [|done]. eapply reach_step; [done|]. by exists cs.
Qed.
Lemma reachB prog cs0 css m0 rest m : machine_new x86_64 B64 prog cs0 = Ret (m0, rest) ->
  run x86_64 B64 css m0 = Ret m -> reachable x86_64 B64 prog m.
Proof. intros H0 H. eapply run_reachable; [|exact H]. constructor. by exists cs0, rest. Qed.

(** ** Locks: the worker waits for the lock that the first thread holds *)

Definition lk_worker : Function :=
  mkFunction [(0%N, unit_ty); (1%N, TPtr (PRaw MKNone))] [1%N] 0%N CcC
    [(0%N, blk [] (intr (InLock LkAcquire) [u32_e 0] 0 1)); (1%N, blk [] (intr (InLock LkRelease) [u32_e 0] 0 2));
     (2%N, blk [] TmReturn)] 0%N.
Definition lk_start : Function :=
  mkFunction [(0%N, unit_ty); (1%N, TInt u32_t); (2%N, TInt u32_t)] [] 0%N CcC
    [(0%N, blk [SStorageLive 1; SStorageLive 2] (intr (InLock LkCreate) [] 2 1));
     (1%N, blk [] (intr InSpawn [fn_e 1; EAddrOf (PLocal 1) (PRaw MKNone)] 1 2));
     (2%N, blk [] (intr (InLock LkAcquire) [ELoad (PLocal 2)] 0 3));
     (3%N, blk [] (intr (InLock LkRelease) [ELoad (PLocal 2)] 0 4));
     (4%N, blk [] (intr InJoin [ELoad (PLocal 1)] 0 5));
     (5%N, blk [] (TmIntrinsic InExit [] (PLocal 0) None))] 0%N.
Definition lk_prog : Program := mkProgram [(0%N, lk_start); (1%N, lk_worker)] 0%N [] [] [].

Definition lk_m0 : MachB := Eval vm_compute in newB lk_prog [ChAddr 1; ChAddr 2; ChAddr 5].
Lemma lk_m0_new : machine_new x86_64 B64 lk_prog [ChAddr 1; ChAddr 2; ChAddr 5] = Ret (lk_m0, []).
Proof. vm_compute. reflexivity. Qed.
Definition lk_cs1 : list (list (Choice (nat * unit))) :=
  [[ChThread 0; ChAddr 8192]; [ChThread 0; ChAddr 8196]; [ChThread 0]; [ChThread 0; ChAddr 6; ChAddr 8208];
   [ChThread 0]; [ChThread 1]].
(** the worker waits *)
Definition lk_m1 : MachB := Eval vm_compute in runB lk_cs1 lk_m0.
Lemma lk_m1_run : run x86_64 B64 lk_cs1 lk_m0 = Ret lk_m1.
Proof. vm_compute. reflexivity. Qed.
Lemma lk_m1_reach : reachable x86_64 B64 lk_prog lk_m1.
Proof. exact (reachB _ _ _ _ _ _ lk_m0_new lk_m1_run). Qed.
(** the first thread has released the lock *)
Definition lk_m2 : MachB := Eval vm_compute in runB [[ChThread 0; ChThread 1]] lk_m1.
Lemma lk_m2_run : run x86_64 B64 [[ChThread 0; ChThread 1]] lk_m1 = Ret lk_m2.
Proof. vm_compute. reflexivity. Qed.
(** the first thread waits for the worker to end *)
Definition lk_m3 : MachB := Eval vm_compute in runB [[ChThread 0]; [ChThread 1]] lk_m2.
Lemma lk_m3_run : run x86_64 B64 [[ChThread 0]; [ChThread 1]] lk_m2 = Ret lk_m3.
Proof. vm_compute. reflexivity. Qed.
Lemma lk_m3_reach : reachable x86_64 B64 lk_prog lk_m3.
Proof. exact (run_reachable _ _ _ _ _ _ (run_reachable _ _ _ _ _ _ lk_m1_reach lk_m2_run) lk_m3_run). Qed.
(** the worker has ended *)
Definition lk_m4 : MachB := Eval vm_compute in runB [[ChThread 1]] lk_m3.
Lemma lk_m4_run : run x86_64 B64 [[ChThread 1]] lk_m3 = Ret lk_m4.
Proof. vm_compute. reflexivity. Qed.

(** ** A thread that acquires a lock twice *)

Definition self_start : Function :=
  mkFunction [(0%N, unit_ty); (1%N, TInt u32_t)] [] 0%N CcC
    [(0%N, blk [SStorageLive 1] (intr (InLock LkCreate) [] 1 1));
     (1%N, blk [] (intr (InLock LkAcquire) [ELoad (PLocal 1)] 0 2));
     (2%N, blk [] (intr (InLock LkAcquire) [ELoad (PLocal 1)] 0 3));
     (3%N, blk [] (TmIntrinsic InExit [] (PLocal 0) None))] 0%N.
Definition self_prog : Program := mkProgram [(0%N, self_start)] 0%N [] [] [].
Definition self_m0 : MachB := Eval vm_compute in newB self_prog [ChAddr 1; ChAddr 5].
Lemma self_m0_new : machine_new x86_64 B64 self_prog [ChAddr 1; ChAddr 5] = Ret (self_m0, []).
Proof. vm_compute. reflexivity. Qed.
Definition self_cs : list (list (Choice (nat * unit))) :=
  [[ChThread 0; ChAddr 8192]; [ChThread 0]; [ChThread 0]; [ChThread 0]].
Definition self_m1 : MachB := Eval vm_compute in runB self_cs self_m0.
Lemma self_m1_run : run x86_64 B64 self_cs self_m0 = Ret self_m1.
Proof. vm_compute. reflexivity. Qed.
Lemma self_m1_reach : reachable x86_64 B64 self_prog self_m1.
Proof. exact (reachB _ _ _ _ _ _ self_m0_new self_m1_run). Qed.

(** ** A data race: after starting the worker, the first thread writes a global that the worker reads *)

Definition g_place : PlaceExpr :=
  PDeref (EConstant (KGlobalPointer (mkReloc 0 0)) (TPtr (PRaw MKNone))) (TInt u32_t).
Definition race_worker : Function :=
  mkFunction [(0%N, unit_ty); (1%N, TPtr (PRaw MKNone)); (2%N, TInt u32_t)] [1%N] 0%N CcC
    [(0%N, blk [SStorageLive 2; SAssign (PLocal 2) (ELoad g_place)] TmReturn)] 0%N.
Definition race_start : Function :=
  mkFunction [(0%N, unit_ty); (1%N, TInt u32_t)] [] 0%N CcC
    [(0%N, blk [SStorageLive 1] (intr InSpawn [fn_e 1; EAddrOf (PLocal 1) (PRaw MKNone)] 1 1));
     (1%N, blk [SAssign g_place (u32_e 7)] (intr InJoin [ELoad (PLocal 1)] 0 2));
     (2%N, blk [] (TmIntrinsic InExit [] (PLocal 0) None))] 0%N.
Definition race_prog : Program :=
  mkProgram [(0%N, race_start); (1%N, race_worker)] 0%N
    [(0%N, mkGlobal (repeat (Some x07) 4) [] (mkAlign 2))] [] [].
Definition race_m0 : MachB := Eval vm_compute in newB race_prog [ChAddr 4096; ChAddr 1; ChAddr 2; ChAddr 5].
Lemma race_m0_new : machine_new x86_64 B64 race_prog [ChAddr 4096; ChAddr 1; ChAddr 2; ChAddr 5] = Ret (race_m0, []).
Proof. vm_compute. reflexivity. Qed.
Definition race_cs1 : list (list (Choice (nat * unit))) :=
  [[ChThread 0; ChAddr 8192]; [ChThread 0; ChAddr 6; ChAddr 8208]; [ChThread 1; ChAddr 8216]].
Definition race_m1 : MachB := Eval vm_compute in runB race_cs1 race_m0.
Lemma race_m1_run : run x86_64 B64 race_cs1 race_m0 = Ret race_m1.
Proof. vm_compute. reflexivity. Qed.
Lemma race_m1_reach : reachable x86_64 B64 race_prog race_m1.
Proof. exact (reachB _ _ _ _ _ _ race_m0_new race_m1_run). Qed.
(** the first thread writes *)
Definition race_m2 : MachB := Eval vm_compute in runB [[ChThread 0]] race_m1.
Lemma race_m2_step : step x86_64 B64 [ChThread 0] race_m1 = Ret race_m2.
Proof. vm_compute. reflexivity. Qed.
(** the worker reads *)
Definition race_m3 : MachB := Eval vm_compute in runB [[ChThread 1]] race_m2.
Lemma race_m3_step : step x86_64 B64 [ChThread 1] race_m2 = Ret race_m3.
Proof. vm_compute. reflexivity. Qed.
(** the other order: the worker reads and then the first thread writes *)
Definition race_m4 : MachB := Eval vm_compute in runB [[ChThread 1]] race_m1.
Lemma race_m4_step : step x86_64 B64 [ChThread 1] race_m1 = Ret race_m4.
Proof. vm_compute. reflexivity. Qed.
Definition race_m5 : MachB :=
  Eval vm_compute in runB [[ChThread 0]] (set_mem race_m4 (mkConc (cm_mem (m_mem race_m4)) [])).
Lemma race_m5_step :
  step x86_64 B64 [ChThread 0] (set_mem race_m4 (mkConc (cm_mem (m_mem race_m4)) [])) = Ret race_m5.
Proof. vm_compute. reflexivity. Qed.

(** ** Unwinding: [thrower] starts unwinding, its cleanup block resumes in the catch block of [start] *)

Definition uw_thrower : Function :=
  mkFunction [(0%N, unit_ty)] [] 0%N CcC
    [(0%N, blk [] (TmStartUnwind (EConstant (KPointerWithoutProvenance 8) (TPtr (PRaw MKNone))) 1%N));
     (1%N, mkBlock [] TmResumeUnwind BkCleanup)] 0%N.
Definition uw_start : Function :=
  mkFunction [(0%N, unit_ty)] [] 0%N CcC
    [(0%N, blk [] (TmCall (fn_e 1) CcC [] (PLocal 0) (Some 2%N) (Some 1%N)));
     (1%N, mkBlock [] (TmStopUnwind 2%N) BkCatch);
     (2%N, blk [] (TmIntrinsic InExit [] (PLocal 0) None))] 0%N.
Definition uw_prog : Program := mkProgram [(0%N, uw_start); (1%N, uw_thrower)] 0%N [] [] [].
Definition uw_m0 : MachB := Eval vm_compute in newB uw_prog [ChAddr 1; ChAddr 2; ChAddr 5].
Lemma uw_m0_new : machine_new x86_64 B64 uw_prog [ChAddr 1; ChAddr 2; ChAddr 5] = Ret (uw_m0, []).
Proof. vm_compute. reflexivity. Qed.
(** in the cleanup block of [thrower] *)
Definition uw_cs1 : list (list (Choice (nat * unit))) := [[ChThread 0; ChAddr 6]; [ChThread 0]].
Definition uw_m1 : MachB := Eval vm_compute in runB uw_cs1 uw_m0.
Lemma uw_m1_run : run x86_64 B64 uw_cs1 uw_m0 = Ret uw_m1.
Proof. vm_compute. reflexivity. Qed.
Lemma uw_m1_reach : reachable x86_64 B64 uw_prog uw_m1.
Proof. exact (reachB _ _ _ _ _ _ uw_m0_new uw_m1_run). Qed.
(** in the catch block of [start] *)
Definition uw_m2 : MachB := Eval vm_compute in runB [[ChThread 0]] uw_m1.
Lemma uw_m2_run : run x86_64 B64 [[ChThread 0]] uw_m1 = Ret uw_m2.
Proof. vm_compute. reflexivity. Qed.
Lemma uw_m2_reach : reachable x86_64 B64 uw_prog uw_m2.
Proof. exact (run_reachable _ _ _ _ _ _ uw_m1_reach uw_m2_run). Qed.
