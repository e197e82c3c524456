(** A concrete program and some of its machine states, used to show that the hypotheses of the
    theorems about the machine can be met. *)
From Verif Require Export Step ExMem ExRepr.

Definition out {A} (d : A) (o : Outcome A) : A := match o with Ret a => a | _ => d end.

(** run a machine, one list of choices per step *)
Definition run {P F M} `{EqDecision P} (T : Target) (MO : MemOps P F M)
    (css : list (list (Choice P))) (m : Machine P F M) : Outcome (Machine P F M) :=
  fold_m (fun m cs => step T MO cs m) css m.

(** fn inc(x: u32) -> u32 { x + 1 } *)
Definition ex_inc : Function :=
  mkFunction [(0%N, TInt u32_t); (1%N, TInt u32_t)] [1%N] 0%N CcC
    [(0%N, mkBlock [SAssign (PLocal 0) (EBinOp (BInt IAdd) (ELoad (PLocal 1))
                                          (EConstant (KInt 1) (TInt u32_t)))]
             TmReturn BkRegular)] 0%N.

(** fn worker(p: *const ()) {} *)
Definition ex_worker : Function :=
  mkFunction [(0%N, unit_ty); (1%N, TPtr (PRaw MKNone))] [1%N] 0%N CcC
    [(0%N, mkBlock [] TmReturn BkRegular)] 0%N.

(** fn start() { let x = inc(41); print(x); let t = spawn(worker, &raw x); join(t); exit() } *)
Definition ex_start : Function :=
  mkFunction [(0%N, unit_ty); (1%N, TInt u32_t); (2%N, TInt u32_t)] [] 0%N CcC
    [(0%N, mkBlock [SStorageLive 1; SStorageLive 2]
             (TmCall (EConstant (KFnPointer 1) (TPtr PFnPtr)) CcC
                [ByValue (EConstant (KInt 41) (TInt u32_t))] (PLocal 1) (Some 1%N) None) BkRegular);
     (1%N, mkBlock [SValidate (PLocal 1) false]
             (TmIntrinsic InPrintStdout [ELoad (PLocal 1)] (PLocal 0) (Some 2%N)) BkRegular);
     (2%N, mkBlock []
             (TmIntrinsic InSpawn [EConstant (KFnPointer 2) (TPtr PFnPtr);
                                   EAddrOf (PLocal 1) (PRaw MKNone)] (PLocal 2) (Some 3%N)) BkRegular);
     (3%N, mkBlock [] (TmIntrinsic InJoin [ELoad (PLocal 2)] (PLocal 0) (Some 4%N)) BkRegular);
     (4%N, mkBlock [SStorageDead 2] (TmIntrinsic InExit [] (PLocal 0) None) BkRegular)] 0%N.

(** a global of 16 bytes that points to itself *)
Definition ex_global : Global :=
  mkGlobal (repeat (Some x07) 8 ++ repeat None 8) [(8%N, mkReloc 0 4)] (mkAlign 3).

Definition ex_vtable : VTable := mkVTable 0 4 (mkAlign 2) [] [(0%N, 1%N)].

Definition ex_prog : Program :=
  mkProgram [(0%N, ex_start); (1%N, ex_inc); (2%N, ex_worker)] 0%N [(0%N, ex_global)]
    [(0%N, [0%N])] [(0%N, ex_vtable)].

Lemma ex_prog_wf : program_check_wf x86_64 ex_prog = Ret tt.
Proof. vm_compute. reflexivity. Qed.

(** the addresses of the global, the functions, the vtable and the return place of start *)
Definition ex_new_cs {P} : list (Choice P) :=
  [ChAddr 4096; ChAddr 1; ChAddr 2; ChAddr 3; ChAddr 4; ChAddr 5].

(** the choices of the first steps, up to the return of [inc] *)
Definition ex_run_cs {P} : list (list (Choice P)) :=
  [[ChThread 0; ChAddr 8192]; [ChThread 0; ChAddr 8196]; [ChThread 0; ChAddr 8200; ChAddr 8204];
   [ChThread 0]; [ChThread 0]].
(** the rest, up to the exit *)
Definition ex_run2_cs {P} : list (list (Choice P)) :=
  [[ChThread 0]; [ChThread 0]; [ChThread 0; ChAddr 6; ChAddr 8216]; [ChThread 0]; [ChThread 1];
   [ChThread 0]].

Definition MachB := Machine (nat * unit) unit (BMem unit unit).
Definition MachT := Machine TProv (list TProv) TMem.

Definition m_dummyB : MachB :=
  mkMachine ex_prog (cm_new (BasicOps x86_64)) ipc_new [] 0 [] [] [] [] [] "" "".
Definition m_dummyT : MachT :=
  mkMachine ex_prog (cm_new (TreeOps x86_64)) ipc_new [] 0 [] [] [] [] [] "" "".

Definition ex_m0 : MachB :=
  Eval vm_compute in fst (out (m_dummyB, []) (machine_new x86_64 (BasicOps x86_64) ex_prog ex_new_cs)).
Definition ex_m1 : MachB := Eval vm_compute in out m_dummyB (run x86_64 (BasicOps x86_64) ex_run_cs ex_m0).
Definition ex_m2 : MachB := Eval vm_compute in out m_dummyB (run x86_64 (BasicOps x86_64) ex_run2_cs ex_m1).

Lemma ex_m0_new : machine_new x86_64 (BasicOps x86_64) ex_prog ex_new_cs = Ret (ex_m0, []).
Proof. vm_compute. reflexivity. Qed.
Lemma ex_m1_run : run x86_64 (BasicOps x86_64) ex_run_cs ex_m0 = Ret ex_m1.
Proof. vm_compute. reflexivity. Qed.
Lemma ex_m2_run : run x86_64 (BasicOps x86_64) ex_run2_cs ex_m1 = Ret ex_m2.
Proof. vm_compute. reflexivity. Qed.
Lemma ex_m2_output : m_stdout ex_m2 = print_int 42.
Proof. vm_compute. reflexivity. Qed.
Lemma ex_m2_exit : step x86_64 (BasicOps x86_64) [ChThread 0] ex_m2 = Stop TMachineStop.
Proof. vm_compute. reflexivity. Qed.

Definition ex_t0 : MachT :=
  Eval vm_compute in fst (out (m_dummyT, []) (machine_new x86_64 (TreeOps x86_64) ex_prog ex_new_cs)).
Definition ex_t1 : MachT := Eval vm_compute in out m_dummyT (run x86_64 (TreeOps x86_64) ex_run_cs ex_t0).
Definition ex_t2 : MachT := Eval vm_compute in out m_dummyT (run x86_64 (TreeOps x86_64) ex_run2_cs ex_t1).
Lemma ex_t0_new : machine_new x86_64 (TreeOps x86_64) ex_prog ex_new_cs = Ret (ex_t0, []).
Proof. vm_compute. reflexivity. Qed.
Lemma ex_t1_run : run x86_64 (TreeOps x86_64) ex_run_cs ex_t0 = Ret ex_t1.
Proof. vm_compute. reflexivity. Qed.
Lemma ex_t2_run : run x86_64 (TreeOps x86_64) ex_run2_cs ex_t1 = Ret ex_t2.
Proof. vm_compute. reflexivity. Qed.
