(** Accepted programs that panic, and accepted programs that satisfy the conditions of C47 and C48. *)
From Verif Require Export ExSched StrictCheck.

(** run a program with the given choices; the last step panics *)
Definition panics {P F M} `{EqDecision P} (T : Target) (MO : MemOps P F M) (prog : Program)
    (cs0 : list (Choice P)) (css : list (list (Choice P))) (cs : list (Choice P)) : bool :=
  match program_check_wf T prog, machine_new T MO prog cs0 with
  | Ret _, Ret (m0, _) =>
      match run T MO css m0 with
      | Ret m => match step T MO cs m with Panic => true | _ => false end
      | _ => false
      end
  | _, _ => false
  end.
Lemma panics_ok {P F M} `{EqDecision P} T (MO : MemOps P F M) prog cs0 css cs : panics T MO prog cs0 css cs = true ->
  program_check_wf T prog = Ret tt /\ exists m, reachable T MO prog m /\ step T MO cs m = Panic.
Proof.
  unfold panics. destruct (program_check_wf T prog) as [[]| | |]; try done.
  destruct (machine_new T MO prog cs0) as [[m0 r]| | |] eqn:E0; try done. destruct (run T MO css m0) as [m| | |] eqn:E1; try done.
  destruct (step T MO cs m) eqn:E2; try done. intros _. split; [done|]. exists m. split; [|done].
  eapply run_reachable; [|exact E1]. constructor. by exists cs0, r.
Qed.

Definition u8t : IntType := mkIntTy Unsigned 1.
Definition i8t : IntType := mkIntTy Signed 1.
Definition usz : IntType := mkIntTy Unsigned 8.
Definition isz : IntType := mkIntTy Signed 8.
Definition raw : PtrType := PRaw MKNone.
Definition ref (s : N) (a : N) : PtrType := PRef Immutable (mkPointee (LSized s (mkAlign a)) true (CSized []) true true).
Definition int_e (it : IntType) (i : Z) : ValueExpr := EConstant (KInt i) (TInt it).
Definition main (locals : list (N * Ty)) (blocks : list (N * BasicBlock)) : Function :=
  mkFunction ((0%N, unit_ty) :: locals) [] 0%N CcC blocks 0%N.
Definition exit_blk : BasicBlock := blk [] (TmIntrinsic InExit [] (PLocal 0) None).
Definition one_fn (f : Function) : Program := mkProgram [(0%N, f)] 0%N [] [] [].

(** ** Programs that use what the check leaves open *)

(** let p: &u32 = 0 as *const u32 (a constant) *)
Definition null_prog : Program := one_fn (main [(1%N, TPtr (ref 4 2))]
  [(0%N, blk [SStorageLive 1; SAssign (PLocal 1) (EConstant (KPointerWithoutProvenance 0) (TPtr (ref 4 2)))] TmReturn)]).
Lemma null_panics : panics x86_64 B64 null_prog [ChAddr 1; ChAddr 5] [[ChThread 0; ChAddr 8192]] [ChThread 0] = true.
Proof. vm_compute. reflexivity. Qed.

(** static G: [u8; 4]; let p: &[u8; 8] = &G *)
Definition global_prog : Program := mkProgram [(0%N, main [(1%N, TPtr (ref 8 0))]
  [(0%N, blk [SStorageLive 1; SAssign (PLocal 1) (EConstant (KGlobalPointer (mkReloc 0 0)) (TPtr (ref 8 0)))] TmReturn)])] 0%N
  [(0%N, mkGlobal (repeat None 4) [] (mkAlign 0))] [] [].
Lemma global_panics : panics x86_64 B64 global_prog [ChAddr 4096; ChAddr 1; ChAddr 5] [[ChThread 0; ChAddr 8192]] [ChThread 0] = true.
Proof. vm_compute. reflexivity. Qed.

(** let p: &u32 = allocate(1, 1) *)
Definition alloc_prog : Program := one_fn (main [(1%N, TPtr (ref 4 2))]
  [(0%N, blk [SStorageLive 1] (intr InAllocate [int_e usz 1; int_e usz 1] 1 1)); (1%N, exit_blk)]).
Lemma alloc_panics : panics x86_64 B64 alloc_prog [ChAddr 1; ChAddr 5] [[ChThread 0; ChAddr 8192]] [ChThread 0; ChAddr 4096] = true.
Proof. vm_compute. reflexivity. Qed.

(** let p: *const () = with_exposed_provenance(2^64 : u128) *)
Definition expose_prog : Program := one_fn (main [(1%N, TPtr raw)]
  [(0%N, blk [SStorageLive 1] (intr InPointerWithExposedProvenance [int_e (mkIntTy Unsigned 16) (2 ^ 64)] 1 1)); (1%N, exit_blk)]).
Lemma expose_panics : panics x86_64 B64 expose_prog [ChAddr 1; ChAddr 5] [[ChThread 0; ChAddr 8192]] [ChThread 0; ChProv None] = true.
Proof. vm_compute. reflexivity. Qed.

(** the first block of the function does not exist *)
Definition entry_prog : Program := one_fn (mkFunction [(0%N, unit_ty)] [] 0%N CcC [(0%N, exit_blk)] 7%N).
Lemma entry_panics : panics x86_64 B64 entry_prog [ChAddr 1; ChAddr 5] [] [ChThread 0] = true.
Proof. vm_compute. reflexivity. Qed.

(** a vtable names a function that does not exist *)
Definition vtable_prog : Program := mkProgram [(0%N, main [(1%N, TPtr PFnPtr)]
  [(0%N, blk [SStorageLive 1; SAssign (PLocal 1) (EUnOp (UVTableMethodLookup 0) (EConstant (KVTablePointer 0) (TPtr (PVTablePtr 0))))] TmReturn)])] 0%N
  [] [(0%N, [0%N])] [(0%N, mkVTable 0 4 (mkAlign 2) [] [(0%N, 9%N)])].
Lemma vtable_panics : panics x86_64 B64 vtable_prog [ChAddr 1; ChAddr 2; ChAddr 5] [[ChThread 0; ChAddr 8192]] [ChThread 0] = true.
Proof. vm_compute. reflexivity. Qed.

(** transmute::<usize, U>, where U is a union that is declared to have size 8 and contents in bytes 4 to 12 *)
Definition transmute_prog : Program := one_fn (main []
  [(0%N, blk [SPlaceMention (PDeref (EUnOp (UCast (CTransmute (TPtr raw)))
     (EUnOp (UCast (CTransmute (TUnion [(0%N, TArray (TInt u8t) 8)] [(4%N, 8%N)] 8 (mkAlign 0)))) (int_e usz 0))) (TInt u32_t))] TmReturn)]).
Lemma transmute_panics : panics x86_64 B64 transmute_prog [ChAddr 1; ChAddr 5] [] [ChThread 0] = true.
Proof. vm_compute. reflexivity. Qed.

(** &x + 4, where x: u32 *)
Definition offset_prog : Program := one_fn (main [(1%N, TInt u32_t); (2%N, TPtr (ref 4 2))]
  [(0%N, blk [SStorageLive 1; SStorageLive 2;
     SAssign (PLocal 2) (EBinOp (BPtrOffset true) (EAddrOf (PLocal 1) (ref 4 2)) (int_e isz 4))] TmReturn)]).
Lemma offset_panics : panics x86_64 B64 offset_prog [ChAddr 1; ChAddr 5]
  [[ChThread 0; ChAddr 8192]; [ChThread 0; ChAddr 8200]] [ChThread 0] = true.
Proof. vm_compute. reflexivity. Qed.

(** ** Programs that satisfy the conditions, and panic for one of the causes *)

(** x = 255; atomic_fetch_add(&raw x, 1 : u8) *)
Definition fetch_prog : Program := one_fn (main [(1%N, TInt u8t); (2%N, TInt u8t)]
  [(0%N, blk [SStorageLive 1; SStorageLive 2; SAssign (PLocal 1) (int_e u8t 255)]
     (intr (InAtomicFetchAndOp IAdd) [EAddrOf (PLocal 1) raw; int_e u8t 1] 2 1)); (1%N, exit_blk)]).
Lemma fetch_panics : panics x86_64 B64 fetch_prog [ChAddr 1; ChAddr 5]
  [[ChThread 0; ChAddr 8192]; [ChThread 0; ChAddr 8200]; [ChThread 0]] [ChThread 0] = true.
Proof. vm_compute. reflexivity. Qed.
Lemma fetch_strict : strictb x86_64 fetch_prog = true.
Proof. vm_compute. reflexivity. Qed.

(** loop { l = create_lock() : i8 } *)
Definition locks_prog : Program := one_fn (main [(1%N, TInt i8t)]
  [(0%N, blk [SStorageLive 1] (TmGoto 1)); (1%N, blk [] (intr (InLock LkCreate) [] 1 1))]).
Lemma locks_panics : panics x86_64 B64 locks_prog [ChAddr 1; ChAddr 5]
  ([ChThread 0; ChAddr 8192] :: repeat [ChThread 0] 129) [ChThread 0] = true.
Proof. vm_compute. reflexivity. Qed.
Lemma locks_strict : strictb x86_64 locks_prog = true.
Proof. vm_compute. reflexivity. Qed.

(** fn f() -> &u32 { let x: u32; &x }; let p = f() *)
Definition escape_prog : Program := mkProgram
  [(0%N, main [(1%N, TPtr (ref 4 2))]
     [(0%N, blk [SStorageLive 1] (TmCall (fn_e 1) CcC [] (PLocal 1) (Some 1%N) None)); (1%N, exit_blk)]);
   (1%N, mkFunction [(0%N, TPtr (ref 4 2)); (1%N, TInt u32_t)] [] 0%N CcC
     [(0%N, blk [SStorageLive 1; SAssign (PLocal 0) (EAddrOf (PLocal 1) (ref 4 2))] TmReturn)] 0%N)] 0%N [] [] [].
Lemma escape_panics : panics x86_64 B64 escape_prog [ChAddr 1; ChAddr 2; ChAddr 5]
  [[ChThread 0; ChAddr 8192]; [ChThread 0; ChAddr 8200]; [ChThread 0; ChAddr 8208]; [ChThread 0]] [ChThread 0] = true.
Proof. vm_compute. reflexivity. Qed.
Lemma escape_strict : strictb x86_64 escape_prog = true.
Proof. vm_compute. reflexivity. Qed.

(** size_of_val of a slice of 2^63 elements of 4 bytes *)
Definition size_prog : Program := one_fn (main [(1%N, TInt usz)]
  [(0%N, blk [SStorageLive 1; SAssign (PLocal 1) (EUnOp (UComputeSize (TSlice (TInt u32_t))) (int_e usz (2 ^ 63)))] TmReturn)]).
Lemma size_panics : panics x86_64 B64 size_prog [ChAddr 1; ChAddr 5] [[ChThread 0; ChAddr 8192]] [ChThread 0] = true.
Proof. vm_compute. reflexivity. Qed.
Lemma size_strict : strictb x86_64 size_prog = true.
Proof. vm_compute. reflexivity. Qed.

(** &*((&raw x).wrapping_sub(4) as *const ()), with Tree Borrows *)
Definition empty_prog : Program := one_fn (main [(1%N, TInt u32_t); (2%N, TPtr (ref 0 0))]
  [(0%N, blk [SStorageLive 1; SStorageLive 2;
     SAssign (PLocal 2) (EAddrOf (PDeref (EBinOp (BPtrOffset false) (EAddrOf (PLocal 1) raw) (int_e isz (-4))) unit_ty) (ref 0 0))] TmReturn)]).
Lemma empty_panics : panics x86_64 (TreeOps x86_64) empty_prog [ChAddr 1; ChAddr 5]
  [[ChThread 0; ChAddr 8192]; [ChThread 0; ChAddr 8200]] [ChThread 0] = true.
Proof. vm_compute. reflexivity. Qed.
Lemma empty_strict : strictb x86_64 empty_prog = true.
Proof. vm_compute. reflexivity. Qed.

(** ** Programs that satisfy the conditions *)

Lemma ex_prog_strict : strictb x86_64 ex_prog = true.
Proof. vm_compute. reflexivity. Qed.
Lemma ex_prog_simple : simpleb x86_64 ex_prog = true.
Proof. vm_compute. reflexivity. Qed.
Lemma ex_prog_refs : no_empty_refsb x86_64 ex_prog = true.
Proof. vm_compute. reflexivity. Qed.

(** [inc] is about to compute x + 1 *)
Definition ex_c : MachB := Eval vm_compute in runB (take 3 ex_run_cs) ex_m0.
Lemma ex_c_run : run x86_64 B64 (take 3 ex_run_cs) ex_m0 = Ret ex_c.
Proof. vm_compute. reflexivity. Qed.
Lemma ex_c_reach : reachable x86_64 B64 ex_prog ex_c.
Proof. exact (reachB _ _ _ _ _ _ ex_m0_new ex_c_run). Qed.
Definition ex_pair : Ty := TTuple [(0%N, TInt u32_t); (8%N, TPtr (ref 4 2))] (mkHead 16 (mkAlign 3) None) None.

(** the states before the panics of [null_prog] and [size_prog] *)
Definition null_m : MachB := Eval vm_compute in newB null_prog [ChAddr 1; ChAddr 5].
Lemma null_reach : reachable x86_64 B64 null_prog null_m.
Proof. constructor. exists [ChAddr 1; ChAddr 5], []. vm_compute. reflexivity. Qed.
Definition size_m : MachB := Eval vm_compute in newB size_prog [ChAddr 1; ChAddr 5].
Lemma size_reach : reachable x86_64 B64 size_prog size_m.
Proof. constructor. exists [ChAddr 1; ChAddr 5], []. vm_compute. reflexivity. Qed.
