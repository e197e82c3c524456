(** Concrete functions made with the builder: loops, branches, calls and unwinding. *)
From Verif Require Export BuildSpec PlanSpec ExData.

Definition bd_x : PlaceExpr := PLocal 0.
Definition bd_lt (i : Z) : ValueExpr := EBinOp (BRel RLt) (ELoad bd_x) (u32_e i).
Definition bd_inc : Statement := SAssign bd_x (EBinOp (BInt IAdd) (ELoad bd_x) (u32_e 1)).
Definition bd_payload : ValueExpr := EConstant (KPointerWithoutProvenance 1) b_raw_void_ptr_ty.
Definition bd_seq : list Cmd -> Cmd := fold_right CmSeq CmSkip.
(** fn thrower(n: u32) { if n < 2 { return } throw with a handler that goes on unwinding } *)
Definition bd_thrower_header : Header := mkHeader [TInt u32_t] None CcC.
Definition bd_thrower_body : Cmd := bd_seq
  [CmIf (bd_lt 2) (CmEnd EnReturn) CmSkip;
   CmThrow bd_payload HkCleanup (CmEnd EnResume)].
(** fn main() {
      let x = 0;
      while x < 2 { x = x + 1; call thrower(x), and if it unwinds: exit }
      switch x { 2 => unreachable, _ => exit }
    } *)
Definition bd_main_header : Header := mkHeader [] None CcC.
Definition bd_main_body : Cmd := bd_seq
  [CmLocal (TInt u32_t); CmStmt (SStorageLive 0); CmStmt (SAssign bd_x (u32_e 0));
   CmWhile (b_not (b_not (bd_lt 2))) (bd_seq
     [CmStmt bd_inc; CmTry (fn_e 1) CcC [ByValue (ELoad bd_x)] b_unit_place HkCatch (CmEnd EnExit)]);
   CmSwitch (ELoad bd_x) [(2, CmEnd EnUnreachable)] (CmEnd EnExit)].

Definition dummy_fn : Function := mkFunction [] [] 0%N CcC [] 0%N.
Definition bd_thrower : Function := Eval vm_compute in out dummy_fn (build_function 1 bd_thrower_header bd_thrower_body).
Definition bd_main : Function := Eval vm_compute in out dummy_fn (build_function 0 bd_main_header bd_main_body).
Lemma bd_thrower_built : build_function 1 bd_thrower_header bd_thrower_body = Ret bd_thrower.
Proof. vm_compute. reflexivity. Qed.
Lemma bd_main_built : build_function 0 bd_main_header bd_main_body = Ret bd_main.
Proof. vm_compute. reflexivity. Qed.

Definition bd_prog : Program := mkProgram [(0%N, bd_main); (1%N, bd_thrower)] 0%N [] [] [].
Lemma bd_prog_built : built_program bd_prog.
Proof.
  intros n func H. destruct (decide (n = 0%N)) as [->|H0].
  - injection H as <-. exists bd_main_body, 0%N, bd_main_header. exact bd_main_built.
  - destruct (decide (n = 1%N)) as [->|H1].
    + injection H as <-. exists bd_thrower_body, 1%N, bd_thrower_header. exact bd_thrower_built.
    + exfalso. unfold bd_prog, map_get in H. cbn [pr_functions find fst snd] in H. rewrite !bool_decide_eq_false_2 in H by done. done.
Qed.
Lemma bd_prog_wf : program_check_wf x86_64 bd_prog = Ret tt.
Proof. vm_compute. reflexivity. Qed.

Definition bd_m0 : MachB := Eval vm_compute in newB bd_prog [ChAddr 1; ChAddr 2; ChAddr 5].
Lemma bd_m0_new : machine_new x86_64 B64 bd_prog [ChAddr 1; ChAddr 2; ChAddr 5] = Ret (bd_m0, []).
Proof. vm_compute. reflexivity. Qed.

(** the state after [k] steps: storage for x at 8192, and for the variables of the two calls *)
Definition bd_cs : list (list (Choice (nat * unit))) :=
  [ChThread 0; ChAddr 8192] :: repeat [ChThread 0; ChAddr 8196; ChAddr 8200] 18.
Definition bd_at (k : nat) : MachB := runB (take k bd_cs) bd_m0.
