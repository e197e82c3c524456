(** Concrete Tree Borrows histories, used to show that the hypotheses of the theorems can be met. *)
From Verif Require Export TreeMask TreeRefine ExMem.

Definition out {A} (d : A) (o : Outcome A) : A := match o with Ret a => a | _ => d end.

(** a sized pointee of 4 bytes, and one whose second half is an UnsafeCell *)
Definition ex_pi : PointeeInfo := mkPointee (LSized 4 (mkAlign 2)) true (CSized []) true true.
Definition ex_pi_cell : PointeeInfo := mkPointee (LSized 4 (mkAlign 2)) true (CSized [(2%N, 2%N)]) false true.
Definition no_vtables : ThinPtr TProv -> Outcome VTable := fun _ => Panic.
Lemma no_vtables_ok : vtables_ok no_vtables.
Proof. done. Qed.

Definition ex_root : ThinPtr TProv := mkThin 4096 (Some (0%nat, [])).
Definition ex_child : ThinPtr TProv := mkThin 4096 (Some (0%nat, [0%nat])).
Definition four (b : byte) : list (AByte TProv) := [c_x b; c_x b; c_x b; c_x b].
Notation TX := (TreeOps x86_64).

(** 8 bytes, initialised *)
Definition ex_ops0 : list (MemOp TProv TFrame) :=
  [ OpAllocate AHeap 8 (mkAlign 3) 4096; OpStore ex_root (four x01 ++ four x02) (mkAlign 0) ].
Definition ex_m0 : TMem := Eval vm_compute in out [] (mem_run TX [] ex_ops0).
Lemma ex_m0_run : mem_run TX (mo_new TX) ex_ops0 = Ret ex_m0.
Proof. vm_compute. reflexivity. Qed.

(** a mutable reference to the first half, retagged on entry to a call *)
Definition ex_m1 : TMem :=
  Eval vm_compute in out [] (let! '(_, m, _) := mo_retag TX ex_m0 [] (mkPtr ex_root None) (PRef Mutable ex_pi) true no_vtables in Ret m).
Lemma ex_m1_ret : mo_retag TX ex_m0 [] (mkPtr ex_root None) (PRef Mutable ex_pi) true no_vtables
  = Ret (mkPtr ex_child None, ex_m1, [(0%nat, [0%nat])]).
Proof. vm_compute. reflexivity. Qed.
(** it is written *)
Definition ex_m2 : TMem := Eval vm_compute in out [] (mo_store TX ex_m1 ex_child [c_x x05] (mkAlign 0)).
Lemma ex_m2_ret : mo_store TX ex_m1 ex_child [c_x x05] (mkAlign 0) = Ret ex_m2.
Proof. vm_compute. reflexivity. Qed.
(** more accesses: to the other half through the root, and through the reference *)
Definition ex_ops1 : list (MemOp TProv TFrame) :=
  [ OpStore (mkThin 4100 (Some (0%nat, []))) (four x07) (mkAlign 2); OpLoad ex_child 2 (mkAlign 0) ].
Definition ex_m3 : TMem := Eval vm_compute in out [] (mem_run TX ex_m2 ex_ops1).
Lemma ex_m3_run : mem_run TX ex_m2 ex_ops1 = Ret ex_m3.
Proof. vm_compute. reflexivity. Qed.

(** a shared reference to the first half, whose last two bytes are a cell *)
Definition ex_s1 : TMem :=
  Eval vm_compute in out [] (let! '(_, m, _) := mo_retag TX ex_m0 [] (mkPtr ex_root None) (PRef Immutable ex_pi_cell) true no_vtables in Ret m).
Lemma ex_s1_ret : mo_retag TX ex_m0 [] (mkPtr ex_root None) (PRef Immutable ex_pi_cell) true no_vtables
  = Ret (mkPtr ex_child None, ex_s1, [(0%nat, [0%nat])]).
Proof. vm_compute. reflexivity. Qed.
(** reads through both, and a write to the cell *)
Definition ex_ops2 : list (MemOp TProv TFrame) :=
  [ OpLoad ex_child 4 (mkAlign 2); OpLoad ex_root 8 (mkAlign 3);
    OpStore (mkThin 4098 (Some (0%nat, []))) [c_x x08] (mkAlign 0) ].
Definition ex_s2 : TMem := Eval vm_compute in out [] (mem_run TX ex_s1 ex_ops2).
Lemma ex_s2_run : mem_run TX ex_s1 ex_ops2 = Ret ex_s2.
Proof. vm_compute. reflexivity. Qed.

(** without protector: a mutable reference that is written, then invalidated by a write to the root *)
Definition ex_ops3 : list (MemOp TProv TFrame) :=
  ex_ops0 ++ [ OpRetag [] (mkPtr ex_root None) (PRef Mutable ex_pi) false no_vtables;
    OpStore ex_child [c_x x05] (mkAlign 0) ].
Definition ex_u1 : TMem := Eval vm_compute in out [] (mem_run TX [] ex_ops3).
Lemma ex_u1_run : mem_run TX (mo_new TX) ex_ops3 = Ret ex_u1.
Proof. vm_compute. reflexivity. Qed.
Definition ex_u2 : TMem := Eval vm_compute in out [] (mo_store TX ex_u1 ex_root (four x03) (mkAlign 0)).
Lemma ex_u2_ret : mo_store TX ex_u1 ex_root (four x03) (mkAlign 0) = Ret ex_u2.
Proof. vm_compute. reflexivity. Qed.
Definition ex_u3 : TMem := Eval vm_compute in out [] (let! '(_, m) := mo_load TX ex_u1 ex_root 1 (mkAlign 0) in Ret m).
Lemma ex_u3_ret : mo_load TX ex_u1 ex_root 1 (mkAlign 0) = Ret ([c_x x05], ex_u3).
Proof. vm_compute. reflexivity. Qed.
