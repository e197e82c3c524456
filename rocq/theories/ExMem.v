(** A concrete history, used to show that the hypotheses of the memory theorems can be met. *)
From Verif Require Export TreeLike IntPtrCast.

Definition c_x (b : byte) {P} : AByte P := Init b None.

(** allocate 8 bytes at 4096 and 2 bytes at 4104, write to both, read, free the second, reuse its
    address, overwrite part of the first *)
Definition ex_ops {PE F} (pe : PE) : list (MemOp (nat * PE) F) :=
  [ OpAllocate AHeap 8 (mkAlign 3) 4096;
    OpAllocate AStack 2 (mkAlign 0) 4104;
    OpStore (mkThin 4096 (Some (0%nat, pe))) [c_x x01; c_x x02; c_x x03; c_x x04] (mkAlign 2);
    OpStore (mkThin 4104 (Some (1%nat, pe))) [c_x x09; c_x x0a] (mkAlign 0);
    OpLoad (mkThin 4098 (Some (0%nat, pe))) 2 (mkAlign 1);
    OpDeallocate (mkThin 4104 (Some (1%nat, pe))) AStack 2 (mkAlign 0);
    OpAllocate AHeap 4 (mkAlign 2) 4104;
    OpStore (mkThin 4097 (Some (0%nat, pe))) [c_x xff] (mkAlign 0) ].

Definition ex_basic : BMem unit unit :=
  Eval vm_compute in match mem_run (BasicOps x86_64) [] (ex_ops tt) with Ret m => m | _ => [] end.
Definition ex_tree : TMem :=
  Eval vm_compute in match mem_run (TreeOps x86_64) [] (ex_ops []) with Ret m => m | _ => [] end.

Lemma ex_basic_run : mem_run (BasicOps x86_64) (mo_new (BasicOps x86_64)) (ex_ops tt) = Ret ex_basic.
Proof. vm_compute. reflexivity. Qed.
Lemma ex_tree_run : mem_run (TreeOps x86_64) (mo_new (TreeOps x86_64)) (ex_ops []) = Ret ex_tree.
Proof. vm_compute. reflexivity. Qed.
