(** The properties of memory (C17-C24, C26), for the basic memory and for Tree Borrows. Only the
    statements are here; the proofs are in the files imported. [mem_run], [last_store], [allocs_fit],
    [ranges_apart], [access_ok], [prov_known] and [dealloc_ok] are defined in MemSpec.v. *)
From Verif Require Import ExMem.

(** C17. After any history of memory operations the live allocations do not overlap, and every
    allocation is non-null, aligned and inside the address space. *)
Theorem C17_allocations_disjoint T ops m :
  target_ok T -> mem_run (BasicOps T) (mo_new (BasicOps T)) ops = Ret m -> allocs_fit T m.
Proof. exact (run_allocs_fit T _ m ops (basic_like T)). Qed.
Print Assumptions C17_allocations_disjoint.

Theorem C17_allocations_disjoint_tree T ops m :
  target_ok T -> mem_run (TreeOps T) (mo_new (TreeOps T)) ops = Ret m -> allocs_fit T m.
Proof. exact (run_allocs_fit T _ m ops (tree_like T)). Qed.
Print Assumptions C17_allocations_disjoint_tree.

(** the history below reuses an address and has two live allocations *)
Example C17_hyps :
  target_ok x86_64 /\
  mem_run (BasicOps x86_64) (mo_new (BasicOps x86_64)) (ex_ops tt) = Ret ex_basic /\
  mem_run (TreeOps x86_64) (mo_new (TreeOps x86_64)) (ex_ops []) = Ret ex_tree /\
  List.map al_live ex_basic = [true; false; true] /\ List.map al_addr ex_basic = [4096; 4104; 4104].
Proof. exact (conj x86_64_ok (conj ex_basic_run (conj ex_tree_run (conj eq_refl eq_refl)))). Qed.

(** C18. A load returns, byte by byte, what the latest store of the history to that address of that
    allocation wrote, or Uninit. *)
Theorem C18_load_returns_last_store T ops m m' ptr id pe len align bs i :
  mem_run (BasicOps T) (mo_new (BasicOps T)) ops = Ret m ->
  mo_load (BasicOps T) m ptr len align = Ret (bs, m') -> tp_prov ptr = Some (id, pe) ->
  (i < N.to_nat len)%nat ->
  bs !! i = Some (last_store ops id (tp_addr ptr + Z.of_nat i) Uninit).
Proof. exact (load_last_store T _ m m' ops ptr id pe len align bs i (basic_like T)). Qed.
Print Assumptions C18_load_returns_last_store.

Theorem C18_load_returns_last_store_tree T ops m m' ptr id pe len align bs i :
  mem_run (TreeOps T) (mo_new (TreeOps T)) ops = Ret m ->
  mo_load (TreeOps T) m ptr len align = Ret (bs, m') -> tp_prov ptr = Some (id, pe) ->
  (i < N.to_nat len)%nat ->
  bs !! i = Some (last_store ops id (tp_addr ptr + Z.of_nat i) Uninit).
Proof. exact (load_last_store T _ m m' ops ptr id pe len align bs i (tree_like T)). Qed.
Print Assumptions C18_load_returns_last_store_tree.

(** A load also has the length asked for. *)
Theorem C18_load_length T m m' ptr len align bs :
  mo_load (TreeOps T) m ptr len align = Ret (bs, m') -> N.of_nat (length bs) = len.
Proof.
  intros (_ & [(-> & -> & _)|(_ & id & pe & off & a & ae & _ & _ & _ & _ & _ & _ & Hs & _)])%bm_load_ret.
  - reflexivity.
  - exact (subslice_length _ _ _ _ Hs).
Qed.
Print Assumptions C18_load_length.

Example C18_hyps : exists m',
  mem_run (BasicOps x86_64) (mo_new (BasicOps x86_64)) (ex_ops tt) = Ret ex_basic /\
  mo_load (BasicOps x86_64) ex_basic (mkThin 4096 (Some (0%nat, tt))) 5 (mkAlign 0)
    = Ret ([c_x x01; c_x xff; c_x x03; c_x x04; Uninit], m').
Proof. eexists. exact (conj ex_basic_run eq_refl). Qed.

(** C19. A store changes the bytes of the stored range and nothing else. *)
Definition store_changes_only {PE AE} (m m' : BMem PE AE) (ptr : ThinPtr (nat * PE))
    (bytes : list (AByte (nat * PE))) : Prop :=
  length m' = length m /\
  forall id a, m !! id = Some a -> exists a', m' !! id = Some a' /\
    al_addr a' = al_addr a /\ al_size a' = al_size a /\ al_align a' = al_align a /\
    al_kind a' = al_kind a /\ al_live a' = al_live a /\
    (forall i, (forall pe, tp_prov ptr <> Some (id, pe)) \/
               al_addr a + Z.of_nat i < tp_addr ptr \/
               tp_addr ptr + Z.of_nat (length bytes) <= al_addr a + Z.of_nat i ->
       al_data a' !! i = al_data a !! i) /\
    (forall i pe, tp_prov ptr = Some (id, pe) -> (i < length bytes)%nat ->
       al_data a' !! Z.to_nat (tp_addr ptr + Z.of_nat i - al_addr a) = bytes !! i).

Theorem C19_store_frame T m m' ptr bytes align :
  mo_store (BasicOps T) m ptr bytes align = Ret m' -> store_changes_only m m' ptr bytes.
Proof. exact (store_frame T _ m m' ptr bytes align (basic_like T)). Qed.
Print Assumptions C19_store_frame.

Theorem C19_store_frame_tree T m m' ptr bytes align :
  mo_store (TreeOps T) m ptr bytes align = Ret m' -> store_changes_only m m' ptr bytes.
Proof. exact (store_frame T _ m m' ptr bytes align (tree_like T)). Qed.
Print Assumptions C19_store_frame_tree.

Example C19_hyps : exists m',
  mo_store (TreeOps x86_64) ex_tree (mkThin 4100 (Some (0%nat, []))) [c_x x07; Uninit] (mkAlign 2) = Ret m' /\
  (3 = length ex_tree)%nat.
Proof. eexists. split; [vm_compute; reflexivity|reflexivity]. Qed.

(** C20. A non-empty access through a pointer this memory issued succeeds exactly if it is aligned
    and inside a live allocation the pointer has provenance for, and is undefined behaviour
    otherwise. *)
Theorem C20_load_ub_exactly T (m : BMem unit unit) ptr len align :
  len <> 0%N -> prov_known m ptr ->
  let ok := tp_addr ptr mod Z.of_N (align_bytes align) = 0 /\ access_ok m ptr len in
  (ok <-> exists r, mo_load (BasicOps T) m ptr len align = Ret r) /\
  (~ ok <-> is_ub (mo_load (BasicOps T) m ptr len align)).
Proof. exact (basic_load_exact T m ptr len align). Qed.
Print Assumptions C20_load_ub_exactly.

Theorem C20_store_ub_exactly T (m : BMem unit unit) ptr bytes align :
  bytes <> [] -> prov_known m ptr ->
  let ok := tp_addr ptr mod Z.of_N (align_bytes align) = 0 /\ access_ok m ptr (N.of_nat (length bytes)) in
  (ok <-> exists r, mo_store (BasicOps T) m ptr bytes align = Ret r) /\
  (~ ok <-> is_ub (mo_store (BasicOps T) m ptr bytes align)).
Proof. exact (basic_store_exact T m ptr bytes align). Qed.
Print Assumptions C20_store_ub_exactly.

Theorem C20_deref_ub_exactly T (m : BMem unit unit) ptr len :
  len <> 0%N -> prov_known m ptr ->
  (access_ok m ptr len <-> exists r, mo_deref (BasicOps T) m ptr len = Ret r) /\
  (~ access_ok m ptr len <-> is_ub (mo_deref (BasicOps T) m ptr len)).
Proof. exact (deref_exact T _ m ptr len (basic_like T)). Qed.
Print Assumptions C20_deref_ub_exactly.

(** Under Tree Borrows more is undefined behaviour, but never less. *)
Theorem C20_bad_access_ub_tree T (m : TMem) ptr align :
  prov_known m ptr ->
  (forall len, len <> 0%N ->
     ~ (tp_addr ptr mod Z.of_N (align_bytes align) = 0 /\ access_ok m ptr len) ->
     is_ub (mo_load (TreeOps T) m ptr len align)) /\
  (forall bytes, bytes <> [] ->
     ~ (tp_addr ptr mod Z.of_N (align_bytes align) = 0 /\ access_ok m ptr (N.of_nat (length bytes))) ->
     is_ub (mo_store (TreeOps T) m ptr bytes align)).
Proof. exact (bad_access_ub T _ m ptr align (tree_like T)). Qed.
Print Assumptions C20_bad_access_ub_tree.

(** both a valid and an invalid access exist in the example memory *)
Example C20_hyps :
  prov_known ex_basic (mkThin 4103 (Some (0%nat, tt))) /\
  access_ok ex_basic (mkThin 4103 (Some (0%nat, tt))) 1 /\
  is_ub (mo_load (BasicOps x86_64) ex_basic (mkThin 4103 (Some (0%nat, tt))) 2 (mkAlign 0)).
Proof.
  split; [intros id pe [= <- <-]; vm_compute; lia|]. split.
  - exists 0%nat, tt. eexists. repeat split; vm_compute; congruence.
  - eexists. vm_compute. reflexivity.
Qed.

(** C21. Deallocation succeeds exactly with the right pointer, kind, size and alignment, and is
    undefined behaviour otherwise. *)
Theorem C21_dealloc_exact T (m : BMem unit unit) ptr kind size align :
  prov_known m ptr ->
  (dealloc_ok m ptr kind size align <->
     exists r, mo_deallocate (BasicOps T) m ptr kind size align = Ret r) /\
  (~ dealloc_ok m ptr kind size align <-> is_ub (mo_deallocate (BasicOps T) m ptr kind size align)).
Proof. exact (basic_dealloc_exact T m ptr kind size align). Qed.
Print Assumptions C21_dealloc_exact.

(** After a deallocation and any further history, every use of a pointer to that allocation is
    undefined behaviour. *)
Definition pointers_dead {P F M} (MO : MemOps P F M) (m : M) (p : ThinPtr P) : Prop :=
  (forall k s a, is_ub (mo_deallocate MO m p k s a)) /\
  (forall len a, len <> 0%N -> is_ub (mo_load MO m p len a)) /\
  (forall len, len <> 0%N -> is_ub (mo_deref MO m p len)) /\
  (forall bytes a, bytes <> [] -> is_ub (mo_store MO m p bytes a)).

Theorem C21_dealloc_final T m m1 m2 ptr kind size align ops :
  mo_deallocate (BasicOps T) m ptr kind size align = Ret m1 -> mem_run (BasicOps T) m1 ops = Ret m2 ->
  forall p id pe pe', tp_prov ptr = Some (id, pe) -> tp_prov p = Some (id, pe') ->
    pointers_dead (BasicOps T) m2 p.
Proof. exact (dealloc_final T _ m m1 m2 ptr kind size align ops (basic_like T)). Qed.
Print Assumptions C21_dealloc_final.

Theorem C21_dealloc_final_tree T m m1 m2 ptr kind size align ops :
  mo_deallocate (TreeOps T) m ptr kind size align = Ret m1 -> mem_run (TreeOps T) m1 ops = Ret m2 ->
  forall p id pe pe', tp_prov ptr = Some (id, pe) -> tp_prov p = Some (id, pe') ->
    pointers_dead (TreeOps T) m2 p.
Proof. exact (dealloc_final T _ m m1 m2 ptr kind size align ops (tree_like T)). Qed.
Print Assumptions C21_dealloc_final_tree.

Example C21_hyps : exists m1 m2,
  mo_deallocate (TreeOps x86_64) ex_tree (mkThin 4096 (Some (0%nat, []))) AHeap 8 (mkAlign 3) = Ret m1 /\
  mem_run (TreeOps x86_64) m1 [OpAllocate AStack 8 (mkAlign 3) 4096] = Ret m2.
Proof. eexists _, _. split; [vm_compute; reflexivity|vm_compute; reflexivity]. Qed.

(** C22. Zero-sized accesses need nothing but alignment, and change nothing. *)
Theorem C22_zero_sized T m ptr align :
  (tp_addr ptr mod Z.of_N (align_bytes align) = 0 ->
     mo_load (BasicOps T) m ptr 0 align = Ret ([], m) /\ mo_store (BasicOps T) m ptr [] align = Ret m) /\
  (tp_addr ptr mod Z.of_N (align_bytes align) <> 0 ->
     is_ub (mo_load (BasicOps T) m ptr 0 align) /\ is_ub (mo_store (BasicOps T) m ptr [] align)) /\
  mo_deref (BasicOps T) m ptr 0 = Ret tt.
Proof. exact (zero_sized T _ m ptr align (basic_like T)). Qed.
Print Assumptions C22_zero_sized.

Theorem C22_zero_sized_tree T m ptr align :
  (tp_addr ptr mod Z.of_N (align_bytes align) = 0 ->
     mo_load (TreeOps T) m ptr 0 align = Ret ([], m) /\ mo_store (TreeOps T) m ptr [] align = Ret m) /\
  (tp_addr ptr mod Z.of_N (align_bytes align) <> 0 ->
     is_ub (mo_load (TreeOps T) m ptr 0 align) /\ is_ub (mo_store (TreeOps T) m ptr [] align)) /\
  mo_deref (TreeOps T) m ptr 0 = Ret tt.
Proof. exact (zero_sized T _ m ptr align (tree_like T)). Qed.
Print Assumptions C22_zero_sized_tree.

(** C23. The leak check fails exactly if a heap allocation is live. *)
Theorem C23_leak_check T (m : BMem unit unit) :
  let leaked := exists i a, m !! i = Some a /\ al_live a = true /\ al_kind a = AHeap in
  (leaked <-> mo_leak_check (BasicOps T) m = Stop TMemoryLeak) /\
  (~ leaked <-> mo_leak_check (BasicOps T) m = Ret tt).
Proof. exact (leak_exact T _ m (basic_like T)). Qed.
Print Assumptions C23_leak_check.

Theorem C23_leak_check_tree T (m : TMem) :
  let leaked := exists i a, m !! i = Some a /\ al_live a = true /\ al_kind a = AHeap in
  (leaked <-> mo_leak_check (TreeOps T) m = Stop TMemoryLeak) /\
  (~ leaked <-> mo_leak_check (TreeOps T) m = Ret tt).
Proof. exact (leak_exact T _ m (tree_like T)). Qed.
Print Assumptions C23_leak_check_tree.

Example C23_hyps :
  mo_leak_check (BasicOps x86_64) ex_basic = Stop TMemoryLeak /\
  mo_leak_check (BasicOps x86_64) (take 2 (drop 1 ex_basic) ++ []) = Stop TMemoryLeak /\
  mo_leak_check (BasicOps x86_64) (take 1 (drop 1 ex_basic)) = Ret tt.
Proof. repeat split; vm_compute; reflexivity. Qed.

(** C24. Allocation: undefined behaviour for sizes the target rejects; otherwise an address is a
    possible result exactly if it is legal; the new memory is uninitialised and the old memory
    unchanged. *)
Definition legal_address {PE AE} (T : Target) (m : BMem PE AE) (size : Size) (align : Align) (addr : Address) : Prop :=
  0 < addr /\ addr mod Z.of_N (align_bytes align) = 0 /\
  addr + Z.of_N size < 2 ^ (8 * Z.of_N (PTR_SIZE T)) /\
  forall i a, m !! i = Some a -> al_live a = true ->
    al_addr a <> addr /\ ranges_apart (al_addr a) (al_size a) addr size.

Definition allocates {PE AE F} (T : Target) (MO : MemOps (nat * PE) F (BMem PE AE)) (m : BMem PE AE) kind size align addr : Prop :=
  let small := valid_size T size = true in
  (~ small -> is_ub (mo_allocate MO m kind size align addr)) /\
  (small -> legal_address T m size align addr ->
     exists p m', mo_allocate MO m kind size align addr = Ret (p, m')) /\
  (small -> ~ legal_address T m size align addr -> mo_allocate MO m kind size align addr = NoBehavior) /\
  (forall p m', mo_allocate MO m kind size align addr = Ret (p, m') ->
     small /\ legal_address T m size align addr /\ tp_addr p = addr /\
     (exists pe, tp_prov p = Some (length m, pe)) /\
     exists a, m' = m ++ [a] /\ al_addr a = addr /\ al_size a = size /\ al_align a = align /\
       al_kind a = kind /\ al_live a = true /\ Forall (fun b => b = Uninit) (al_data a)).

Theorem C24_allocate T (m : BMem unit unit) kind size align addr :
  target_ok T -> allocates T (BasicOps T) m kind size align addr.
Proof. exact (allocate_exact T _ m kind size align addr (basic_like T)). Qed.
Print Assumptions C24_allocate.

Theorem C24_allocate_tree T (m : TMem) kind size align addr :
  target_ok T -> allocates T (TreeOps T) m kind size align addr.
Proof. exact (allocate_exact T _ m kind size align addr (tree_like T)). Qed.
Print Assumptions C24_allocate_tree.

(** in the example memory 4112 is legal for 8 bytes and 4100 is not *)
Example C24_hyps : exists p m',
  mo_allocate (TreeOps x86_64) ex_tree AStack 8 (mkAlign 3) 4112 = Ret (p, m') /\
  mo_allocate (TreeOps x86_64) ex_tree AStack 4 (mkAlign 2) 4100 = NoBehavior /\
  is_ub (mo_allocate (TreeOps x86_64) ex_tree AStack (2 ^ 63)%N (mkAlign 0) 1).
Proof. eexists _, _. split; [vm_compute; reflexivity|]. split; [vm_compute; reflexivity|]. eexists. reflexivity. Qed.

(** C26. Casting an integer to a pointer yields the integer as address, and no provenance or one of
    a pointer exposed before; every such choice is possible. *)
Theorem C26_int_to_pointer {P} `{EqDecision P} (exposed : list (ThinPtr P)) addr prov :
  let legal := prov = None \/ exists q, In q exposed /\ tp_prov q = prov in
  let state := fold_left ipc_expose exposed ipc_new in
  (legal -> ipc_int2ptr state addr prov = Ret (mkThin addr prov)) /\
  (~ legal -> ipc_int2ptr state addr prov = NoBehavior).
Proof. exact (int2ptr_exact exposed addr prov). Qed.
Print Assumptions C26_int_to_pointer.

(** Exposing never forgets. *)
Theorem C26_expose_keeps {P} `{EqDecision P} (exposed later : list (ThinPtr P)) addr prov p :
  ipc_int2ptr (fold_left ipc_expose exposed ipc_new) addr prov = Ret p ->
  ipc_int2ptr (fold_left ipc_expose (exposed ++ later) ipc_new) addr prov = Ret p.
Proof.
  intros H. destruct (int2ptr_exact exposed addr prov) as [_ Hn].
  destruct (int2ptr_exact (exposed ++ later) addr prov) as [Hy _].
  assert (prov = None \/ exists q, In q exposed /\ tp_prov q = prov) as Hl.
  { destruct prov as [pr|]; [|by left]. right.
    destruct (in_dec (fun x y => decide (x = y)) (Some pr) (List.map tp_prov exposed)) as [Hi|Hi].
    - apply in_map_iff in Hi as (q & Hq & Hi). by exists q.
    - rewrite Hn in H; [done|]. intros [?|(q & Hq & Hp)]; [done|]. apply Hi. apply in_map_iff. by exists q. }
  rewrite Hy.
  - rewrite <- H. symmetry. destruct (int2ptr_exact exposed addr prov) as [Hy' _]. by apply Hy'.
  - destruct Hl as [Hl|(q & Hq & Hp)]; [by left|right]. exists q. split; [|done]. apply in_or_app. by left.
Qed.
Print Assumptions C26_expose_keeps.

Example C26_hyps :
  ipc_int2ptr (fold_left ipc_expose [mkThin 8 (Some 3%N); mkThin 9 None; mkThin 10 (Some 4%N)] ipc_new) 100 (Some 3%N)
    = Ret (mkThin 100 (Some 3%N)) /\
  ipc_int2ptr (fold_left ipc_expose [mkThin 8 (Some 3%N)] ipc_new) 100 (Some 5%N) = NoBehavior.
Proof. split; reflexivity. Qed.
