(** Concurrent memory: the record of accesses used for data race detection.
    Models spec/mem/concurrent.md. *)
From Verif Require Export Mem.

(** concurrent.md:15-21 Atomicity *)
Inductive Atomicity := Atomic | NonAtomic.
(** concurrent.md:24-27 AccessType *)
Inductive AccessType := AcStore | AcLoad.
(** concurrent.md:30-35 Access *)
Record Access := mkAccess {
  ac_ty : AccessType;
  ac_atomicity : Atomicity;
  ac_addr : Address;
  ac_len : Size;
}.

(** concurrent.md:7-12 ConcurrentMemory *)
Record ConcMem (M : Type) := mkConc { cm_mem : M; cm_accesses : list Access }.
Arguments mkConc {M}.
Arguments cm_mem {M}.
Arguments cm_accesses {M}.

(** concurrent.md:163-174 Access::races *)
Definition races (self other : Access) : bool :=
  match ac_ty self, ac_ty other with
  | AcLoad, AcLoad => false
  | _, _ =>
      match ac_atomicity self, ac_atomicity other with
      | Atomic, Atomic => false
      | _, _ =>
          let end_addr := ac_addr self + Z.of_N (ac_len self) in
          let other_end_addr := ac_addr other + Z.of_N (ac_len other) in
          (ac_addr other <? end_addr) && (ac_addr self <? other_end_addr)
      end
  end.

Section ConcMem.
  Context {P F M : Type}.
  Variable MO : MemOps P F M.

  (** concurrent.md:44-49 new *)
  Definition cm_new : ConcMem M := mkConc (mo_new MO) [].

  (** replaces the wrapped memory *)
  Definition cm_set (c : ConcMem M) (m : M) : ConcMem M := mkConc m (cm_accesses c).
  (** pushes an access *)
  Definition cm_push (c : ConcMem M) (a : Access) : ConcMem M :=
    mkConc (cm_mem c) (cm_accesses c ++ [a]).

  (** concurrent.md:53-55 allocate *)
  Definition cm_allocate (c : ConcMem M) kind size align addr : Outcome (ThinPtr P * ConcMem M) :=
    let! '(p, m) := mo_allocate MO (cm_mem c) kind size align addr in Ret (p, cm_set c m).
  (** concurrent.md:58-60 deallocate *)
  Definition cm_deallocate (c : ConcMem M) ptr kind size align : Outcome (ConcMem M) :=
    let! m := mo_deallocate MO (cm_mem c) ptr kind size align in Ret (cm_set c m).
  (** concurrent.md:63-73 store *)
  Definition cm_store (c : ConcMem M) (ptr : ThinPtr P) bytes align at_ : Outcome (ConcMem M) :=
    let c := cm_push c (mkAccess AcStore at_ (tp_addr ptr) (N.of_nat (length bytes))) in
    let! m := mo_store MO (cm_mem c) ptr bytes align in Ret (cm_set c m).
  (** concurrent.md:76-86 load *)
  Definition cm_load (c : ConcMem M) (ptr : ThinPtr P) len align at_
    : Outcome (list (AByte P) * ConcMem M) :=
    let c := cm_push c (mkAccess AcLoad at_ (tp_addr ptr) len) in
    let! '(bytes, m) := mo_load MO (cm_mem c) ptr len align in Ret (bytes, cm_set c m).
  (** concurrent.md:90-97 dereferenceable, signed_dereferenceable *)
  Definition cm_deref (c : ConcMem M) ptr len : Outcome unit := mo_deref MO (cm_mem c) ptr len.
  Definition cm_signed_deref (c : ConcMem M) ptr len : Outcome unit :=
    mo_signed_deref MO (cm_mem c) ptr len.
  (** concurrent.md:100-109 retag_ptr *)
  Definition cm_retag (c : ConcMem M) f ptr pt fn_entry lookup
    : Outcome (Pointer P * ConcMem M * F) :=
    let! '(p, m, f) := mo_retag MO (cm_mem c) f ptr pt fn_entry lookup in Ret (p, cm_set c m, f).
  (** concurrent.md:112-114 end_call *)
  Definition cm_end_call (c : ConcMem M) f : Outcome (ConcMem M) :=
    let! m := mo_end_call MO (cm_mem c) f in Ret (cm_set c m).
  (** concurrent.md:117-119 leak_check *)
  Definition cm_leak_check (c : ConcMem M) : Outcome unit := mo_leak_check MO (cm_mem c).

  (** concurrent.md:134-149 check_data_races. Thread ids are list indices, so natural numbers. *)
  Definition cm_check_data_races (c : ConcMem M) (current : nat) (prev_sync : list nat)
      (prev_accesses : list Access) : Outcome unit :=
    if bool_decide (current ∈ prev_sync) then Ret tt else
    for_each (fun a => if existsb (races a) prev_accesses then throw_ub "Data race" else Ret tt)
      (cm_accesses c).

  (** concurrent.md:153-157 reset_accesses *)
  Definition cm_reset_accesses (c : ConcMem M) : list Access * ConcMem M :=
    (cm_accesses c, mkConc (cm_mem c) []).
End ConcMem.
