(** Specification of data races between consecutive steps. *)
From Verif Require Export MachSpec OpsSpec.

Section Spec.
  Context {P F M : Type}.
  Notation Mach := (Machine P F M).

  (** the step from [m] to [m'] synchronises the thread that took it with thread [i]: it spawned [i],
      handed a lock to [i], or ended while [i] was joining *)
  Inductive synchronises (m m' : Mach) (i : nat) : Prop :=
  | sy_spawn : at_intrinsic m (m_active m') InSpawn -> ~ is_thread m i -> is_thread m' i ->
      synchronises m m' i
  | sy_lock l : at_intrinsic m (m_active m') (InLock LkRelease) -> waits_for_lock m i l -> ~ holds m l i ->
      holds m' l i -> synchronises m m' i
  | sy_join : at_terminator m (m_active m') TmReturn -> joining m i (m_active m') ->
      terminated m' (m_active m') -> synchronises m m' i.

  (** two accesses conflict: a common byte, a store, and one that is not atomic *)
  Definition conflict (a b : Access) : Prop :=
    (exists x, access_has a x /\ access_has b x) /\
    (ac_ty a = AcStore \/ ac_ty b = AcStore) /\
    (ac_atomicity a = NonAtomic \/ ac_atomicity b = NonAtomic).
End Spec.
