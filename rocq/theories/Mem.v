(** The memory interface. Models spec/mem/interface.md. *)
From Verif Require Export Repr.

(** spec/mem/interface.md:58-69 AllocationKind *)
Inductive AllocKind := AStack | AHeap | AGlobal | AFunction | AVTable.

#[global] Instance AllocKind_eq_dec : EqDecision AllocKind.
Proof. solve_decision. Defined.

(** spec/mem/interface.md:75-152 the Memory trait, as a record of functions over the provenance type
    [P] (trait type Provenance), the frame data [F] (FrameExtra) and the memory state [M] (Self).
    Operations with [&mut self] return the new state. [mo_allocate] takes the address to be picked.
    The vtable lookup given to retag_ptr may panic. *)
Record MemOps (P F M : Type) := mkMemOps {
  mo_new : M;
  mo_allocate : M -> AllocKind -> Size -> Align -> Address -> Outcome (ThinPtr P * M);
  mo_deallocate : M -> ThinPtr P -> AllocKind -> Size -> Align -> Outcome M;
  mo_store : M -> ThinPtr P -> list (AByte P) -> Align -> Outcome M;
  mo_load : M -> ThinPtr P -> Size -> Align -> Outcome (list (AByte P) * M);
  mo_deref : M -> ThinPtr P -> Size -> Outcome unit;
  mo_retag : M -> F -> Pointer P -> PtrType -> bool -> (ThinPtr P -> Outcome VTable) ->
             Outcome (Pointer P * M * F);
  mo_new_call : F;
  mo_end_call : M -> F -> Outcome M;
  mo_leak_check : M -> Outcome unit;
}.
Arguments mo_new {P F M}.
Arguments mo_allocate {P F M}.
Arguments mo_deallocate {P F M}.
Arguments mo_store {P F M}.
Arguments mo_load {P F M}.
Arguments mo_deref {P F M}.
Arguments mo_retag {P F M}.
Arguments mo_new_call {P F M}.
Arguments mo_end_call {P F M}.
Arguments mo_leak_check {P F M}.

(** spec/mem/interface.md:110-119 signed_dereferenceable *)
Definition mo_signed_deref {P F M} (MO : MemOps P F M) (m : M) (p : ThinPtr P) (len : Z)
  : Outcome unit :=
  if 0 <? len then
    let! s := unwrap (size_from_bytes len) in mo_deref MO m p s
  else
    let! s := unwrap (size_from_bytes (- len)) in
    mo_deref MO m (mkThin (tp_addr p + len) (tp_prov p)) s.

(** libspecr List::mutate_at for a fallible function: panics when out of range *)
Definition mutate_at {A B} (l : list A) (i : nat) (f : A -> Outcome (A * B)) : Outcome (list A * B) :=
  match l !! i with
  | None => Panic
  | Some a => let! '(a', b) := f a in Ret (<[i := a']> l, b)
  end.
