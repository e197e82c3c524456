(** Specification vocabulary for memory: histories of operations and what they wrote. *)
From Verif Require Export BasicMem.

(** ** Histories *)

(** The operations of the memory interface, with arguments as the machine or program may choose them.
    Retags and call ends may come with any frame data. *)
Inductive MemOp (P F : Type) :=
| OpAllocate (kind : AllocKind) (size : Size) (align : Align) (addr : Address)
| OpDeallocate (ptr : ThinPtr P) (kind : AllocKind) (size : Size) (align : Align)
| OpStore (ptr : ThinPtr P) (bytes : list (AByte P)) (align : Align)
| OpLoad (ptr : ThinPtr P) (len : Size) (align : Align)
| OpRetag (f : F) (ptr : Pointer P) (pt : PtrType) (fn_entry : bool) (lookup : ThinPtr P -> Outcome VTable)
| OpEndCall (f : F).
Arguments OpAllocate {P F}.
Arguments OpDeallocate {P F}.
Arguments OpStore {P F}.
Arguments OpLoad {P F}.
Arguments OpRetag {P F}.
Arguments OpEndCall {P F}.

(** one operation *)
Definition mem_op {P F M} (MO : MemOps P F M) (m : M) (op : MemOp P F) : Outcome M :=
  match op with
  | OpAllocate kind size align addr =>
      let! '(_, m') := mo_allocate MO m kind size align addr in Ret m'
  | OpDeallocate ptr kind size align => mo_deallocate MO m ptr kind size align
  | OpStore ptr bytes align => mo_store MO m ptr bytes align
  | OpLoad ptr len align => let! '(_, m') := mo_load MO m ptr len align in Ret m'
  | OpRetag f ptr pt fn_entry lookup =>
      let! '(_, m', _) := mo_retag MO m f ptr pt fn_entry lookup in Ret m'
  | OpEndCall f => mo_end_call MO m f
  end.

(** a history: every operation succeeds *)
Definition mem_run {P F M} (MO : MemOps P F M) (m : M) (ops : list (MemOp P F)) : Outcome M :=
  fold_m (mem_op MO) ops m.

(** ** What was stored last *)

(** the byte a store of [bytes] at address [addr] writes to address [a] *)
Definition byte_at {P} (addr : Address) (bytes : list (AByte P)) (a : Address) : option (AByte P) :=
  if (addr <=? a) && (a <? addr + Z.of_nat (length bytes)) then bytes !! Z.to_nat (a - addr) else None.

(** The byte that the latest store of the history to allocation [id] covering address [a] wrote
    there; Uninit if there is none. *)
Fixpoint last_store {PE F} (ops : list (MemOp (nat * PE) F)) (id : nat) (a : Address)
    (cur : AByte (nat * PE)) : AByte (nat * PE) :=
  match ops with
  | [] => cur
  | OpStore ptr bytes _ :: r =>
      last_store r id a
        (match tp_prov ptr with
         | Some (id', _) =>
             if (id' =? id)%nat then
               match byte_at (tp_addr ptr) bytes a with Some b => b | None => cur end
             else cur
         | None => cur
         end)
  | _ :: r => last_store r id a cur
  end.

(** ** Well-formed memories *)

(** one address range ends before the other begins *)
Definition ranges_apart (a1 : Address) (s1 : Size) (a2 : Address) (s2 : Size) : Prop :=
  a1 + Z.of_N s1 <= a2 \/ a2 + Z.of_N s2 <= a1.

(** What C17 says about an allocation list. *)
Definition allocs_fit {PE AE} (T : Target) (m : BMem PE AE) : Prop :=
  (forall i a, m !! i = Some a ->
     0 < al_addr a /\ (al_addr a) mod (Z.of_N (align_bytes (al_align a))) = 0 /\
     al_addr a + Z.of_N (al_size a) < 2 ^ (8 * Z.of_N (PTR_SIZE T)) /\
     Z.of_N (al_size a) <= 2 ^ (8 * Z.of_N (PTR_SIZE T) - 1) - 1) /\
  (forall i j a b, m !! i = Some a -> m !! j = Some b -> i <> j ->
     al_live a = true -> al_live b = true ->
     al_addr a <> al_addr b /\ ranges_apart (al_addr a) (al_size a) (al_addr b) (al_size b)).

(** ** When operations are allowed *)
Section Allowed.
  Context {PE AE : Type}.

  (** the pointer has provenance for a live allocation that contains the whole range *)
  Definition access_ok (m : BMem PE AE) (ptr : ThinPtr (nat * PE)) (len : Size) : Prop :=
    exists id pe a, tp_prov ptr = Some (id, pe) /\ m !! id = Some a /\ al_live a = true /\
      al_addr a <= tp_addr ptr /\ tp_addr ptr + Z.of_N len <= al_addr a + Z.of_N (al_size a).

  (** the provenance was issued by this memory (allocations are never removed from the list) *)
  Definition prov_known (m : BMem PE AE) (ptr : ThinPtr (nat * PE)) : Prop :=
    forall id pe, tp_prov ptr = Some (id, pe) -> (id < length m)%nat.

  (** what deallocation requires *)
  Definition dealloc_ok (m : BMem PE AE) (ptr : ThinPtr (nat * PE)) kind size align : Prop :=
    exists id pe a, tp_prov ptr = Some (id, pe) /\ m !! id = Some a /\ al_live a = true /\
      tp_addr ptr = al_addr a /\ kind = al_kind a /\ size = al_size a /\ align = al_align a.
End Allowed.
