(** Specifications for what memory holds in an execution: locals of frames, globals, functions, vtables. *)
From Verif Require Export MachSpec BasicMem TreeLike.

Section Spec.
  Context {PE AE F : Type}.
  Notation P := (nat * PE)%type.
  Notation Mach := (Machine P F (BMem PE AE)).

  (** [p] points to the start of the live allocation number [id] of this kind, size and alignment *)
  Definition object_at (m : Mach) (p : ThinPtr P) (id : nat) (k : AllocKind) (s : Size) (al : Align) : Prop :=
    exists pe a, tp_prov p = Some (id, pe) /\ cm_mem (m_mem m) !! id = Some a /\ al_live a = true /\
      al_addr a = tp_addr p /\ al_kind a = k /\ al_size a = s /\ al_align a = al.
  (** allocation number [id] is live *)
  Definition live_alloc (m : Mach) (id : nat) : Prop :=
    exists a, cm_mem (m_mem m) !! id = Some a /\ al_live a = true.
  Definition live_stack (m : Mach) (id : nat) : Prop :=
    exists a, cm_mem (m_mem m) !! id = Some a /\ al_live a = true /\ al_kind a = AStack.

  (** [f] is frame number [k] of thread [i], counted from the top *)
  Definition frame_of (m : Mach) (i k : nat) (f : StackFrame P F) : Prop :=
    exists t, m_threads m !! i = Some t /\ t_stack t !! k = Some f.
  (** in that frame, local [l] is live and [p] points to it *)
  Definition local_of (m : Mach) (i k : nat) (l : LocalName) (p : ThinPtr P) : Prop :=
    exists f, frame_of m i k f /\ map_get (f_locals f) l = Some p.

  (** allocation number [id] is one of the locals of the frame *)
  Definition frame_owns (f : StackFrame P F) (id : nat) : Prop :=
    exists l p pe, map_get (f_locals f) l = Some p /\ tp_prov p = Some (id, pe).

  (** ** Named objects *)

  (** maps in the code have unique keys *)
  Definition names_unique (prog : Program) : Prop :=
    NoDup (List.map fst (pr_globals prog)) /\ NoDup (List.map fst (pr_functions prog)) /\
    NoDup (List.map fst (pr_vtables prog)).
  Inductive Obj := OGlobal (n : GlobalName) | OFn (n : FnName) | OVTable (n : VTableName).
  Definition obj_ptr (m : Mach) (o : Obj) : option (ThinPtr P) :=
    match o with
    | OGlobal n => map_get (m_globals m) n
    | OFn n => map_get (m_fnptrs m) n
    | OVTable n => map_get (m_vtptrs m) n
    end.
  (** the allocation that holds the object: functions and vtables occupy no bytes *)
  Definition obj_desc (prog : Program) (o : Obj) : option (AllocKind * Size * Align) :=
    match o with
    | OGlobal n => option_map (fun g => (AGlobal, N.of_nat (length (g_bytes g)), g_align g)) (map_get (pr_globals prog) n)
    | OFn n => option_map (fun _ => (AFunction, 0%N, align_one)) (map_get (pr_functions prog) n)
    | OVTable n => option_map (fun _ => (AVTable, 0%N, align_one)) (map_get (pr_vtables prog) n)
    end.

  (** ** Contents of globals *)

  (** byte [k] of an address in the byte order of the target *)
  Definition addr_byte (T : Target) (x : Address) (k : Z) : Z :=
    x / 256 ^ (match ENDIANNESS T with LittleEndian => k | BigEndian => Z.of_N (PTR_SIZE T) - 1 - k end) mod 256.
  (** relocation [r] fills byte [i] *)
  Definition covers (T : Target) (i : nat) (r : Offset * Relocation) : Prop :=
    (N.to_nat (fst r) <= i < N.to_nat (fst r) + N.to_nat (PTR_SIZE T))%nat.
  (** it is the last one in the list that does *)
  Definition last_cover (T : Target) (rs : list (Offset * Relocation)) (i : nat) (r : Offset * Relocation) : Prop :=
    exists l1 l2, rs = l1 ++ r :: l2 /\ covers T i r /\ Forall (fun r' => ~ covers T i r') l2.
  (** what byte [i] of a global is, given where the globals are *)
  Definition global_byte (T : Target) (globals : list (GlobalName * ThinPtr P)) (bytes : list (option byte))
      (rs : list (Offset * Relocation)) (i : nat) (b : AByte P) : Prop :=
    (forall r, last_cover T rs i r -> exists base d, map_get globals (r_name (snd r)) = Some base /\
       b = Init d (option_map (fun pr => mkFrag pr (Z.of_nat i - Z.of_N (fst r))) (tp_prov base)) /\
       Z_of_byte d = addr_byte T (tp_addr base + Z.of_N (r_offset (snd r))) (Z.of_nat i - Z.of_N (fst r))) /\
    (Forall (fun r' => ~ covers T i r') rs ->
       exists x, bytes !! i = Some x /\ b = match x with Some d => Init d None | None => Uninit end).
End Spec.

(** the two memory models of the repository: spec/mem/basic.md and spec/mem/tree_borrows *)
Inductive memory_model (T : Target) : forall PE AE F, MemOps (nat * PE) F (BMem PE AE) -> Prop :=
| mm_basic : memory_model T unit unit unit (BasicOps T)
| mm_tree : memory_model T (list nat) Node (list TProv) (TreeOps T).
Arguments memory_model T {PE AE F} MO.
