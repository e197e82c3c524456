(** Specification of the relation between the states of two machines that run with different memory
    models: the second state is at least as defined as the first. Where the first has an uninitialised
    byte the second may have any byte, where the first has a pointer without provenance the second may
    have any provenance, and otherwise the provenances correspond by a given translation. Everything
    else is the same, except for the data private to the memory model. *)
From Verif Require Export BasicMem MachSpec.

Section Values.
  Context {P1 P2 : Type}.
  Variable h : P1 -> P2.

  Inductive prov_sim : option P1 -> option P2 -> Prop :=
  | ps_none q : prov_sim None q
  | ps_some p : prov_sim (Some p) (Some (h p)).

  Definition thin_sim (p : ThinPtr P1) (q : ThinPtr P2) : Prop :=
    tp_addr p = tp_addr q /\ prov_sim (tp_prov p) (tp_prov q).

  Inductive frag_sim : option (ProvFrag P1) -> option (ProvFrag P2) -> Prop :=
  | fs_none f : frag_sim None f
  | fs_some p i : frag_sim (Some (mkFrag p i)) (Some (mkFrag (h p) i)).

  Inductive byte_sim : AByte P1 -> AByte P2 -> Prop :=
  | bs_uninit b : byte_sim Uninit b
  | bs_init d f g : frag_sim f g -> byte_sim (Init d f) (Init d g).
  Definition bytes_sim : list (AByte P1) -> list (AByte P2) -> Prop := Forall2 byte_sim.

  Inductive meta_sim : option (PtrMeta P1) -> option (PtrMeta P2) -> Prop :=
  | mts_none : meta_sim None None
  | mts_count c : meta_sim (Some (MElementCount c)) (Some (MElementCount c))
  | mts_vtable p q : thin_sim p q -> meta_sim (Some (MVTablePointer p)) (Some (MVTablePointer q)).

  Definition ptr_sim (p : Pointer P1) (q : Pointer P2) : Prop :=
    thin_sim (p_thin p) (p_thin q) /\ meta_sim (p_meta p) (p_meta q).

  Inductive value_sim : Value P1 -> Value P2 -> Prop :=
  | vs_int i : value_sim (VInt i) (VInt i)
  | vs_bool b : value_sim (VBool b) (VBool b)
  | vs_ptr p q : ptr_sim p q -> value_sim (VPtr p) (VPtr q)
  | vs_tuple vs ws : Forall2 value_sim vs ws -> value_sim (VTuple vs) (VTuple ws)
  | vs_variant d v w : value_sim v w -> value_sim (VVariant d v) (VVariant d w)
  | vs_union c d : Forall2 bytes_sim c d -> value_sim (VUnion c) (VUnion d).

  Definition place_sim (p : Place P1) (q : Place P2) : Prop :=
    ptr_sim (pl_ptr p) (pl_ptr q) /\ pl_aligned p = pl_aligned q.

  (** the same names in the same order, with related pointers *)
  Definition ptrs_sim (l : list (N * ThinPtr P1)) (k : list (N * ThinPtr P2)) : Prop :=
    Forall2 (fun a b => fst a = fst b /\ thin_sim (snd a) (snd b)) l k.

  (** the same choice *)
  Definition choice_sim (c : Choice P1) : Choice P2 :=
    match c with
    | ChAddr a => ChAddr a
    | ChThread t => ChThread t
    | ChProv p => ChProv (option_map h p)
    end.
End Values.

Section State.
  Context {P1 F1 M1 P2 F2 M2 : Type}.
  Variable h : P1 -> P2.
  (** the relation on memories, and the provenances of pointers to whole allocations *)
  Variable MR : M1 -> M2 -> Prop.
  Variable root : P1 -> Prop.

  Inductive action_sim : StackPopAction P1 -> StackPopAction P2 -> Prop :=
  | as_bottom : action_sim BottomOfStack BottomOfStack
  | as_back nb ub p q : thin_sim h p q -> action_sim (BackToCaller nb ub p) (BackToCaller nb ub q).

  Definition frame_sim (f : StackFrame P1 F1) (g : StackFrame P2 F2) : Prop :=
    f_func f = f_func g /\ ptrs_sim h (f_locals f) (f_locals g) /\ action_sim (f_action f) (f_action g) /\
    f_block f = f_block g /\ f_stmt f = f_stmt g.

  Definition thread_sim (t : Thread P1 F1) (u : Thread P2 F2) : Prop :=
    Forall2 frame_sim (t_stack t) (t_stack u) /\ t_state t = t_state u /\
    Forall2 (thin_sim h) (t_payloads t) (t_payloads u).

  (** tables of functions and vtables hold pointers with the provenance of their allocation *)
  Definition table_sim (l : list (N * ThinPtr P1)) (k : list (N * ThinPtr P2)) : Prop :=
    Forall2 (fun a b => fst a = fst b /\ tp_addr (snd a) = tp_addr (snd b) /\
      exists p, root p /\ tp_prov (snd a) = Some p /\ tp_prov (snd b) = Some (h p)) l k.

  Definition cmem_sim (c : ConcMem M1) (d : ConcMem M2) : Prop :=
    MR (cm_mem c) (cm_mem d) /\ cm_accesses c = cm_accesses d.

  (** the machine states agree except for provenance, uninitialised bytes, and the data private to the
      memory model *)
  Record mach_sim (m : Machine P1 F1 M1) (n : Machine P2 F2 M2) : Prop := mkMachSim {
    sim_prog : m_prog m = m_prog n;
    sim_mem : cmem_sim (m_mem m) (m_mem n);
    sim_exposed : forall p, In p (m_exposed m) -> In (h p) (m_exposed n);
    sim_threads : Forall2 thread_sim (m_threads m) (m_threads n);
    sim_active : m_active m = m_active n;
    sim_sync : m_sync m = m_sync n;
    sim_locks : m_locks m = m_locks n;
    sim_globals : ptrs_sim h (m_globals m) (m_globals n);
    sim_fnptrs : table_sim (m_fnptrs m) (m_fnptrs n);
    sim_vtptrs : table_sim (m_vtptrs m) (m_vtptrs n);
    sim_stdout : m_stdout m = m_stdout n;
    sim_stderr : m_stderr m = m_stderr n;
  }.
End State.

(** ** Memories made of allocations

    [h] translates provenances. *)
Section Memory.
  Context {PE1 AE1 PE2 AE2 : Type}.
  Variable h : nat * PE1 -> nat * PE2.

  (** the same object, except for the contents, which are at least as defined *)
  Definition alloc_sim (a : Allocation PE1 AE1) (b : Allocation PE2 AE2) : Prop :=
    bytes_sim h (al_data a) (al_data b) /\ al_addr a = al_addr b /\ al_align a = al_align b /\
    al_kind a = al_kind b /\ al_live a = al_live b.
  Definition bmem_sim : BMem PE1 AE1 -> BMem PE2 AE2 -> Prop := Forall2 alloc_sim.
End Memory.

(** ** What a program can do *)

(** the program can end with the given ending after writing the given output *)
Definition can_end {P F M} `{EqDecision P} (T : Target) (MO : MemOps P F M) (prog : Program)
    (out err : string) (t : TermInfo) : Prop :=
  exists m cs, reachable T MO prog m /\ m_stdout m = out /\ m_stderr m = err /\ step T MO cs m = Stop t.
(** the ending is not undefined behaviour *)
Definition proper (t : TermInfo) : Prop := forall msg, t <> TUb msg.
(** a run that never ends: the states and the choices made *)
Definition forever {P F M} `{EqDecision P} (T : Target) (MO : MemOps P F M) (prog : Program)
    (tr : nat -> Machine P F M) (ch : nat -> list (Choice P)) : Prop :=
  starts T MO prog (tr 0%nat) /\ forall i, step T MO (ch i) (tr i) = Ret (tr (S i)).

(** ** Initialising memory *)

(** the memories are the same, except that some uninitialised bytes have been given a value *)
Definition more_init (mem mem' : BMem unit unit) : Prop :=
  Forall2 (fun a b =>
    al_addr a = al_addr b /\ al_align a = al_align b /\ al_kind a = al_kind b /\ al_live a = al_live b /\
    length (al_data a) = length (al_data b) /\
    forall i x y, al_data a !! i = Some x -> al_data b !! i = Some y -> x = Uninit \/ x = y) mem mem'.

(** an execution with the given choices *)
Inductive runs {P F M} `{EqDecision P} (T : Target) (MO : MemOps P F M) :
    Machine P F M -> list (list (Choice P)) -> Machine P F M -> Prop :=
| runs_nil m : runs T MO m [] m
| runs_cons m m' m'' cs css : step T MO cs m = Ret m' -> runs T MO m' css m'' -> runs T MO m (cs :: css) m''.
