(** Tree Borrows. Models spec/mem/tree_borrows. *)
From Verif Require Export BasicMem.

(** ** State machines *)

(** tree.md:14-25 Protected *)
Inductive Protected := ProtStrong | ProtWeak | ProtNo.
Definition prot_yes (p : Protected) : bool := match p with ProtNo => false | _ => true end.

(** tree.md:51-54 NodeRelation, 60-63 AccessKind *)
Inductive NodeRelation := Local | Foreign.
Inductive AccessKind := AkRead | AkWrite.

(** state_machine_unprotected.md:6-19 PermissionUnprot *)
Inductive PermUnprot := UCell | UReserved | UReservedIm | UUnique | UFrozen | UDisabled.

(** state_machine_protected.md:7-21 PermissionProt *)
Inductive PermProt :=
| PCell
| PReserved (had_local_read had_foreign_read : bool)
| PUnique
| PFrozen (had_local_read : bool)
| PDisabled.

(** state_machine.md:11-14 Permission *)
Inductive Perm := Unprot (p : PermUnprot) | Prot (p : PermProt).

(** state_machine_unprotected.md:27-35 local_read *)
Definition u_local_read (p : PermUnprot) : Outcome PermUnprot :=
  match p with
  | UDisabled => throw_ub "Tree Borrows: local read of Disabled reference"
  | p => Ret p
  end.
(** state_machine_unprotected.md:37-44 local_write *)
Definition u_local_write (p : PermUnprot) : Outcome PermUnprot :=
  match p with
  | UFrozen => throw_ub "Tree Borrows: local write of Frozen reference"
  | UDisabled => throw_ub "Tree Borrows: local write of Disabled reference"
  | UCell => Ret UCell
  | _ => Ret UUnique
  end.
(** state_machine_unprotected.md:46-53 foreign_read *)
Definition u_foreign_read (p : PermUnprot) : Outcome PermUnprot :=
  match p with
  | UReserved => Ret UReserved
  | UUnique => Ret UFrozen
  | p => Ret p
  end.
(** state_machine_unprotected.md:55-62 foreign_write *)
Definition u_foreign_write (p : PermUnprot) : Outcome PermUnprot :=
  match p with
  | UCell => Ret UCell
  | UReservedIm => Ret UReservedIm
  | _ => Ret UDisabled
  end.
(** state_machine_unprotected.md:64-75 transition *)
Definition u_transition (p : PermUnprot) (ak : AccessKind) (rel : NodeRelation) : Outcome PermUnprot :=
  match rel, ak with
  | Local, AkRead => u_local_read p
  | Local, AkWrite => u_local_write p
  | Foreign, AkRead => u_foreign_read p
  | Foreign, AkWrite => u_foreign_write p
  end.
(** state_machine_unprotected.md:96-102 init_access *)
Definition u_init_access (p : PermUnprot) : option AccessKind :=
  match p with UCell => None | _ => Some AkRead end.
(** state_machine_unprotected.md:81-85 prevents_deallocation *)
Definition u_prevents_deallocation (p : PermUnprot) : bool := false.

(** state_machine_protected.md:29-37 local_read *)
Definition p_local_read (p : PermProt) : Outcome PermProt :=
  match p with
  | PCell => Ret PCell
  | PReserved _ hfr => Ret (PReserved true hfr)
  | PUnique => Ret PUnique
  | PFrozen _ => Ret (PFrozen true)
  | PDisabled => throw_ub "Tree Borrows: local read of protected Disabled reference"
  end.
(** state_machine_protected.md:39-50 local_write *)
Definition p_local_write (p : PermProt) : Outcome PermProt :=
  match p with
  | PCell => Ret PCell
  | PUnique => Ret PUnique
  | PReserved _ false => Ret PUnique
  | PReserved _ true =>
      throw_ub "Tree Borrows: local write to protected Reserved reference that had a foreign read"
  | PFrozen _ => throw_ub "Tree Borrows: local write to protected Frozen reference"
  | PDisabled => throw_ub "Tree Borrows: local write to protected Disabled reference"
  end.
(** state_machine_protected.md:52-61 foreign_read *)
Definition p_foreign_read (p : PermProt) : Outcome PermProt :=
  match p with
  | PCell => Ret PCell
  | PUnique => throw_ub "Tree Borrows: foreign read of protected Unique reference"
  | PReserved hlr _ => Ret (PReserved hlr true)
  | PFrozen hlr => Ret (PFrozen hlr)
  | PDisabled => Ret PDisabled
  end.
(** state_machine_protected.md:63-75 foreign_write. The message is not formatted. *)
Definition p_foreign_write (p : PermProt) : Outcome PermProt :=
  match p with
  | PCell => Ret PCell
  | PFrozen true | PReserved true _ =>
      throw_ub "Tree Borrows: foreign write of protected reference which had a local read"
  | PUnique => throw_ub "Tree Borrows: foreign read of protected Unique reference"
  | PFrozen false | PReserved false _ => Ret PDisabled
  | PDisabled => Ret PDisabled
  end.
(** state_machine_protected.md:77-88 transition *)
Definition p_transition (p : PermProt) (ak : AccessKind) (rel : NodeRelation) : Outcome PermProt :=
  match rel, ak with
  | Local, AkRead => p_local_read p
  | Local, AkWrite => p_local_write p
  | Foreign, AkRead => p_foreign_read p
  | Foreign, AkWrite => p_foreign_write p
  end.
(** state_machine_protected.md:90-96 init_access *)
Definition p_init_access (p : PermProt) : option AccessKind :=
  match p with PCell => None | _ => Some AkRead end.
(** state_machine_protected.md:113-124 unprotect *)
Definition p_unprotect (p : PermProt) : PermUnprot * option AccessKind :=
  match p with
  | PUnique => (UUnique, Some AkWrite)
  | PReserved true _ => (UReserved, Some AkRead)
  | PReserved false _ => (UReserved, None)
  | PFrozen true => (UFrozen, Some AkRead)
  | PFrozen false => (UFrozen, None)
  | PDisabled => (UDisabled, None)
  | PCell => (UCell, None)
  end.
(** state_machine_protected.md:130-141 prevents_deallocation *)
Definition p_prevents_deallocation (p : PermProt) : bool :=
  match p with
  | PUnique => true
  | PReserved hlr _ | PFrozen hlr => hlr
  | PDisabled => false
  | PCell => false
  end.

(** state_machine.md:18-33 transition *)
Definition perm_transition (p : Perm) (ak : AccessKind) (rel : NodeRelation) : Outcome Perm :=
  match p with
  | Unprot p => let! p' := u_transition p ak rel in Ret (Unprot p')
  | Prot p => let! p' := p_transition p ak rel in Ret (Prot p')
  end.
(** state_machine.md:35-40 init_access *)
Definition perm_init_access (p : Perm) : option AccessKind :=
  match p with Unprot p => u_init_access p | Prot p => p_init_access p end.
(** state_machine.md:47-56 unprotect *)
Definition perm_unprotect (p : Perm) : Outcome (Perm * option AccessKind) :=
  match p with
  | Unprot _ => Panic
  | Prot p => let '(p', a) := p_unprotect p in Ret (Unprot p', a)
  end.
(** state_machine.md:63-68 prevents_deallocation *)
Definition perm_prevents_deallocation (p : Perm) : bool :=
  match p with Unprot p => u_prevents_deallocation p | Prot p => p_prevents_deallocation p end.
(** state_machine.md:72-78 matches_protector *)
Definition perm_matches (p : Perm) (prot : Protected) : bool :=
  match p with Prot _ => prot_yes prot | Unprot _ => negb (prot_yes prot) end.

(** ** Trees *)

(** memory.md:36-39 ChildId, Path *)
Notation Path := (list nat) (only parsing).

(** tree.md:31-43 Node *)
Inductive Node := mkNode (children : list Node) (permissions : list Perm) (protected : Protected).

Definition n_children (n : Node) : list Node := match n with mkNode c _ _ => c end.
Definition n_perms (n : Node) : list Perm := match n with mkNode _ p _ => p end.
Definition n_prot (n : Node) : Protected := match n with mkNode _ _ p => p end.

(** list_mutate for a step on one element; out of range is a panic (List::mutate_at) *)
Definition perm_at (ps : list Perm) (o : nat) (ak : AccessKind) (rel : NodeRelation)
  : Outcome (list Perm) :=
  let! p := unwrap (ps !! o) in
  let! p' := perm_transition p ak rel in
  Ret (<[o := p']> ps).

(** tree.md:73-87 transition *)
Definition perms_transition (ps : list Perm) (rel : NodeRelation) (ak : AccessKind)
    (off : Offset) (size : Size) : Outcome (list Perm) :=
  fold_m (fun ps o => perm_at ps o ak rel) (seq (N.to_nat off) (N.to_nat size)) ps.

(** apply a step to every element, with its index; models the loops of tree.md:112-122 and 207-216 *)
Definition map_idx_m {A B} (f : nat -> A -> Outcome B) : nat -> list A -> Outcome (list B) :=
  fix go i l :=
    match l with
    | [] => Ret []
    | x :: r => let! y := f i x in let! r' := go (S i) r in Ret (y :: r')
    end.

(** tree.md:115-118 and 208-211 sub_path *)
Definition sub_path (path : option Path) (i : nat) : option Path :=
  match path with
  | Some (h :: t) => if (h =? i)%nat then Some t else None
  | _ => None
  end.

(** tree.md:106 and 191 node_relation *)
Definition relation_of (path : option Path) : NodeRelation :=
  match path with Some _ => Local | None => Foreign end.

(** tree.md:94-125 access *)
Fixpoint node_access (n : Node) (path : option Path) (ak : AccessKind) (off : Offset) (size : Size)
  : Outcome Node :=
  match n with
  | mkNode cs ps prot =>
      let! ps' := perms_transition ps (relation_of path) ak off size in
      let! cs' := map_idx_m (fun i c => node_access c (sub_path path i) ak off size) 0 cs in
      Ret (mkNode cs' ps' prot)
  end.

(** tree.md:135-147 access_node *)
Fixpoint access_node {O} (path : Path) (f : Node -> Outcome (Node * O)) (n : Node) : Outcome (Node * O) :=
  match path with
  | [] => f n
  | i :: rest =>
      match n with
      | mkNode cs ps prot =>
          (* also covers the is_leaf panic of line 143 *)
          let! c := unwrap (cs !! i) in
          let! '(c', o) := access_node rest f c in
          Ret (mkNode (<[i := c']> cs) ps prot, o)
      end
  end.

(** tree.md:153-164 add_node *)
Definition add_node (n : Node) (parent_path : Path) (child : Node) : Outcome (Node * Path) :=
  let! '(n', child_idx) := access_node parent_path
    (fun n => match n with
              | mkNode cs ps prot => Ret (mkNode (cs ++ [child]) ps prot, length cs)
              end) n in
  Ret (n', parent_path ++ [child_idx]).

(** tree.md:197-204 the accesses on one node *)
Definition perms_release (ps : list Perm) (rel : NodeRelation) (accesses : list (option AccessKind))
  : Outcome (list Perm) :=
  fold_m (fun ps '(o, acc) => match acc with
                              | None => Ret ps
                              | Some ak => perm_at ps o ak rel
                              end)
    (zip (seq 0 (length accesses)) accesses) ps.

(** tree.md:181-220 release_protector *)
Fixpoint node_release (n : Node) (path : option Path) (accesses : list (option AccessKind))
  : Outcome Node :=
  match n with
  | mkNode cs ps prot =>
      match path with
      | Some [] => Ret (mkNode cs ps ProtNo)
      | _ =>
          let! ps' := perms_release ps (relation_of path) accesses in
          let! cs' := map_idx_m (fun i c => node_release c (sub_path path i) accesses) 0 cs in
          Ret (mkNode cs' ps' prot)
      end
  end.

(** tree.md:231-240 contains_strong_protector_preventing_deallocation *)
Fixpoint node_blocks_dealloc (n : Node) : bool :=
  match n with
  | mkNode cs ps prot =>
      (match prot with ProtStrong => existsb perm_prevents_deallocation ps | _ => false end)
      || existsb node_blocks_dealloc cs
  end.

(** ** Reborrow settings *)

(** reborrow_settings.md:7-15 ReborrowSettings *)
Record Settings := mkSettings {
  rs_inside : list Perm;
  rs_outside : Perm;
  rs_protected : Protected;
}.

(** reborrow_settings.md:38-45 the loop over zipped padded lists: [cur] is the current cell *)
Fixpoint freeze_mask_loop (cur : Offset * Size) (cells : list (Offset * Size)) (size : Size)
  : Outcome (list bool) :=
  let next := match cells with [] => (size, 0%N) | c :: _ => c end in
  let! gap := unwrap (size_from_bytes (Z.of_N (fst next) - Z.of_N (fst cur + snd cur))) in
  let here := list_repeat false (snd cur) ++ list_repeat true gap in
  match cells with
  | [] => Ret here
  | c :: r => let! rest := freeze_mask_loop c r size in Ret (here ++ rest)
  end.

(** reborrow_settings.md:23-48 cells_to_freeze_mask *)
Definition cells_to_freeze_mask (cells : list (Offset * Size)) (size : Size) : Outcome (list bool) :=
  let! mask := freeze_mask_loop (0%N, 0%N) cells size in
  let! _ := assert_ (N.of_nat (length mask) =? size)%N in
  Ret mask.

Section Reborrow.
  Notation Prov := (AllocId * Path)%type.

  (** reborrow_settings.md:53-82 freeze_mask *)
  Fixpoint freeze_mask (cs : CellStrategy) (layout : LayoutStrategy) (meta : option (PtrMeta Prov))
      (lookup : ThinPtr Prov -> Outcome VTable) : Outcome (list bool) :=
    match cs, layout, meta with
    | CSized cells, LSized size _, _ => cells_to_freeze_mask cells size
    | CSlice element_cells, LSlice size _, Some (MElementCount count) =>
        let! m := cells_to_freeze_mask element_cells size in
        Ret (concat (replicate (Z.to_nat count) m))
    | CTraitObject, LTraitObject _, Some (MVTablePointer ptr) =>
        let! vt := lookup ptr in
        cells_to_freeze_mask (vt_cells vt) (vt_size vt)
    | CTuple head_cells tail_cells, LTuple head tail, _ =>
        let! m := cells_to_freeze_mask head_cells (th_end head) in
        let! m' := freeze_mask tail_cells tail meta lookup in
        Ret (m ++ m')
    | _, _, _ => Panic
    end.

  (** reborrow_settings.md:92-140 ReborrowSettings::new *)
  Definition settings_new (ptr : Pointer Prov) (pt : PtrType) (fn_entry : bool)
      (lookup : ThinPtr Prov -> Outcome VTable) : Outcome (option Settings) :=
    match safe_pointee pt with
    | None => Ret None
    | Some pi =>
        if (match pt with PRef Mutable pi => negb (pi_unpin pi) | _ => false end) then Ret None else
        let protected :=
          if fn_entry then match pt with PBox _ => ProtWeak | _ => ProtStrong end else ProtNo in
        let mk_perm u p := if prot_yes protected then Prot p else Unprot u in
        let no_cell_perm := match pt with
                            | PRef Immutable _ => mk_perm UFrozen (PFrozen false)
                            | _ => mk_perm UReserved (PReserved false false)
                            end in
        let cell_perm := match pt with
                         | PRef Immutable _ => mk_perm UCell PCell
                         | _ => mk_perm UReservedIm (PReserved false false)
                         end in
        let! mask := freeze_mask (pi_cells pi) (pi_layout pi) (p_meta ptr) lookup in
        Ret (Some {| rs_protected := protected;
                     rs_inside := List.map (fun freeze : bool => if freeze then no_cell_perm else cell_perm) mask;
                     rs_outside := if pi_freeze pi then no_cell_perm else cell_perm |})
    end.

  (** memory.md:53-55 TreeBorrowsMemory: the basic memory with the tree as extra data of an
      allocation and the path as extra data of a pointer; 57-65 TreeBorrowsFrameExtra: the list of
      protectors *)
  Notation TMem := (BMem Path Node).
  Notation TFrame := (list Prov).

  (** memory.md:113-121 the initial accesses *)
  Definition reborrow_accesses (root : Node) (child_path : Path) (inside : list Perm) (offset : Offset)
    : Outcome Node :=
    fold_m (fun root '(idx, perm) =>
              match perm_init_access perm with
              | Some ak => node_access root (Some child_path) ak (offset + N.of_nat idx)%N 1%N
              | None => Ret root
              end)
      (zip (seq 0 (length inside)) inside) root.

  (** memory.md:87-122 the closure applied to the allocation *)
  Definition reborrow_alloc (a : Allocation Path Node) (addr : Address) (parent_path : Path) (s : Settings)
    : Outcome (Allocation Path Node * Path) :=
    let! offset := unwrap (size_from_bytes (addr - al_addr a)) in
    let permissions := list_repeat (rs_outside s) (al_size a) in
    let! permissions := (if (0 <? length (rs_inside s))%nat
                         then write_subslice permissions offset (rs_inside s)
                         else Ret permissions) in
    let child := mkNode [] permissions (rs_protected s) in
    let! _ := assert_ (forallb (fun p => perm_matches p (rs_protected s)) permissions) in
    let! '(root, child_path) := add_node (al_extra a) parent_path child in
    let! root := reborrow_accesses root child_path (rs_inside s) offset in
    Ret (mkAlloc (al_data a) (al_addr a) (al_align a) (al_kind a) (al_live a) root, child_path).

  (** memory.md:68-136 reborrow *)
  Definition reborrow (m : TMem) (f : TFrame) (ptr : ThinPtr Prov) (s : Settings)
    : Outcome (ThinPtr Prov * TMem * TFrame) :=
    let pointee_size := N.of_nat (length (rs_inside s)) in
    let! _ := bm_check_ptr m ptr pointee_size in
    match tp_prov ptr with
    | None =>
        let! _ := assert_ (pointee_size =? 0)%N in Ret (ptr, m, f)
    | Some (id, parent_path) =>
        let! '(m', child_path) := mutate_at m id
          (fun a => reborrow_alloc a (tp_addr ptr) parent_path s) in
        let f' := if prot_yes (rs_protected s) then f ++ [(id, child_path)] else f in
        Ret (mkThin (tp_addr ptr) (Some (id, child_path)), m', f')
    end.

  (** memory.md:141-159 the closure applied to the allocation *)
  Definition release_alloc (a : Allocation Path Node) (path : Path)
    : Outcome (Allocation Path Node * unit) :=
    let! '(root, accesses) := access_node path
      (fun n => match n with
                | mkNode cs ps prot =>
                    let! _ := assert_ (prot_yes prot) in
                    let! l := map_m perm_unprotect ps in
                    Ret (mkNode cs (List.map fst l) prot, List.map snd l)
                end) (al_extra a) in
    let! root := (if al_live a then node_release root (Some path) accesses else Ret root) in
    Ret (mkAlloc (al_data a) (al_addr a) (al_align a) (al_kind a) (al_live a) root, tt).

  (** memory.md:138-163 release_protector *)
  Definition mem_release_protector (m : TMem) (prov : Prov) : Outcome TMem :=
    let '(id, path) := prov in
    let! '(m', _) := mutate_at m id (fun a => release_alloc a path) in Ret m'.

  (** memory.md:179-189 the root of a new allocation *)
  Definition new_root (size : Size) : Node := mkNode [] (list_repeat (Unprot UUnique) size) ProtNo.

  (** memory.md:192-204 the check on deallocation *)
  Definition tb_dealloc (size : Size) (root : Node) (path : Path) : Outcome Node :=
    let! root := node_access root (Some path) AkWrite 0%N size in
    if node_blocks_dealloc root then
      throw_ub "Tree Borrows: deallocating strongly protected allocation"
    else Ret root.

  (** memory.md:226-241 retag_ptr *)
  Definition tb_retag (m : TMem) (f : TFrame) (ptr : Pointer Prov) (pt : PtrType) (fn_entry : bool)
      (lookup : ThinPtr Prov -> Outcome VTable) : Outcome (Pointer Prov * TMem * TFrame) :=
    let! s := settings_new ptr pt fn_entry lookup in
    match s with
    | None => Ret (ptr, m, f)
    | Some s =>
        let! '(p, m', f') := reborrow m f (p_thin ptr) s in
        Ret (widen p (p_meta ptr), m', f')
    end.

  (** memory.md:172-253 the Memory instance *)
  Definition TreeOps (T : Target) : MemOps Prov TFrame TMem := {|
    mo_new := [];
    mo_allocate := fun m kind size align addr =>
      bm_allocate T m kind size align [] (new_root size) addr;
    mo_deallocate := fun m ptr kind size align =>
      bm_deallocate m ptr kind size align (fun root path => tb_dealloc size root path);
    mo_store := fun m ptr bytes align =>
      bm_store m ptr bytes align
        (fun root path offset => node_access root (Some path) AkWrite offset (N.of_nat (length bytes)));
    mo_load := fun m ptr len align =>
      bm_load m ptr len align (fun root path offset => node_access root (Some path) AkRead offset len);
    mo_deref := fun m ptr len => let! _ := bm_check_ptr m ptr len in Ret tt;
    mo_retag := tb_retag;
    mo_new_call := [];
    mo_end_call := fun m f => fold_m mem_release_protector f m;
    mo_leak_check := bm_leak_check;
  |}.
End Reborrow.
