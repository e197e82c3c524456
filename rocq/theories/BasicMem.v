(** The basic memory model. Models spec/mem/basic.md. *)
From Verif Require Export Mem.

(** basic.md:18 AllocId. The Rust id wraps an Int, it is always an index into the allocation list. *)
Notation AllocId := nat (only parsing).

Section BasicMem.
  (** basic.md:20 and 26: the extra data of pointers and allocations *)
  Context {PE AE : Type}.
  Variable T : Target.

  (** basic.md:20 Provenance *)
  Notation Prov := (AllocId * PE)%type.

  (** basic.md:26-41 Allocation *)
  Record Allocation := mkAlloc {
    al_data : list (AByte Prov);
    al_addr : Address;
    al_align : Align;
    al_kind : AllocKind;
    al_live : bool;
    al_extra : AE;
  }.

  (** basic.md:47-58 BasicMemory: the list of allocations *)
  Notation BMem := (list Allocation).

  (** basic.md:68-70 size *)
  Definition al_size (a : Allocation) : Size := N.of_nat (length (al_data a)).

  (** basic.md:72-84 overlaps *)
  Definition al_overlaps (a : Allocation) (other_addr : Address) (other_size : Size) : bool :=
    let end_addr := al_addr a + Z.of_N (al_size a) in
    let other_end_addr := other_addr + Z.of_N other_size in
    if (end_addr <=? other_addr) || (other_end_addr <=? al_addr a)
    then al_addr a =? other_addr
    else true.

  (** basic.md:112-122 the predicate an address has to satisfy *)
  Definition bm_addr_ok (m : BMem) (size : Size) (align : Align) (addr : Address) : bool :=
    (0 <? addr) && is_aligned align addr &&
    in_bounds Unsigned (PTR_SIZE T) (addr + Z.of_N size) &&
    negb (existsb (fun a => al_live a && al_overlaps a addr size) m).

  (** basic.md:92-142 allocate. The pick of lines 107-123 is the argument [addr]; its distribution
      hint (lines 107-111) is only a hint for sampling and not modelled. *)
  Definition bm_allocate (m : BMem) (kind : AllocKind) (size : Size) (align : Align)
      (pe : PE) (ae : AE) (addr : Address) : Outcome (ThinPtr Prov * BMem) :=
    if negb (valid_size T size) then throw_ub "asking for a too large allocation" else
    if negb (bm_addr_ok m size align addr) then NoBehavior else
    Ret (mkThin addr (Some (length m, pe)),
         m ++ [mkAlloc (list_repeat Uninit size) addr align kind true ae]).

  (** basic.md:144-185 deallocate *)
  Definition bm_deallocate (m : BMem) (ptr : ThinPtr Prov) (kind : AllocKind) (size : Size)
      (align : Align) (handle_extra : AE -> PE -> Outcome AE) : Outcome BMem :=
    match tp_prov ptr with
    | None => throw_ub "deallocating invalid pointer"
    | Some (id, pe) =>
        let! a := unwrap (m !! id) in
        if negb (al_live a) then throw_ub "double-free" else
        if negb (tp_addr ptr =? al_addr a) then
          throw_ub "deallocating with pointer not to the beginning of its allocation" else
        if negb (bool_decide (kind = al_kind a)) then
          throw_ub "deallocating memory of one kind with the operation of another kind" else
        if negb (size =? al_size a)%N then
          throw_ub "deallocating with incorrect size information" else
        if negb (bool_decide (align = al_align a)) then
          throw_ub "deallocating with incorrect alignment information" else
        let! ae := handle_extra (al_extra a) pe in
        Ret (<[id := mkAlloc (al_data a) (al_addr a) (al_align a) (al_kind a) false ae]> m)
    end.

  (** basic.md:197-225 check_ptr *)
  Definition bm_check_ptr (m : BMem) (ptr : ThinPtr Prov) (len : Size)
    : Outcome (option (AllocId * PE * Offset)) :=
    if (len =? 0)%N then Ret None else
    match tp_prov ptr with
    | None => throw_ub "dereferencing pointer without provenance"
    | Some (id, pe) =>
        let! a := unwrap (m !! id) in
        if negb (al_live a) then throw_ub "dereferencing pointer to dead allocation" else
        let off := tp_addr ptr - al_addr a in
        if (off <? 0) || (Z.of_N (al_size a) <? off + Z.of_N len) then
          throw_ub "dereferencing pointer outside the bounds of its allocation"
        else
          let! o := unwrap (size_from_bytes off) in Ret (Some (id, pe, o))
    end.

  (** basic.md:227-251 store *)
  Definition bm_store (m : BMem) (ptr : ThinPtr Prov) (bytes : list (AByte Prov)) (align : Align)
      (handle_extra : AE -> PE -> Offset -> Outcome AE) : Outcome BMem :=
    if negb (is_aligned align (tp_addr ptr)) then throw_ub "store to a misaligned pointer" else
    let! o := bm_check_ptr m ptr (N.of_nat (length bytes)) in
    match o with
    | None => Ret m
    | Some (id, pe, off) =>
        let! a := unwrap (m !! id) in
        let! ae := handle_extra (al_extra a) pe off in
        let! data := write_subslice (al_data a) off bytes in
        Ret (<[id := mkAlloc data (al_addr a) (al_align a) (al_kind a) (al_live a) ae]> m)
    end.

  (** basic.md:253-274 load *)
  Definition bm_load (m : BMem) (ptr : ThinPtr Prov) (len : Size) (align : Align)
      (handle_extra : AE -> PE -> Offset -> Outcome AE) : Outcome (list (AByte Prov) * BMem) :=
    if negb (is_aligned align (tp_addr ptr)) then throw_ub "load from a misaligned pointer" else
    let! o := bm_check_ptr m ptr len in
    match o with
    | None => Ret ([], m)
    | Some (id, pe, off) =>
        let! a := unwrap (m !! id) in
        let! ae := handle_extra (al_extra a) pe off in
        let! bytes := subslice (al_data a) off len in
        Ret (bytes, <[id := mkAlloc (al_data a) (al_addr a) (al_align a) (al_kind a) (al_live a) ae]> m)
    end.

  (** basic.md:283-296 leak_check *)
  Definition bm_leak_check (m : BMem) : Outcome unit :=
    for_each (fun a => if al_live a then
                         match al_kind a with
                         | AHeap => Stop TMemoryLeak
                         | AGlobal | AFunction | AStack | AVTable => Ret tt
                         end
                       else Ret tt) m.
End BasicMem.
Arguments Allocation : clear implicits.
Notation BMem PE AE := (list (Allocation PE AE)).

(** basic.md:305-347 the Memory instance without extra data *)
Definition BasicOps (T : Target) : MemOps (nat * unit) unit (BMem unit unit) := {|
  mo_new := [];
  mo_allocate := fun m kind size align addr => bm_allocate T m kind size align tt tt addr;
  mo_deallocate := fun m ptr kind size align =>
    bm_deallocate m ptr kind size align (fun _ _ => Ret tt);
  mo_store := fun m ptr bytes align => bm_store m ptr bytes align (fun _ _ _ => Ret tt);
  mo_load := fun m ptr len align => bm_load m ptr len align (fun _ _ _ => Ret tt);
  mo_deref := fun m ptr len => let! _ := bm_check_ptr m ptr len in Ret tt;
  mo_retag := fun m f ptr _ _ _ => Ret (ptr, m, f);
  mo_new_call := tt;
  mo_end_call := fun m _ => Ret m;
  mo_leak_check := bm_leak_check;
|}.
