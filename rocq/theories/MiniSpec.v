(** What the translation of a program has to contain. *)
From Verif Require Export MirSpec.

(** no two things have the same name *)
Definition distinct {A} (name : A -> option N) : Prop := forall a b n, name a = Some n -> name b = Some n -> a = b.

(** [reloc_is T glob d p r]: the relocation [r] stands for the pointer [p] in the allocation [d]: it is at the same place, it
    points to the global of the same allocation, and its offset is the number in the bytes there *)
Definition reloc_is (T : Target) (glob : RAlloc -> option GlobalName) (d : RAllocData) (p : Offset * RAlloc) (r : Offset * Relocation) : Prop :=
  fst r = fst p /\ glob (snd p) = Some (r_name (snd r)) /\
  exists bs, take (N.to_nat (PTR_SIZE T)) (drop (N.to_nat (fst p)) (ra_bytes d)) = List.map Some bs /\
    Z.of_N (r_offset (snd r)) = endian_decode (ENDIANNESS T) Unsigned bs.
(** the global of an allocation *)
Definition global_is (T : Target) (R : Rustc) (glob : RAlloc -> option GlobalName) (a : RAlloc) (g : Global) : Prop :=
  exists d, rc_alloc R a = Some d /\ g_bytes g = ra_bytes d /\ g_align g = ra_align d /\ Forall2 (reloc_is T glob d) (ra_ptrs d) (g_relocations g).

(** the functions that the entries of a vtable call, with their slots *)
Definition entry_fn (e : VEntry) : option Inst := match e with VeMethod f | VeDrop f => Some f | VeOther => None end.
(** the vtable of a type for a trait: its slot [m] calls the function of entry [m], if that is one *)
Definition vtable_is (R : Rustc) (fn : Inst -> option FnName) (k : RTy * TraitName) (vt : VTable) : Prop :=
  exists es, rc_vtable R (fst k) (snd k) = Some (vt_size vt, vt_align vt, vt_cells vt, es) /\ vt_trait vt = snd k /\
    forall m, map_get (vt_methods vt) m = match es !! N.to_nat m ≫= entry_fn with Some f => fn f | None => None end.

(** The program [P] with the given names: *)
Record names (T : Target) (fuel : nat) (R : Rustc) (entry : Inst) (P : Program)
    (fn : Inst -> option FnName) (glob : RAlloc -> option GlobalName) (vtab : RTy * TraitName -> option VTableName) : Prop := {
  (* names are distinct *)
  na_fn_distinct : distinct fn;
  na_glob_distinct : distinct glob;
  na_vtab_distinct : distinct vtab;
  (* what has a name is in the program, and the start function is something else *)
  na_fn_in : forall i n, fn i = Some n -> n <> pr_start P /\ is_Some (map_get (pr_functions P) n);
  na_glob_in : forall a n, glob a = Some n -> is_Some (map_get (pr_globals P) n);
  na_vtab_in : forall k n, vtab k = Some n -> is_Some (map_get (pr_vtables P) n);
  (* every function but the start function is the translation of the body of the function with its name *)
  na_fn : forall n F, map_get (pr_functions P) n = Some F -> n <> pr_start P ->
    exists i b order c c', fn i = Some n /\ rc_body R i = Some b /\ order ≡ₚ seq 0 (length (ro_blocks b)) /\ translate_body fuel R T c order b = Ret (F, c');
  (* the start function calls the entry function *)
  na_entry : exists n, fn entry = Some n /\ map_get (pr_functions P) (pr_start P) = Some (mk_start_fn n);
  (* every global and every vtable is that of the thing with its name *)
  na_glob : forall n g, map_get (pr_globals P) n = Some g -> exists a, glob a = Some n /\ global_is T R glob a g;
  na_vtab : forall n vt, map_get (pr_vtables P) n = Some vt -> exists k, vtab k = Some n /\ vtable_is R fn k vt;
}.
