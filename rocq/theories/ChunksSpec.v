(** Specification for the union chunks and UnsafeCell ranges that minimize computes (C55-C57). *)
From Verif Require Export ReprSpec WfTypes Chunks.

(** the bytes of a pointer: one word, or two if it has metadata *)
Definition ptr_bytes (T : Target) (pt : PtrType) : Size :=
  match ptr_meta_kind pt with MKNone => PTR_SIZE T | _ => (2 * PTR_SIZE T)%N end.

(** [data_byte T pw ty i]: byte [i] of type [ty] can carry data: it is a byte of an integer, boolean or pointer
    in it, of a chunk of a union in it, of a variant's tag, or read by a discriminator. [pw] gives the bytes of
    each pointer type; [ptr_bytes T] is the right one. *)
Inductive data_byte (T : Target) (pw : PtrType -> Size) : Ty -> N -> Prop :=
| db_int it i : (i < it_size it)%N -> data_byte T pw (TInt it) i
| db_bool : data_byte T pw TBool 0
| db_ptr pt i : (i < pw pt)%N -> data_byte T pw (TPtr pt) i
| db_tuple fields head u o t i : In (o, t) fields -> data_byte T pw t i -> data_byte T pw (TTuple fields head u) (o + i)
| db_array elem count s k i : size_of T elem = Ret s -> Z.of_N k < count -> data_byte T pw elem i ->
    data_byte T pw (TArray elem count) (k * s + i)
| db_union fields chunks size align o s i : In (o, s) chunks -> (o <= i < o + s)%N ->
    data_byte T pw (TUnion fields chunks size align) i
| db_variant variants dty discr size align d t tg i : In (d, (t, tg)) variants -> data_byte T pw t i ->
    data_byte T pw (TEnum variants dty discr size align) i
| db_tag variants dty discr size align d t tg off it val i : In (d, (t, tg)) variants -> In (off, (it, val)) tg ->
    (off <= i < off + it_size it)%N -> data_byte T pw (TEnum variants dty discr size align) i
| db_discr variants dty discr size align i : discr_reads discr i -> data_byte T pw (TEnum variants dty discr size align) i.

(** the type contains no pointer with metadata, except inside nested unions *)
Inductive no_wide : Ty -> Prop :=
| nw_int it : no_wide (TInt it)
| nw_bool : no_wide TBool
| nw_ptr pt : ptr_meta_kind pt = MKNone -> no_wide (TPtr pt)
| nw_tuple fields head : Forall (fun f => no_wide (snd f)) fields -> no_wide (TTuple fields head None)
| nw_array elem count : no_wide elem -> no_wide (TArray elem count)
| nw_union fields chunks size align : no_wide (TUnion fields chunks size align)
| nw_enum variants dty discr size align : Forall (fun v => no_wide (fst (snd v))) variants ->
    no_wide (TEnum variants dty discr size align).

(** byte [i] is in one of the ranges *)
Definition in_ranges (rs : list (Offset * Size)) (i : N) : Prop :=
  exists o s, In (o, s) rs /\ (o <= i < o + s)%N.

(** [chunk_list rs e]: the ranges are not empty, ascending, with at least one byte between any two, and end by [e] *)
Inductive chunk_list : list (Offset * Size) -> N -> Prop :=
| cl_nil e : chunk_list [] e
| cl_cons o s rs e : (0 < s)%N -> (o + s <= e)%N -> Forall (fun r => o + s < fst r)%N rs -> chunk_list rs e ->
    chunk_list ((o, s) :: rs) e.

(** the fields are well-formed sized types that lie inside the union *)
Definition union_fields_ok (T : Target) (ht : TraitName -> bool) (fields : list (Offset * Ty)) (size : Size) : Prop :=
  Forall (fun f => ty_check_wf T ht (snd f) = Ret tt /\ exists s, size_of T (snd f) = Ret s /\ (fst f + s <= size)%N) fields.

(** ** UnsafeCell *)

(** [in_cell ty i]: byte [i] of a value of type [ty] is inside an UnsafeCell, or in a union or enum that may
    contain one *)
Inductive in_cell : RsTy -> N -> Prop :=
| ic_fields fields size o t i : In (o, t) fields -> in_cell t i -> in_cell (RsFields fields size) (o + i)
| ic_cell size i : (i < size)%N -> in_cell (RsUnsafeCell size) i
| ic_union size i : (i < size)%N -> in_cell (RsUnionOrEnum false size) i
| ic_array elem count size k i : (k < count)%N -> in_cell elem i -> in_cell (RsArray elem count size) (k * rs_size elem + i).

(** every array whose elements have cells has exactly two elements *)
Inductive arrays_two : RsTy -> Prop :=
| a2_plain s : arrays_two (RsPlain s)
| a2_fields fields s : Forall (fun f => arrays_two (snd f)) fields -> arrays_two (RsFields fields s)
| a2_cell s : arrays_two (RsUnsafeCell s)
| a2_union f s : arrays_two (RsUnionOrEnum f s)
| a2_array elem count s : arrays_two elem -> (forall i, ~ in_cell elem i) \/ count = 2%N -> arrays_two (RsArray elem count s).
