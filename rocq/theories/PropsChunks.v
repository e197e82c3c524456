(** Properties of the union chunks and UnsafeCell ranges computed by minimize. *)
From Verif Require Export ChunksProofs ExRepr.

(** * C56 Union chunks are sorted, disjoint, in bounds and maximal *)

(** the chunks computed from the markers: not empty, ascending, separated, in bounds, covering exactly the marked
    bytes *)
Theorem C56_chunks (markers : list bool) :
  chunk_list (chunks_of markers) (N.of_nat (length markers)) /\
  forall i, in_ranges (chunks_of markers) i <-> markers !! N.to_nat i = Some true.
Proof. exact (chunks_of_ok markers). Qed.
Print Assumptions C56_chunks.
(** there is only one such list *)
Theorem C56_unique rs rs' e e' : chunk_list rs e -> chunk_list rs' e' ->
  (forall i, in_ranges rs i <-> in_ranges rs' i) -> rs = rs'.
Proof. exact (chunk_list_unique rs rs' e e'). Qed.
Print Assumptions C56_unique.
(** the union type built from well-formed fields is itself well-formed; in particular nothing crashes *)
Theorem C56_union_wf T ht fields size align :
  union_fields_ok T ht fields size -> valid_size T size = true -> (size mod align_bytes align = 0)%N ->
  exists ty, union_ty T fields size align = Ret ty /\ ty_check_wf T ht ty = Ret tt.
Proof. exact (union_ty_wf T ht fields size align). Qed.
Print Assumptions C56_union_wf.

(** union { (u8, pad, u16), bool at 6 } of 8 bytes *)
Definition ex_union_fields : list (Offset * Ty) :=
  [(0%N, TTuple [(0%N, TInt u8_t); (2%N, TInt (mkIntTy Unsigned 2))] (mkHead 4 (mkAlign 1) None) None); (6%N, TBool)].
Example C56_hyps : chunks_of [false; true; true; false; true] = [(1%N, 2%N); (4%N, 1%N)] /\
  union_fields_ok x86_64 ht0 ex_union_fields 8 /\ valid_size x86_64 8 = true /\
  calc_chunks x86_64 ex_union_fields 8 = Ret [(0%N, 1%N); (2%N, 2%N); (6%N, 1%N)].
Proof.
  split; [reflexivity|]. split; [|split; vm_compute; reflexivity].
  repeat constructor; (eexists; split; [vm_compute; reflexivity|]; cbn; lia).
Qed.

(** * C55 Union chunks keep all data. False of the code for pointers with metadata. *)

(** every byte that the encoding of a value of a field initialises is in a chunk, for fields without wide pointers *)
Theorem C55_covers_partial {P} `{EqDecision P} T ht fields size rs o t (v : Value P) b i x :
  target_ok T -> union_fields_ok T ht fields size -> calc_chunks T fields size = Ret rs -> In (o, t) fields -> no_wide t ->
  encode T t v = Ret b -> b !! N.to_nat i = Some x -> x <> Uninit -> in_ranges rs (o + i).
Proof.
  intros Tok Hf Hc Hin Hn He Hb Hx. destruct (calc_chunks_ok T ht _ _ Hf) as (rs' & Hc' & _ & Hcov).
  rewrite Hc in Hc'. injection Hc' as <-. apply Hcov. exists o, t, i. split; [done|]. split; [done|].
  apply thin_data; [done|]. unfold union_fields_ok in Hf. rewrite List.Forall_forall in Hf.
  exact (encode_data T Tok ht t v b i x (proj1 (Hf _ Hin)) He Hb Hx).
Qed.
Print Assumptions C55_covers_partial.
(** so copying the union keeps what each such field reads as, whichever field was written *)
Theorem C55_copy_partial {P} `{EqDecision P} T ht fields size align rs (bytes bytes' : list (AByte P)) v o t s sub sub' :
  target_ok T -> union_fields_ok T ht fields size -> calc_chunks T fields size = Ret rs ->
  decode T (TUnion fields rs size align) bytes = Ret (Some v) -> encode T (TUnion fields rs size align) v = Ret bytes' ->
  In (o, t) fields -> no_wide t -> size_of T t = Ret s -> subslice bytes o s = Ret sub -> subslice bytes' o s = Ret sub' ->
  decode T t sub' = decode T t sub.
Proof. intros Tok. exact (union_copy T Tok ht fields size align rs bytes bytes' v o t s sub sub'). Qed.
Print Assumptions C55_copy_partial.
(** only bytes that carry data of some field, and that lie in the union, are in a chunk. This holds for all fields. *)
Theorem C55_nothing_else T ht fields size rs i :
  union_fields_ok T ht fields size -> calc_chunks T fields size = Ret rs -> in_ranges rs i ->
  (i < size)%N /\ exists o t j, In (o, t) fields /\ i = (o + j)%N /\ data_byte T (ptr_bytes T) t j.
Proof.
  intros Hf Hc Hi. destruct (calc_chunks_ok T ht _ _ Hf) as (rs' & Hc' & Hcl & Hcov). rewrite Hc in Hc'. injection Hc' as <-.
  split.
  - destruct Hi as (o & s & Hin & Hi). apply chunk_list_le in Hcl. rewrite List.Forall_forall in Hcl.
    specialize (Hcl _ Hin). cbn in Hcl. lia.
  - apply Hcov in Hi as (o & t & j & Hin & -> & Hd). exists o, t, j. split; [done|]. split; [done|]. by apply one_word_data.
Qed.
Print Assumptions C55_nothing_else.
(** Copying a union with a slice pointer field loses the length: the field reads as a pointer before and as
    nothing after. *)
Theorem C55_wide_refuted : exists fields size align rs bytes bytes' v o t s sub sub',
  union_fields_ok x86_64 ht0 fields size /\ calc_chunks x86_64 fields size = Ret rs /\
  decode x86_64 (TUnion fields rs size align) bytes = Ret (Some v) /\
  encode x86_64 (TUnion fields rs size align) v = Ret bytes' /\
  In (o, t) fields /\ size_of x86_64 t = Ret s /\ subslice bytes o s = Ret sub /\ subslice bytes' o s = Ret sub' /\
  decode x86_64 t sub = Ret (Some (VPtr (mkPtr (mkThin 8192 (Some 9%N)) (Some (MElementCount 5))))) /\
  decode x86_64 t sub' = Ret None.
Proof.
  set (t := TPtr (PRaw MKElementCount)).
  destruct (encode x86_64 t (VPtr (mkPtr (mkThin 8192 (Some 9%N)) (Some (MElementCount 5))))) as [b| | |] eqn:Hb;
    vm_compute in Hb; try discriminate. injection Hb as Hb.
  exists [(0%N, t)], 16%N, (mkAlign 3), [(0%N, 8%N)], b. subst b. do 2 eexists. exists 0%N, t, 16%N. do 2 eexists.
  split; [repeat constructor; eexists; split; [vm_compute; reflexivity|]; cbn; lia|].
  split; [vm_compute; reflexivity|]. split; [vm_compute; reflexivity|]. split; [vm_compute; reflexivity|].
  split; [by left|]. split; [vm_compute; reflexivity|]. split; [vm_compute; reflexivity|]. split; [vm_compute; reflexivity|].
  split; vm_compute; reflexivity.
Qed.
Print Assumptions C55_wide_refuted.

Example C55_hyps : target_ok x86_64 /\ union_fields_ok x86_64 ht0 ex_union_fields 8 /\
  Forall (fun f => no_wide (snd f)) ex_union_fields /\
  exists (bytes bytes' : list (AByte N)) v, decode x86_64 (TUnion ex_union_fields [(0%N, 1%N); (2%N, 2%N); (6%N, 1%N)] 8 (mkAlign 1)) bytes = Ret (Some v) /\
    encode x86_64 (TUnion ex_union_fields [(0%N, 1%N); (2%N, 2%N); (6%N, 1%N)] 8 (mkAlign 1)) v = Ret bytes' /\
    bytes <> bytes' /\ In (6%N, TBool) ex_union_fields /\ (exists sub, subslice bytes 6 1 = Ret sub) /\
    decode x86_64 TBool [@Init N x01 None] = Ret (Some (VBool true)).
Proof.
  split; [exact x86_64_ok|]. split; [apply C56_hyps|]. split; [repeat constructor|].
  exists [@Init N x01 None; Init x02 None; Init x03 None; Init x04 None; Uninit; Uninit; Init x01 None; Init x05 None].
  do 2 eexists. split; [vm_compute; reflexivity|]. split; [vm_compute; reflexivity|]. split; [discriminate|].
  split; [by right; left|]. split; [eexists|]; vm_compute; reflexivity.
Qed.

(** * C57 Array interior-mutability ranges. False of the code unless the array has two elements. *)

(** the ranges are exactly the bytes inside an UnsafeCell, if all arrays of cells have two elements *)
Theorem C57_cells_partial ty : arrays_two ty -> forall i, in_ranges (cells_in_sized_ty ty) i <-> in_cell ty i.
Proof. exact (cells_exact ty). Qed.
Print Assumptions C57_cells_partial.
(** what the code computes for an array: the ranges of elements 0 and 1, whatever the count *)
Theorem C57_array_two elem count size i :
  in_ranges (cells_in_sized_ty (RsArray elem count size)) i <->
  exists k j, (k < 2)%N /\ i = (k * rs_size elem + j)%N /\ in_ranges (cells_in_sized_ty elem) j.
Proof. exact (array_cells elem count size i). Qed.
Print Assumptions C57_array_two.
(** [Cell<u8>; 3]: the last cell is missing *)
Theorem C57_missing_refuted : exists ty i, in_cell ty i /\ ~ in_ranges (cells_in_sized_ty ty) i.
Proof.
  exists (RsArray (RsUnsafeCell 1) 3 3), 2%N. split.
  - change 2%N with (2 * rs_size (RsUnsafeCell 1) + 0)%N. constructor; [lia|]. constructor. lia.
  - cbn. intros (o & s & [[= <- <-]|[[= <- <-]|[]]] & Hi); lia.
Qed.
Print Assumptions C57_missing_refuted.
(** [Cell<u8>; 1]: a range outside the type, so that a reference to the array is not even a well-formed type *)
Theorem C57_outside_refuted : exists ty i, in_ranges (cells_in_sized_ty ty) i /\ ~ in_cell ty i /\ (rs_size ty <= i)%N /\
  pointee_check_wf x86_64 ht0 (mkPointee (LSized (rs_size ty) align_one) true (CSized (cells_in_sized_ty ty)) false true)
    = Stop (TIllFormed "LayoutStrategy: invalid cells").
Proof.
  exists (RsArray (RsUnsafeCell 1) 1 1), 1%N. split; [exists 1%N, 1%N; split; [by right; left|lia]|]. split; [|split].
  - intros H; inversion H as [| | |? ? ? k j Hk Hj Hi Heq]. inversion Hj. cbn in Heq. lia.
  - cbn. lia.
  - vm_compute. reflexivity.
Qed.
Print Assumptions C57_outside_refuted.

Example C57_hyps : arrays_two (RsFields [(0%N, RsPlain 4); (4%N, RsArray (RsUnsafeCell 2) 2 4); (8%N, RsArray (RsPlain 1) 7 7)] 16) /\
  in_cell (RsFields [(0%N, RsPlain 4); (4%N, RsArray (RsUnsafeCell 2) 2 4); (8%N, RsArray (RsPlain 1) 7 7)] 16) 7.
Proof.
  split.
  - constructor. constructor; [constructor|]. constructor; [constructor; [constructor|by right]|].
    constructor; [|constructor]. constructor; [constructor|]. left. intros i H. inversion H.
  - change 7%N with (4 + (1 * rs_size (RsUnsafeCell 2) + 1))%N. econstructor; [by right; left|]. constructor; [lia|]. constructor. lia.
Qed.
