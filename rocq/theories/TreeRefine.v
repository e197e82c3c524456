(** Tree Borrows restricts the basic memory: forgetting the trees turns every successful history into
    a successful history of the basic memory with the same results. *)
From Verif Require Export TreeGuard.
From stdpp Require Import relations.
From Coq Require Import ZifyBool ZifyN ZifyNat.
Local Open Scope Z_scope.

(** forgetting the path in a provenance *)
Definition er_prov (p : TProv) : nat * unit := (fst p, tt).
Definition er_thin (p : ThinPtr TProv) : ThinPtr (nat * unit) := mkThin (tp_addr p) (option_map er_prov (tp_prov p)).
Definition er_meta (m : PtrMeta TProv) : PtrMeta (nat * unit) :=
  match m with MElementCount c => MElementCount c | MVTablePointer p => MVTablePointer (er_thin p) end.
Definition er_ptr (p : Pointer TProv) : Pointer (nat * unit) :=
  mkPtr (er_thin (p_thin p)) (option_map er_meta (p_meta p)).
Definition er_byte (b : AByte TProv) : AByte (nat * unit) :=
  match b with
  | Uninit => Uninit
  | Init d fr => Init d (option_map (fun fr => mkFrag (er_prov (frag_prov fr)) (frag_pos fr)) fr)
  end.
Definition er_bytes : list (AByte TProv) -> list (AByte (nat * unit)) := List.map er_byte.
(** forgetting the tree of an allocation *)
Definition er_alloc (a : Allocation (list nat) Node) : Allocation unit unit :=
  mkAlloc (er_bytes (al_data a)) (al_addr a) (al_align a) (al_kind a) (al_live a) tt.
Definition er_mem : TMem -> BMem unit unit := List.map er_alloc.

(** the same operation for the basic memory; its retag ignores the vtable lookup, so any will do *)
Definition er_op (op : MemOp TProv TFrame) : MemOp (nat * unit) unit :=
  match op with
  | OpAllocate kind size align addr => OpAllocate kind size align addr
  | OpDeallocate ptr kind size align => OpDeallocate (er_thin ptr) kind size align
  | OpStore ptr bytes align => OpStore (er_thin ptr) (er_bytes bytes) align
  | OpLoad ptr len align => OpLoad (er_thin ptr) len align
  | OpRetag f ptr pt fe lk => OpRetag tt (er_ptr ptr) pt fe (fun _ => Panic)
  | OpEndCall f => OpEndCall tt
  end.

Section Refine.
  Variable T : Target.
  Notation TO := (TreeOps T).
  Notation BO := (BasicOps T).

  Lemma er_lookup m id : er_mem m !! id = option_map er_alloc (m !! id).
  Proof. unfold er_mem. rewrite list_lookup_fmap. by destruct (m !! id). Qed.
  Lemma er_size a : al_size (er_alloc a) = al_size a.
  Proof. unfold al_size, er_alloc, er_bytes. simpl. by rewrite map_length. Qed.
  Lemma er_insert m id a : er_mem (<[id := a]> m) = <[id := er_alloc a]> (er_mem m).
  Proof. unfold er_mem. apply list_fmap_insert. Qed.
  Lemma er_insert_extra m id a root :
    m !! id = Some a -> er_mem (<[id := set_extra a root]> m) = er_mem m.
  Proof.
    intros Ha. rewrite er_insert. apply list_insert_id. rewrite er_lookup, Ha. done.
  Qed.

  Lemma er_check_ptr m ptr len :
    bm_check_ptr (er_mem m) (er_thin ptr) len =
    let! o := bm_check_ptr m ptr len in Ret (option_map (fun '(id, _, off) => (id, tt, off)) o).
  Proof.
    unfold bm_check_ptr. destruct (N.eqb_spec len 0); [done|]. simpl.
    destruct (tp_prov ptr) as [[id pe]|]; [|done]. simpl. rewrite er_lookup.
    destruct (m !! id) as [a|]; [|done]. simpl. destruct (al_live a); [|done]. simpl.
    rewrite er_size. destruct (_ || _); [done|]. by destruct (size_from_bytes _).
  Qed.

  Lemma er_overlaps a addr size : al_overlaps (er_alloc a) addr size = al_overlaps a addr size.
  Proof. unfold al_overlaps. rewrite er_size. done. Qed.

  Theorem er_allocate m kind size align addr p m' :
    mo_allocate TO m kind size align addr = Ret (p, m') ->
    mo_allocate BO (er_mem m) kind size align addr = Ret (er_thin p, er_mem m').
  Proof.
    simpl. unfold bm_allocate. destruct (valid_size T size); [|done]. simpl.
    assert (bm_addr_ok T (er_mem m) size align addr = bm_addr_ok T m size align addr) as ->.
    { unfold bm_addr_ok. do 2 f_equal. unfold er_mem. induction m as [|a m IH]; [done|]. simpl.
      by rewrite er_overlaps, IH. }
    destruct (bm_addr_ok T m size align addr); [|done]. simpl. intros [= <- <-].
    unfold er_mem, er_thin. rewrite map_length, map_app. simpl. do 4 f_equal. unfold er_alloc, er_bytes. simpl.
    f_equal. unfold list_repeat. symmetry. apply map_replicate_id || (rewrite fmap_replicate; done).
  Qed.

  Theorem er_store m ptr bytes align m' :
    mo_store TO m ptr bytes align = Ret m' ->
    mo_store BO (er_mem m) (er_thin ptr) (er_bytes bytes) align = Ret (er_mem m').
  Proof.
    simpl. unfold bm_store. simpl. destruct (is_aligned align (tp_addr ptr)); [|done]. simpl.
    unfold er_bytes at 1. rewrite map_length. rewrite er_check_ptr.
    intros H. apply obind_ret in H as (o & -> & H). simpl. destruct o as [[[id pe] off]|]; simpl.
    - rewrite er_lookup. apply obind_ret in H as (a & Ha & H). apply unwrap_ret in Ha. rewrite Ha. simpl.
      apply obind_ret in H as (root & Hr & H). apply obind_ret in H as (data & Hd & [= <-]).
      apply write_subslice_ret in Hd as [Hle ->].
      destruct (write_subslice_total (er_bytes (al_data a)) off (er_bytes bytes)) as [d' Hd'].
      { unfold er_bytes. rewrite !map_length. lia. }
      rewrite Hd'. simpl. rewrite er_insert. do 2 f_equal. unfold er_alloc. simpl. f_equal.
      apply write_subslice_ret in Hd' as [_ ->]. unfold er_bytes. rewrite !map_app, firstn_map, skipn_map, map_length.
      done.
    - injection H as <-. done.
  Qed.

  Theorem er_load m ptr len align bytes m' :
    mo_load TO m ptr len align = Ret (bytes, m') ->
    mo_load BO (er_mem m) (er_thin ptr) len align = Ret (er_bytes bytes, er_mem m').
  Proof.
    simpl. unfold bm_load. simpl. destruct (is_aligned align (tp_addr ptr)); [|done]. simpl.
    rewrite er_check_ptr.
    intros H. apply obind_ret in H as (o & -> & H). simpl. destruct o as [[[id pe] off]|]; simpl.
    - rewrite er_lookup. apply obind_ret in H as (a & Ha & H). apply unwrap_ret in Ha. rewrite Ha. simpl.
      apply obind_ret in H as (root & Hr & H). apply obind_ret in H as (data & Hd & [= <- <-]).
      apply subslice_ret in Hd as [Hle ->].
      destruct (subslice_total (er_bytes (al_data a)) off len) as [d' Hd'].
      { unfold er_bytes. rewrite !map_length. lia. }
      rewrite Hd'. simpl. rewrite er_insert. apply subslice_ret in Hd' as [_ ->].
      unfold er_bytes. rewrite skipn_map, firstn_map. done.
    - injection H as <- <-. done.
  Qed.

  Theorem er_deallocate m ptr kind size align m' :
    mo_deallocate TO m ptr kind size align = Ret m' ->
    mo_deallocate BO (er_mem m) (er_thin ptr) kind size align = Ret (er_mem m').
  Proof.
    simpl. unfold bm_deallocate. simpl. destruct (tp_prov ptr) as [[id pe]|]; [|done]. simpl.
    rewrite er_lookup. intros H. apply obind_ret in H as (a & Ha & H). apply unwrap_ret in Ha. rewrite Ha. simpl.
    rewrite er_size.
    destruct (al_live a); [|done]. simpl in *. destruct (_ =? _); [|done]. simpl in *.
    destruct (bool_decide (kind = _)); [|done]. simpl in *.
    destruct (_ =? _)%N; [|done]. simpl in *.
    destruct (bool_decide (align = _)); [|done]. simpl in *.
    apply obind_ret in H as (root & _ & [= <-]). rewrite er_insert. done.
  Qed.

  Theorem er_deref m ptr len : mo_deref BO (er_mem m) (er_thin ptr) len = mo_deref TO m ptr len.
  Proof. simpl. rewrite er_check_ptr. by destruct (bm_check_ptr m ptr len). Qed.

  Theorem er_leak_check m : mo_leak_check BO (er_mem m) = mo_leak_check TO m.
  Proof.
    simpl. unfold bm_leak_check, er_mem. induction m as [|a m IH]; [done|]. simpl.
    destruct (al_live a), (al_kind a); simpl; done.
  Qed.

  (** retags and call ends change only trees *)
  Lemma extra_change_er m m' : extra_change m m' -> er_mem m' = er_mem m.
  Proof.
    intros H. induction H as [m|m m1 id a ae Hc IH Ha]; [done|]. rewrite <- IH.
    apply (er_insert_extra m1 id a ae Ha).
  Qed.

  Theorem er_retag m f ptr pt fe lk p m' f' :
    mo_retag TO m f ptr pt fe lk = Ret (p, m', f') ->
    er_mem m' = er_mem m /\ er_ptr p = er_ptr ptr.
  Proof.
    intros H. split.
    - apply extra_change_er. by eapply (bl_retag _ _ (tree_like T)).
    - simpl in H. apply tb_retag_ret in H as [(_ & -> & _)|(s & p' & Hs & Hr & ->)]; [done|].
      apply reborrow_ret in Hr as [(_ & _ & -> & _)|(id & parent & a & a' & cp & Hp & _ & _ & _ & -> & _)]; [done|].
      unfold er_ptr, er_thin. simpl. by rewrite Hp.
  Qed.

  Theorem er_end_call m f m' : mo_end_call TO m f = Ret m' -> er_mem m' = er_mem m.
  Proof. intros H. apply extra_change_er. by eapply (bl_end _ _ (tree_like T)). Qed.

  Theorem er_mem_op m op m' :
    mem_op TO m op = Ret m' -> mem_op BO (er_mem m) (er_op op) = Ret (er_mem m').
  Proof.
    destruct op as [kind size align addr|ptr kind size align|ptr bytes align|ptr len align|f ptr pt fe vl|f].
    - unfold mem_op, er_op. intros H. apply obind_ret in H as ([p m1] & H & [= <-]).
      by rewrite (er_allocate _ _ _ _ _ _ _ H).
    - apply er_deallocate.
    - apply er_store.
    - unfold mem_op, er_op. intros H. apply obind_ret in H as ([b m1] & H & [= <-]).
      by rewrite (er_load _ _ _ _ _ _ H).
    - unfold mem_op, er_op. intros H. apply obind_ret in H as ([[p m1] f1] & H & [= <-]).
      apply er_retag in H as [-> _]. done.
    - unfold mem_op, er_op. intros H. apply er_end_call in H as ->. done.
  Qed.

  Theorem er_mem_run m ops m' :
    mem_run TO m ops = Ret m' -> mem_run BO (er_mem m) (List.map er_op ops) = Ret (er_mem m').
  Proof.
    unfold mem_run. revert m. induction ops as [|op ops IH]; intros m H.
    - injection H as <-. done.
    - cbn [fold_m List.map] in *. apply obind_ret in H as (m1 & H1 & H). rewrite (er_mem_op _ _ _ H1).
      cbn [obind]. by apply IH.
  Qed.
End Refine.
