(** The properties of Tree Borrows (C27-C37). Only the statements are here; the proofs are in the
    files imported. Trees are looked at through [ninfo] (permissions and protector of the node at a
    path), memory through [addr_perm] and [mem_prot]; these, [derived], [not_derived], [covers],
    [released] and [mut_like] are defined in TreeSpec.v, histories in MemSpec.v ([mem_run]) and
    TreeFrames.v ([call_run]), [cell_at], [pointee_cell] and [no_padding] in TreeMask.v. *)
From Verif Require Import ExTree TreeSwap.
Local Open Scope Z_scope.

(** C27. A mutable reference (or box) was retagged on function entry, then a byte was written through
    a pointer derived from it. Until its protector is released, every access of that byte through a
    pointer not derived from it is undefined behaviour, whatever happened in between. *)
Theorem C27_protected_mut_exclusive T ops0 m0 f ptr pt lk p m1 f1 id P ops1 m2 w bytes al m3 ops2 m4 x r :
  let TO := TreeOps T in
  mem_run TO (mo_new TO) ops0 = Ret m0 ->
  mut_like pt -> mo_retag TO m0 f ptr pt true lk = Ret (p, m1, f1) ->
  tp_prov (p_thin p) = Some (id, P) ->
  mem_run TO m1 ops1 = Ret m2 -> (id, P) ∉ released ops1 ->
  mo_store TO m2 w bytes al = Ret m3 -> derived w id P -> covers w (N.of_nat (length bytes)) x ->
  mem_run TO m3 ops2 = Ret m4 -> (id, P) ∉ released ops2 ->
  not_derived r id P ->
  (forall len al', covers r len x -> is_ub (mo_load TO m4 r len al')) /\
  (forall bytes' al', covers r (N.of_nat (length bytes')) x -> is_ub (mo_store TO m4 r bytes' al')).
Proof. exact (mut_exclusive T ops0 m0 f ptr pt lk p m1 f1 id P ops1 m2 w bytes al m3 ops2 m4 x r). Qed.
Print Assumptions C27_protected_mut_exclusive.

(** the pointer the reference was derived from is such a pointer *)
Example C27_hyps :
  mem_run TX (mo_new TX) ex_ops0 = Ret ex_m0 /\ mut_like (PRef Mutable ex_pi) /\
  mo_retag TX ex_m0 [] (mkPtr ex_root None) (PRef Mutable ex_pi) true no_vtables
    = Ret (mkPtr ex_child None, ex_m1, [(0%nat, [0%nat])]) /\
  mo_store TX ex_m1 ex_child [c_x x05] (mkAlign 0) = Ret ex_m2 /\ derived ex_child 0 [0%nat] /\ covers ex_child 1 4096 /\
  mem_run TX ex_m2 ex_ops1 = Ret ex_m3 /\ released ex_ops1 = [] /\ not_derived ex_root 0 [0%nat] /\
  mo_load TX ex_m3 ex_root 1 (mkAlign 0)
    = Stop (TUb "Tree Borrows: foreign read of protected Unique reference").
Proof.
  repeat split; try apply ex_m0_run; try apply ex_m1_ret; try apply ex_m2_ret; try apply ex_m3_run; try done.
  - by exists [0%nat].
  - exists []. split; [done|]. intros [k Hk]. done.
Qed.

(** C28. While a shared reference retagged on function entry is protected, writing one of its frozen
    bytes is undefined behaviour through every pointer, and reading its frozen bytes through it is
    allowed. The retag itself is the read. *)
Theorem C28_protected_shared_frozen T ops0 m0 f ptr pi lk p m1 f1 id P mask ops1 m2 :
  let TO := TreeOps T in
  mem_run TO (mo_new TO) ops0 = Ret m0 ->
  mo_retag TO m0 f ptr (PRef Immutable pi) true lk = Ret (p, m1, f1) ->
  tp_prov (p_thin p) = Some (id, P) ->
  freeze_mask (pi_cells pi) (pi_layout pi) (p_meta ptr) lk = Ret mask ->
  mem_run TO m1 ops1 = Ret m2 -> (id, P) ∉ released ops1 ->
  (forall i w Q bytes al, mask !! i = Some true -> tp_prov w = Some (id, Q) ->
     covers w (N.of_nat (length bytes)) (tp_addr (p_thin p) + Z.of_nat i) ->
     is_ub (mo_store TO m2 w bytes al)) /\
  (forall r len al, derived r id P -> tp_addr r mod Z.of_N (align_bytes al) = 0 ->
     (forall x, covers r len x -> exists i, x = tp_addr (p_thin p) + Z.of_nat i /\ mask !! i = Some true) ->
     exists b m3, mo_load TO m2 r len al = Ret (b, m3)).
Proof. exact (shared_immutable T ops0 m0 f ptr pi lk p m1 f1 id P mask ops1 m2). Qed.
Print Assumptions C28_protected_shared_frozen.

(** The same for any node that is protected and frozen at a byte, once that byte was read through a
    pointer derived from it. *)
Theorem C28_protected_frozen_read T ops0 m0 id P x b r len al bs m1 ops m2 :
  let TO := TreeOps T in
  mem_run TO (mo_new TO) ops0 = Ret m0 -> addr_perm m0 id P x = Some (Prot (PFrozen b)) ->
  mo_load TO m0 r len al = Ret (bs, m1) -> derived r id P -> covers r len x ->
  mem_run TO m1 ops = Ret m2 -> (id, P) ∉ released ops ->
  forall w Q bytes al', tp_prov w = Some (id, Q) -> covers w (N.of_nat (length bytes)) x ->
    is_ub (mo_store TO m2 w bytes al').
Proof. exact (frozen_read_guard T ops0 m0 id P x b r len al bs m1 ops m2). Qed.
Print Assumptions C28_protected_frozen_read.

(** two frozen bytes and a cell of two bytes; the history reads everything and writes to the cell *)
Example C28_hyps :
  mem_run TX (mo_new TX) ex_ops0 = Ret ex_m0 /\
  mo_retag TX ex_m0 [] (mkPtr ex_root None) (PRef Immutable ex_pi_cell) true no_vtables
    = Ret (mkPtr ex_child None, ex_s1, [(0%nat, [0%nat])]) /\
  freeze_mask (pi_cells ex_pi_cell) (pi_layout ex_pi_cell) None no_vtables = Ret [true; true; false; false] /\
  mem_run TX ex_s1 ex_ops2 = Ret ex_s2 /\ released ex_ops2 = [] /\
  addr_perm ex_s2 0 [0%nat] 4097 = Some (Prot (PFrozen true)) /\
  is_ub (mo_store TX ex_s2 ex_root [c_x x01] (mkAlign 0)).
Proof.
  split; [apply ex_m0_run|]. split; [apply ex_s1_ret|]. split; [done|]. split; [apply ex_s2_run|].
  split; [done|]. split; [done|]. by eexists.
Qed.

(** C29. Disabled stays disabled: every later access of that byte through the node is undefined
    behaviour. *)
Theorem C29_disabled_forever T m ops0 id P x p ops m' r :
  let TO := TreeOps T in
  mem_run TO (mo_new TO) ops0 = Ret m -> addr_perm m id P x = Some p -> is_disabled p ->
  mem_run TO m ops = Ret m' -> derived r id P ->
  (exists p', addr_perm m' id P x = Some p' /\ is_disabled p') /\
  (forall len al, covers r len x -> is_ub (mo_load TO m' r len al)) /\
  (forall bytes al, covers r (N.of_nat (length bytes)) x -> is_ub (mo_store TO m' r bytes al)).
Proof. exact (disabled_forever T m ops0 id P x p ops m' r). Qed.
Print Assumptions C29_disabled_forever.

(** Frozen never permits a write again. *)
Theorem C29_frozen_never_writes T m ops0 id P x p ops m' r :
  let TO := TreeOps T in
  mem_run TO (mo_new TO) ops0 = Ret m -> addr_perm m id P x = Some p -> is_frozen p ->
  mem_run TO m ops = Ret m' -> derived r id P ->
  (exists p', addr_perm m' id P x = Some p' /\ (is_frozen p' \/ is_disabled p')) /\
  (forall bytes al, covers r (N.of_nat (length bytes)) x -> is_ub (mo_store TO m' r bytes al)).
Proof. exact (frozen_forever T m ops0 id P x p ops m' r). Qed.
Print Assumptions C29_frozen_never_writes.

(** A foreign write disables every unprotected node except those of interior mutable data; a foreign
    read freezes a unique one. *)
Theorem C29_foreign_write_disables T m id P x u w bytes al m' :
  addr_perm m id P x = Some (Unprot u) -> u <> UCell -> u <> UReservedIm ->
  mo_store (TreeOps T) m w bytes al = Ret m' -> not_derived w id P -> covers w (N.of_nat (length bytes)) x ->
  addr_perm m' id P x = Some (Unprot UDisabled).
Proof. exact (foreign_write_disables T m id P x u w bytes al m'). Qed.
Print Assumptions C29_foreign_write_disables.

Theorem C29_foreign_read_freezes T m id P x w len al b m' :
  addr_perm m id P x = Some (Unprot UUnique) ->
  mo_load (TreeOps T) m w len al = Ret (b, m') -> not_derived w id P -> covers w len x ->
  addr_perm m' id P x = Some (Unprot UFrozen).
Proof. exact (foreign_read_freezes T m id P x w len al b m'). Qed.
Print Assumptions C29_foreign_read_freezes.

Example C29_hyps :
  mem_run TX (mo_new TX) ex_ops3 = Ret ex_u1 /\ addr_perm ex_u1 0 [0%nat] 4096 = Some (Unprot UUnique) /\
  not_derived ex_root 0 [0%nat] /\ derived ex_child 0 [0%nat] /\
  mo_store TX ex_u1 ex_root (four x03) (mkAlign 0) = Ret ex_u2 /\
  addr_perm ex_u2 0 [0%nat] 4096 = Some (Unprot UDisabled) /\
  mo_load TX ex_u1 ex_root 1 (mkAlign 0) = Ret ([c_x x05], ex_u3) /\
  addr_perm ex_u3 0 [0%nat] 4096 = Some (Unprot UFrozen) /\
  addr_perm ex_u3 0 [0%nat] 4097 = Some (Unprot UReserved).
Proof.
  repeat split; try apply ex_u1_run; try apply ex_u2_ret; try apply ex_u3_ret; try done.
  - exists []. split; [done|]. intros [k Hk]. done.
  - by exists [0%nat].
Qed.

(** C30. While a strongly protected reference has accessed a byte, deallocating its allocation is
    undefined behaviour through every pointer. *)
Theorem C30_strong_protector_dealloc T ops0 m1 id P x q op r m2 ops m3 :
  let TO := TreeOps T in
  mem_run TO (mo_new TO) ops0 = Ret m1 ->
  mem_prot m1 id P = Some ProtStrong -> addr_perm m1 id P x = Some (Prot q) -> q <> PCell ->
  (exists len al, op = OpLoad r len al /\ covers r len x) \/
  (exists bytes al, op = OpStore r bytes al /\ covers r (N.of_nat (length bytes)) x) ->
  derived r id P -> mem_op TO m1 op = Ret m2 ->
  mem_run TO m2 ops = Ret m3 -> (id, P) ∉ released ops ->
  forall d Q kind size align, tp_prov d = Some (id, Q) -> is_ub (mo_deallocate TO m3 d kind size align).
Proof. exact (strong_protector_dealloc T ops0 m1 id P x q op r m2 ops m3). Qed.
Print Assumptions C30_strong_protector_dealloc.

(** References retagged on function entry are strongly protected, and the call records it. *)
Theorem C30_entry_retag_strong T m f ptr mt pi lk p m' f' id P :
  mo_retag (TreeOps T) m f ptr (PRef mt pi) true lk = Ret (p, m', f') ->
  (mt = Mutable -> pi_unpin pi = true) ->
  tp_prov (p_thin p) = Some (id, P) ->
  mem_prot m' id P = Some ProtStrong /\ (id, P) ∈ f'.
Proof. exact (retag_entry_protected T m f ptr mt pi lk p m' f' id P). Qed.
Print Assumptions C30_entry_retag_strong.

(** The check is exactly: a strongly protected node has a byte where a foreign write would be
    undefined behaviour. *)
Theorem C30_check_exact n :
  node_blocks_dealloc n = true <->
  exists path ps o q, ninfo n path = Some (ps, ProtStrong) /\ ps !! o = Some (Prot q) /\
    is_ub (perm_transition (Prot q) AkWrite Foreign).
Proof.
  rewrite blocks_dealloc_exact. split.
  - intros (path & ps & o & p & Hi & Ho & Hb). destruct p as [u|q]; [by destruct u|].
    exists path, ps, o, q. split; [done|]. split; [done|].
    apply prevents_dealloc_exact in Hb as [msg Hm]. exists msg. simpl. by rewrite Hm.
  - intros (path & ps & o & q & Hi & Ho & [msg Hm]). exists path, ps, o, (Prot q). split; [done|]. split; [done|].
    apply prevents_dealloc_exact. simpl in Hm. destruct (p_foreign_write q); try done. injection Hm as ->. by eexists.
Qed.
Print Assumptions C30_check_exact.

Example C30_hyps :
  mem_prot ex_m1 0 [0%nat] = Some ProtStrong /\ addr_perm ex_m1 0 [0%nat] 4096 = Some (Prot (PReserved true false)) /\
  mem_op TX ex_m1 (OpStore ex_child [c_x x05] (mkAlign 0)) = Ret ex_m2 /\
  mem_run TX ex_m2 ex_ops1 = Ret ex_m3 /\
  is_ub (mo_deallocate TX ex_m3 ex_root AHeap 8 (mkAlign 3)) /\
  exists m, mo_deallocate TX ex_u2 ex_root AHeap 8 (mkAlign 3) = Ret m.
Proof.
  split; [done|]. split; [done|]. split; [apply ex_m2_ret|]. split; [apply ex_m3_run|].
  split; [by eexists|]. eexists. vm_compute. reflexivity.
Qed.

(** C31. Tree Borrows only adds undefined behaviour: every history it accepts is accepted by the basic
    memory with the same choices of addresses, ends in the same memory up to provenance and trees, and
    loads return the same bytes; retagging changes nothing else. [er_op], [er_mem], [er_bytes] forget paths and trees. *)
Theorem C31_refines_basic T ops m :
  mem_run (TreeOps T) (mo_new (TreeOps T)) ops = Ret m ->
  mem_run (BasicOps T) (mo_new (BasicOps T)) (List.map er_op ops) = Ret (er_mem m) /\
  (forall ptr len align bytes m', mo_load (TreeOps T) m ptr len align = Ret (bytes, m') ->
     mo_load (BasicOps T) (er_mem m) (er_thin ptr) len align = Ret (er_bytes bytes, er_mem m')) /\
  mo_leak_check (BasicOps T) (er_mem m) = mo_leak_check (TreeOps T) m /\
  (forall ptr len, mo_deref (BasicOps T) (er_mem m) (er_thin ptr) len = mo_deref (TreeOps T) m ptr len) /\
  (forall f ptr pt fn_entry lookup p m' f', mo_retag (TreeOps T) m f ptr pt fn_entry lookup = Ret (p, m', f') ->
     er_mem m' = er_mem m /\ er_ptr p = er_ptr ptr).
Proof.
  intros H. split; [exact (er_mem_run T _ _ _ H)|]. split; [exact (er_load T m)|]. split; [exact (er_leak_check T m)|].
  split; [exact (er_deref T m)|]. intros f ptr pt fe lk p m' f'. exact (er_retag T m f ptr pt fe lk p m' f').
Qed.
Print Assumptions C31_refines_basic.

(** what [er_mem] keeps: everything but the trees, and of the bytes everything but paths *)
Theorem C31_erasure_keeps m id a :
  m !! id = Some a ->
  exists a', er_mem m !! id = Some a' /\ al_addr a' = al_addr a /\ al_align a' = al_align a /\
    al_kind a' = al_kind a /\ al_live a' = al_live a /\ length (al_data a') = length (al_data a) /\
    forall i b, al_data a !! i = Some b -> exists b', al_data a' !! i = Some b' /\ ab_data b' = ab_data b.
Proof.
  intros H. exists (er_alloc a). unfold er_mem. rewrite list_lookup_fmap, H. repeat (split; [done|]).
  unfold er_alloc, er_bytes. simpl. split; [by rewrite map_length|]. intros i b Hb.
  rewrite list_lookup_fmap, Hb. eexists. split; [done|]. by destruct b as [|? [[]|]].
Qed.
Print Assumptions C31_erasure_keeps.

Example C31_hyps : exists m',
  mem_run (TreeOps x86_64) (mo_new (TreeOps x86_64)) (ex_ops0 ++ ex_ops1) = Ret m' /\
  mem_run (BasicOps x86_64) (mo_new (BasicOps x86_64)) (List.map er_op (ex_ops0 ++ ex_ops1)) = Ret (er_mem m').
Proof. eexists. split; vm_compute; reflexivity. Qed.

(** C32. An access does not change permissions outside its range, and its outcome does not depend on
    them. *)
Theorem C32_access_outside_unchanged n q ak off size n' path ps pr ps' pr' o :
  node_access n q ak off size = Ret n' -> ninfo n path = Some (ps, pr) -> ninfo n' path = Some (ps', pr') ->
  ~ off_in off size o -> ps' !! o = ps !! o.
Proof. exact (access_outside n q ak off size n' path ps pr ps' pr' o). Qed.
Print Assumptions C32_access_outside_unchanged.

Theorem C32_access_outcome_local n1 n2 q ak off size len :
  tree_len n1 len -> (N.to_nat off + N.to_nat size <= len)%nat ->
  agree_on off size n1 n2 ->
  (forall n1', node_access n1 q ak off size = Ret n1' ->
     exists n2', node_access n2 q ak off size = Ret n2' /\ agree_on off size n1' n2') /\
  (is_ub (node_access n1 q ak off size) <-> is_ub (node_access n2 q ak off size)).
Proof.
  intros Hl Hr Ha. split; [intros n1'; exact (access_local n1 n2 q ak off size n1' Ha)|].
  split; [exact (access_local_ub n1 n2 q ak off size len Hl Hr Ha)|].
  apply (access_local_ub n2 n1 q ak off size len); [|done|by apply agree_sym].
  intros path ps pr Hi. specialize (Ha path). rewrite Hi in Ha.
  destruct (ninfo n1 path) as [[ps1 pr1]|] eqn:E; [|done]. destruct Ha as (_ & <- & _). exact (Hl _ _ _ E).
Qed.
Print Assumptions C32_access_outcome_local.

(** two trees that differ outside the first byte *)
Example C32_hyps :
  let t1 := mkNode [mkNode [] [Unprot UReserved; Unprot UFrozen] ProtNo] [Unprot UUnique; Unprot UUnique] ProtNo in
  let t2 := mkNode [mkNode [] [Unprot UReserved; Unprot UDisabled] ProtNo] [Unprot UUnique; Unprot UFrozen] ProtNo in
  agree_on 0 1 t1 t2 /\ tree_len t1 2 /\
  node_access t1 (Some [0%nat]) AkWrite 0 1
    = Ret (mkNode [mkNode [] [Unprot UUnique; Unprot UFrozen] ProtNo] [Unprot UUnique; Unprot UUnique] ProtNo).
Proof.
  split; [|split; [|reflexivity]].
  - intros [|[|k] [|k' path]]; simpl; try done.
    + split; [done|]. split; [done|]. intros [|o] [_ Ho]; [done|simpl in Ho; lia].
    + split; [done|]. split; [done|]. intros [|o] [_ Ho]; [done|simpl in Ho; lia].
  - intros [|[|k] [|k' path]] ps pr; simpl; try done; by intros [= <- <-].
Qed.

(** C33. Accesses keep the shape of the tree. *)
Theorem C33_access_shape n q ak off size n' :
  node_access n q ak off size = Ret n' ->
  forall path, match node_at n path, node_at n' path with
               | Some nd, Some nd' => length (n_children nd') = length (n_children nd) /\
                   n_prot nd' = n_prot nd /\ length (n_perms nd') = length (n_perms nd)
               | None, None => True
               | _, _ => False
               end.
Proof. exact (access_shape n q ak off size n'). Qed.
Print Assumptions C33_access_shape.

(** Adding a node keeps every path pointing to the same node; the new path was unused, extends the
    parent's by one index, and points to the new node. *)
Theorem C33_add_node_stable n parent ps pr n' cp :
  add_node n parent (mkNode [] ps pr) = Ret (n', cp) ->
  (exists k, cp = parent ++ [k]) /\ ninfo n cp = None /\ ninfo n' cp = Some (ps, pr) /\
  forall path, path <> cp -> ninfo n' path = ninfo n path.
Proof.
  intros (nd & _ & Hcp & Hn & Hv)%add_node_view. split; [by eexists|]. split; [done|].
  rewrite Hv, decide_True by done. split; [done|]. intros path Hne. by rewrite Hv, decide_False.
Qed.
Print Assumptions C33_add_node_stable.

(** A node reacts to an access as to a local one exactly if the accessing path runs through it. *)
Theorem C33_local_iff_prefix n q ak off size n' path ps pr o p :
  node_access n (Some q) ak off size = Ret n' -> ninfo n path = Some (ps, pr) -> ps !! o = Some p ->
  off_in off size o ->
  exists ps' p', ninfo n' path = Some (ps', pr) /\ ps' !! o = Some p' /\
    (path `prefix_of` q -> perm_transition p ak Local = Ret p') /\
    (~ path `prefix_of` q -> perm_transition p ak Foreign = Ret p').
Proof. exact (access_effect n q ak off size n' path ps pr o p). Qed.
Print Assumptions C33_local_iff_prefix.

(** Along any history a node stays where it is, with its protector until that is released. *)
Theorem C33_node_persists T m ops m' id path pr :
  mem_run (TreeOps T) m ops = Ret m' -> mem_prot m id path = Some pr ->
  exists pr', mem_prot m' id path = Some pr' /\ ((id, path) ∉ released ops -> pr' = pr).
Proof.
  intros H Hp. pose proof (mem_run_steps T _ _ _ H) as Hs.
  assert (valid_prov m' (mkThin 0 (Some (id, path)))) as Hv.
  { eapply valid_prov_run; [exact H|]. unfold valid_prov. simpl. by rewrite Hp. }
  unfold valid_prov in Hv. simpl in Hv. destruct (mem_prot m' id path) as [pr'|] eqn:E; [|done].
  exists pr'. split; [done|]. intros Hn. pose proof (prot_invariant T _ _ _ _ _ _ Hn Hs Hp). congruence.
Qed.
Print Assumptions C33_node_persists.

Example C33_hyps :
  exists n', add_node (mkNode [mkNode [] [Unprot UFrozen] ProtNo] [Unprot UUnique] ProtNo) [0%nat]
    (mkNode [] [Prot (PReserved false false)] ProtStrong) = Ret (n', [0%nat; 0%nat]) /\
  exists n'', node_access n' (Some [0%nat; 0%nat]) AkRead 0 1 = Ret n''.
Proof. eexists. split; [reflexivity|]. eexists. reflexivity. Qed.

(** C34. A load does not change whether another load succeeds nor what it returns. This holds in all
    memories, also with protectors. *)
Theorem C34_load_keeps_loads T m r1 len1 al1 b1 m1 r2 len2 al2 b2 :
  let TO := TreeOps T in
  mo_load TO m r1 len1 al1 = Ret (b1, m1) ->
  ((exists m2, mo_load TO m r2 len2 al2 = Ret (b2, m2)) <->
   (exists m2, mo_load TO m1 r2 len2 al2 = Ret (b2, m2))).
Proof.
  intros TO H1. split; intros [m2 H2].
  - destruct (loads_both T _ _ _ _ _ _ _ _ _ _ _ H1 H2) as (m' & H & _). eauto.
  - destruct (loads_swap T _ _ _ _ _ _ _ _ _ _ _ H1 H2) as (m' & H & _). eauto.
Qed.
Print Assumptions C34_load_keeps_loads.

(** Two loads commute: they can be done in either order and end in the same memory. *)
Theorem C34_loads_commute T m r1 len1 al1 b1 m1 r2 len2 al2 b2 m2 :
  let TO := TreeOps T in
  mo_load TO m r1 len1 al1 = Ret (b1, m1) -> mo_load TO m r2 len2 al2 = Ret (b2, m2) ->
  exists m', mo_load TO m1 r2 len2 al2 = Ret (b2, m') /\ mo_load TO m2 r1 len1 al1 = Ret (b1, m').
Proof. exact (loads_both T m r1 len1 al1 b1 m1 r2 len2 al2 b2 m2). Qed.
Print Assumptions C34_loads_commute.

(** In a tree without protectors a read is undefined behaviour only because of the nodes it goes
    through, never because of other nodes. *)
Theorem C34_read_ub_local n q off size len :
  no_protectors n -> tree_len n len -> (N.to_nat off + N.to_nat size <= len)%nat ->
  ((exists n', node_access n (Some q) AkRead off size = Ret n') <->
   forall path ps pr o, ninfo n path = Some (ps, pr) -> path `prefix_of` q -> off_in off size o ->
     ps !! o <> Some (Unprot UDisabled)).
Proof. exact (read_ok n q off size len). Qed.
Print Assumptions C34_read_ub_local.

(** two loads of the same byte, of which the first changes the tree; without and with a protector *)
Example C34_hyps :
  mem_run TX (mo_new TX) ex_ops3 = Ret ex_u1 /\
  mo_load TX ex_u1 ex_root 1 (mkAlign 0) = Ret ([c_x x05], ex_u3) /\ ex_u3 <> ex_u1 /\
  exists m, mo_load TX ex_u1 ex_child 4 (mkAlign 2) = Ret ([c_x x05; c_x x01; c_x x01; c_x x01], m).
Proof.
  split; [apply ex_u1_run|]. split; [apply ex_u3_ret|]. split; [done|].
  eexists. vm_compute. reflexivity.
Qed.
Example C34_hyps_protected :
  mo_retag TX ex_m0 [] (mkPtr ex_root None) (PRef Mutable ex_pi) true no_vtables
    = Ret (mkPtr ex_child None, ex_m1, [(0%nat, [0%nat])]) /\
  exists b m b2 m2, mo_load TX ex_m1 ex_root 1 (mkAlign 0) = Ret (b, m) /\ m <> ex_m1 /\
    mo_load TX ex_m1 ex_child 4 (mkAlign 2) = Ret (b2, m2).
Proof.
  split; [apply ex_m1_ret|]. do 4 eexists. split; [vm_compute; reflexivity|]. split; [discriminate|]. vm_compute. reflexivity.
Qed.

(** C35. After any history with calls, for live allocations: a node is protected exactly if some open
    call lists it; it holds protected permissions exactly if it is protected; no protector is listed
    twice. *)
Theorem C35_protectors_exact T ops m fs :
  call_run T (mo_new (TreeOps T), []) ops = Ret (m, fs) ->
  NoDup (concat fs) /\
  forall id a path ps pr, m !! id = Some a -> al_live a = true -> ninfo (al_extra a) path = Some (ps, pr) ->
    (prot_yes pr = true <-> exists f, f ∈ fs /\ (id, path) ∈ f) /\
    (forall p, p ∈ ps -> (is_prot p <-> prot_yes pr = true)).
Proof.
  intros H. destruct (call_run_inv T _ _ _ H) as (Hnd & Hin & Hout). split; [done|].
  intros id a path ps pr Ha Hl Hi.
  assert ((exists f, f ∈ fs /\ (id, path) ∈ f) <-> (id, path) ∈ concat fs) as Hc.
  { rewrite !elem_of_list_In, in_concat. split; intros (f & H1 & H2); exists f; rewrite !elem_of_list_In in *; done. }
  rewrite Hc. destruct (decide ((id, path) ∈ concat fs)) as [Hy|Hn].
  - destruct (Hin _ _ Hy) as (a' & ps' & pr' & Ha' & Hi' & Hyes & Hf). rewrite Ha in Ha'. injection Ha' as <-.
    rewrite Hi in Hi'. injection Hi' as <- <-. split; [done|]. intros p Hp. split; [done|]. intros _.
    by apply (proj1 (Forall_forall _ _) Hf).
  - destruct (Hout _ _ _ _ _ Ha Hl Hi Hn) as [-> Hf]. split; [done|]. intros p Hp. split; [|done].
    intros [x ->]. apply (proj1 (Forall_forall _ _) Hf) in Hp as [y Hy]. done.
Qed.
Print Assumptions C35_protectors_exact.

(** Ending a call removes exactly the protectors it lists. *)
Theorem C35_end_call_exact T ops m fs i f m' id a path pr :
  call_run T (mo_new (TreeOps T), []) ops = Ret (m, fs) -> fs !! i = Some f ->
  mo_end_call (TreeOps T) m f = Ret m' ->
  m !! id = Some a -> al_live a = true -> mem_prot m id path = Some pr ->
  mem_prot m' id path = Some (if decide ((id, path) ∈ f) then ProtNo else pr).
Proof.
  intros H Hi He Ha Hl Hp. destruct (decide ((id, path) ∈ f)) as [Hin|Hin].
  - assert (call_run T (mo_new (TreeOps T), []) (ops ++ [CEnd i]) = Ret (m', delete i fs)) as H'.
    { unfold call_run in *. rewrite fold_m_app, H. cbn [obind fold_m call_op]. rewrite Hi, He. done. }
    destruct (C35_protectors_exact _ _ _ _ H') as [_ Hex]. destruct (C35_protectors_exact _ _ _ _ H) as [Hnd _].
    destruct (C33_node_persists T m [OpEndCall f] m' id path pr) as (pr' & Hpr' & _); [|done|].
    { unfold mem_run. cbn [fold_m mem_op]. rewrite He. done. }
    assert (exists a', m' !! id = Some a' /\ al_live a' = true) as (a' & Ha' & Hl').
    { destruct (end_call_live T _ _ _ _ _ He Ha) as (a' & H1 & H2). exists a'. split; [done|congruence]. }
    rewrite Hpr'. unfold mem_prot in Hpr'. rewrite Ha' in Hpr'.
    destruct (ninfo (al_extra a') path) as [[ps' pr1]|] eqn:Hni; [|done]. injection Hpr' as ->. f_equal.
    destruct (Hex _ _ _ _ _ Ha' Hl' Hni) as [Hiff _].
    destruct (prot_yes pr') eqn:Ey; [|by destruct pr']. exfalso.
    destruct (proj1 Hiff eq_refl) as (g & Hg & Hgin).
    exact (concat_delete_nodup fs i f _ g Hnd Hi Hin Hg Hgin).
  - by rewrite (end_call_other T _ _ _ _ _ He Hin).
Qed.
Print Assumptions C35_end_call_exact.

(** and it never crashes *)
Theorem C35_end_call_total T ops m fs i f :
  call_run T (mo_new (TreeOps T), []) ops = Ret (m, fs) -> fs !! i = Some f ->
  (exists m', mo_end_call (TreeOps T) m f = Ret m') \/ is_ub (mo_end_call (TreeOps T) m f).
Proof.
  intros H Hi. apply (end_call_no_panic T m f (concat (delete i fs)) (call_run_len T _ _ _ H)).
  eapply prot_inv_perm; [|exact (call_run_inv T _ _ _ H)].
  apply concat_delete_perm, Hi.
Qed.
Print Assumptions C35_end_call_total.

(** a call protecting two references, the second derived from the first, and a nested call *)
Definition C35_ops : list CallOp :=
  [ CMem (OpAllocate AHeap 8 (mkAlign 3) 4096); CCall;
    CRetag 0 (mkPtr ex_root None) (PRef Mutable ex_pi) true no_vtables; CCall;
    CRetag 1 (mkPtr ex_child None) (PRef Immutable ex_pi) true no_vtables ].
Example C35_hyps : exists m m',
  call_run x86_64 (mo_new TX, []) C35_ops = Ret (m, [[(0%nat, [0%nat])]; [(0%nat, [0%nat; 0%nat])]]) /\
  mem_prot m 0 [0%nat] = Some ProtStrong /\ mem_prot m 0 [0%nat; 0%nat] = Some ProtStrong /\
  mo_end_call TX m [(0%nat, [0%nat; 0%nat])] = Ret m' /\
  mem_prot m' 0 [0%nat] = Some ProtStrong /\ mem_prot m' 0 [0%nat; 0%nat] = Some ProtNo.
Proof.
  eexists _, _. split; [vm_compute; reflexivity|]. split; [reflexivity|]. split; [reflexivity|].
  split; [vm_compute; reflexivity|]. split; reflexivity.
Qed.

(** C36. The freeze mask has one entry per byte and marks exactly the bytes outside UnsafeCells, for
    well-formed cells. The full statement has no [no_padding]; it is false without (below): the mask of
    an unsized tuple omits the padding around its tail. *)
Theorem C36_freeze_mask_partial cs l meta lookup size align :
  cells_check_wf cs l = Ret tt -> vtables_ok lookup ->
  compute_size_and_align l meta lookup = Ret (size, align) -> no_padding l meta lookup ->
  exists mask, freeze_mask cs l meta lookup = Ret mask /\ length mask = N.to_nat size /\
    forall i, (i < N.to_nat size)%nat ->
      exists frozen, mask !! i = Some frozen /\ (frozen = false <-> pointee_cell cs l meta lookup i).
Proof. exact (freeze_mask_ok cs l meta lookup size align). Qed.
Print Assumptions C36_freeze_mask_partial.

(** Sized pointees, slices and trait objects never have such padding. *)
Theorem C36_freeze_mask_no_tuple cs l meta lookup size align :
  (forall head tail, l <> LTuple head tail) ->
  cells_check_wf cs l = Ret tt -> vtables_ok lookup ->
  compute_size_and_align l meta lookup = Ret (size, align) ->
  exists mask, freeze_mask cs l meta lookup = Ret mask /\ length mask = N.to_nat size /\
    forall i, (i < N.to_nat size)%nat ->
      exists frozen, mask !! i = Some frozen /\ (frozen = false <-> pointee_cell cs l meta lookup i).
Proof.
  intros Ht Hc Hv Hs. apply (freeze_mask_ok cs l meta lookup size align Hc Hv Hs).
  destruct l as [| | |head tail]; try exact I. by destruct (Ht head tail).
Qed.
Print Assumptions C36_freeze_mask_no_tuple.

(** With padding the mask is too short: a tuple of a byte and a slice of one 4-byte integer has 8
    bytes, the mask 5. *)
Theorem C36_freeze_mask_refuted :
  exists cs l meta lookup size align mask,
    cells_check_wf cs l = Ret tt /\ vtables_ok lookup /\
    compute_size_and_align l meta lookup = Ret (size, align) /\
    freeze_mask cs l meta lookup = Ret mask /\ length mask <> N.to_nat size.
Proof.
  exists (CTuple [] (CSlice [])), (LTuple (mkHead 1 (mkAlign 0) None) (LSlice 4 (mkAlign 2))),
    (Some (MElementCount 1)), no_vtables, 8%N, (mkAlign 2), [true; true; true; true; true].
  repeat split; done.
Qed.
Print Assumptions C36_freeze_mask_refuted.

(** a tuple of 4 bytes, of which 2 are a cell, and a slice of 3 elements with a cell each *)
Example C36_hyps :
  let cs := CTuple [(1%N, 2%N)] (CSlice [(0%N, 1%N)]) in
  let l := LTuple (mkHead 4 (mkAlign 1) None) (LSlice 2 (mkAlign 1)) in
  cells_check_wf cs l = Ret tt /\
  compute_size_and_align (P := TProv) l (Some (MElementCount 3)) no_vtables = Ret (10%N, mkAlign 1) /\
  no_padding l (Some (MElementCount 3)) no_vtables /\
  freeze_mask cs l (Some (MElementCount 3)) no_vtables
    = Ret [true; false; false; true; false; true; false; true; false; true] /\
  pointee_cell cs l (Some (MElementCount 3)) no_vtables 6 /\ ~ pointee_cell cs l (Some (MElementCount 3)) no_vtables 7.
Proof.
  split; [done|]. split; [done|]. split.
  { split; [|done]. intros s a st at_ H1 H2. vm_compute in H1, H2. by injection H1 as <- <-; injection H2 as <- <-. }
  split; [done|]. split.
  - simpl. exists 0%N, 1%N. split; [by left|]. vm_compute. lia.
  - simpl. intros (off & sz & Hin & Hr). apply elem_of_list_singleton in Hin as [= -> ->]. vm_compute in Hr. lia.
Qed.

(** C37. Retagging a pointer in any reachable memory succeeds or is undefined behaviour, if the pointer's
    provenance is a node of the tree (below: true of every pointer handed out), its pointee type is well
    formed, its metadata fits the pointee, and, for a zero-sized pointee, it does not lie before its
    allocation. The full statement lacks the last condition and is false without (below). *)
Theorem C37_retag_total_partial T ops m fs f ptr pt fe lk :
  call_run T (mo_new (TreeOps T), []) ops = Ret (m, fs) ->
  valid_prov m (p_thin ptr) -> vtables_ok lk ->
  (forall pi, safe_pointee pt = Some pi ->
     cells_check_wf (pi_cells pi) (pi_layout pi) = Ret tt /\
     exists size align, compute_size_and_align (pi_layout pi) (p_meta ptr) lk = Ret (size, align) /\
       (size = 0%N -> not_before m (p_thin ptr))) ->
  (exists r, mo_retag (TreeOps T) m f ptr pt fe lk = Ret r) \/ is_ub (mo_retag (TreeOps T) m f ptr pt fe lk).
Proof. intros H. exact (retag_total T m f ptr pt fe lk (call_run_len T _ _ _ H)). Qed.
Print Assumptions C37_retag_total_partial.

(** Pointers handed out by allocation and by retags have a valid provenance, and keep it. *)
Theorem C37_provenance_valid T :
  (forall m kind size align addr p m',
     mo_allocate (TreeOps T) m kind size align addr = Ret (p, m') -> valid_prov m' p) /\
  (forall m f ptr pt fe lk p m' f',
     mo_retag (TreeOps T) m f ptr pt fe lk = Ret (p, m', f') -> valid_prov m (p_thin ptr) -> valid_prov m' (p_thin p)) /\
  (forall m ops m' ptr,
     mem_run (TreeOps T) m ops = Ret m' -> valid_prov m ptr -> valid_prov m' ptr).
Proof. exact (conj (valid_prov_alloc T) (conj (valid_prov_retag T) (valid_prov_run T))). Qed.
Print Assumptions C37_provenance_valid.

(** A reference to a zero-sized pointee that lies before its allocation crashes the machine, although
    the pointer is non-null and aligned and dereferenceable for zero bytes. *)
Definition C37_unit : PointeeInfo := mkPointee (LSized 0 (mkAlign 0)) true (CSized []) true true.
Theorem C37_retag_total_refuted :
  exists ops m ptr,
    mem_run (TreeOps x86_64) (mo_new (TreeOps x86_64)) ops = Ret m /\ valid_prov m (p_thin ptr) /\
    tp_addr (p_thin ptr) > 0 /\ p_meta ptr = None /\
    mo_deref (TreeOps x86_64) m (p_thin ptr) 0 = Ret tt /\
    cells_check_wf (pi_cells C37_unit) (pi_layout C37_unit) = Ret tt /\
    mo_retag (TreeOps x86_64) m [] ptr (PRef Immutable C37_unit) false no_vtables = Panic.
Proof.
  exists ex_ops0, ex_m0, (mkPtr (mkThin 4095 (Some (0%nat, []))) None). split; [apply ex_m0_run|].
  split; [done|]. repeat split; done.
Qed.
Print Assumptions C37_retag_total_refuted.

Example C37_hyps : exists m,
  call_run x86_64 (mo_new TX, []) C35_ops = Ret (m, [[(0%nat, [0%nat])]; [(0%nat, [0%nat; 0%nat])]]) /\
  valid_prov m ex_child /\ vtables_ok no_vtables /\
  cells_check_wf (pi_cells ex_pi_cell) (pi_layout ex_pi_cell) = Ret tt /\
  compute_size_and_align (P := TProv) (pi_layout ex_pi_cell) None no_vtables = Ret (4%N, mkAlign 2).
Proof. eexists. split; [vm_compute; reflexivity|]. repeat split; done. Qed.
