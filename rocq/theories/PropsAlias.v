(** What a compiler may assume about the bytes behind references (C98). *)
From Verif Require Import AliasSpec AliasProofs.
From Coq Require Import ZifyBool ZifyN ZifyNat.
Local Open Scope Z_scope.

(** ** C98: the bytes behind a protected reference change only through it *)

(** While a shared reference is protected, its bytes outside of cells are the same in all loads, through
    whatever pointers, whatever happens between them. *)
Theorem C98_shared_same T ops0 m0 f ptr pi lk p m1 f1 id P mask ops1 m2 r1 len1 al1 bs1 m2' ops2 m3 r2 len2 al2 bs2 m3' Q1 Q2 i :
  let TO := TreeOps T in
  mem_run TO (mo_new TO) ops0 = Ret m0 ->
  mo_retag TO m0 f ptr (PRef Immutable pi) true lk = Ret (p, m1, f1) ->
  tp_prov (p_thin p) = Some (id, P) ->
  freeze_mask (pi_cells pi) (pi_layout pi) (p_meta ptr) lk = Ret mask -> mask !! i = Some true ->
  mem_run TO m1 ops1 = Ret m2 -> (id, P) ∉ released ops1 ->
  mo_load TO m2 r1 len1 al1 = Ret (bs1, m2') ->
  mem_run TO m2' ops2 = Ret m3 -> (id, P) ∉ released ops2 ->
  mo_load TO m3 r2 len2 al2 = Ret (bs2, m3') ->
  tp_prov r1 = Some (id, Q1) -> tp_prov r2 = Some (id, Q2) ->
  let x := tp_addr (p_thin p) + Z.of_nat i in
  covers r1 len1 x -> covers r2 len2 x -> loaded r1 bs1 x = loaded r2 bs2 x.
Proof.
  intros TO H0 Hret Hp Hm Hi H1 R1 L1 H2 R2 L2 P1 P2 x C1 C2. subst TO.
  assert (mem_run (TreeOps T) (mo_new (TreeOps T)) (ops0 ++ OpRetag f ptr (PRef Immutable pi) true lk :: ops1) = Ret m2) as H.
  { rewrite (mem_run_app T _ _ _ _ H0). unfold mem_run. cbn [fold_m mem_op]. rewrite Hret. exact H1. }
  assert (mem_run (TreeOps T) m1 (ops1 ++ OpLoad r1 len1 al1 :: ops2) = Ret m3) as H3.
  { rewrite (mem_run_app T _ _ _ _ H1). unfold mem_run. cbn [fold_m mem_op]. rewrite L1. exact H2. }
  assert (untouched id x (ops1 ++ OpLoad r1 len1 al1 :: ops2)) as U.
  { eapply (shared_untouched T ops0 m0 f ptr pi lk p m1 f1 id P mask _ m3 i); try done. by apply not_released_load. }
  eapply (load_stays T _ m2 ops2 m3); try done. intros l1 w bytes al l2 Q ->.
  apply (U (ops1 ++ OpLoad r1 len1 al1 :: l1) w bytes al l2 Q). by rewrite <-app_assoc.
Qed.
Print Assumptions C98_shared_same.

(** In particular what was read through it can be read again, with the same result. *)
Theorem C98_shared_again T ops0 m0 f ptr pi lk p m1 f1 id P mask ops1 m2 r len al bs m2' ops2 m3 :
  let TO := TreeOps T in
  mem_run TO (mo_new TO) ops0 = Ret m0 ->
  mo_retag TO m0 f ptr (PRef Immutable pi) true lk = Ret (p, m1, f1) ->
  tp_prov (p_thin p) = Some (id, P) ->
  freeze_mask (pi_cells pi) (pi_layout pi) (p_meta ptr) lk = Ret mask ->
  mem_run TO m1 ops1 = Ret m2 -> (id, P) ∉ released ops1 ->
  derived r id P -> (forall x, covers r len x -> exists i, x = tp_addr (p_thin p) + Z.of_nat i /\ mask !! i = Some true) ->
  mo_load TO m2 r len al = Ret (bs, m2') ->
  mem_run TO m2' ops2 = Ret m3 -> (id, P) ∉ released ops2 ->
  exists m3', mo_load TO m3 r len al = Ret (bs, m3').
Proof.
  intros TO H0 Hret Hp Hm H1 R1 Hd Hc L1 H2 R2. subst TO.
  assert (mem_run (TreeOps T) m1 (ops1 ++ OpLoad r len al :: ops2) = Ret m3) as H3.
  { rewrite (mem_run_app T _ _ _ _ H1). unfold mem_run. cbn [fold_m mem_op]. rewrite L1. exact H2. }
  destruct (shared_immutable T ops0 m0 f ptr pi lk p m1 f1 id P mask _ m3 H0 Hret Hp Hm H3) as [_ Hl].
  { by apply not_released_load. }
  destruct (Hl r len al Hd) as (bs' & m3' & L2); [|done|].
  { pose proof L1 as L1'. cbn in L1'. apply bm_load_ret in L1' as (Ha & _). unfold is_aligned in Ha. lia. }
  exists m3'. rewrite L2. do 2 f_equal. destruct Hd as (q & Hq & _).
  assert (N.of_nat (length bs) = len /\ N.of_nat (length bs') = len) as [E1 E2].
  { split; [pose proof L1 as L|pose proof L2 as L]; cbn in L; apply bm_load_ret in L as (_ & [(-> & -> & _)|(_ & ? & ? & ? & ? & ? & _ & _ & _ & _ & _ & _ & Hs & _)]);
      first [done|exact (subslice_length _ _ _ _ Hs)]. }
  apply list_eq. intros j. destruct (decide (j < length bs)%nat) as [Hj|Hj].
  - destruct (Hc (tp_addr r + Z.of_nat j)) as (i & Ex & Hi); [unfold covers; lia|].
    pose proof (C98_shared_same T ops0 m0 f ptr pi lk p m1 f1 id P mask ops1 m2 r len al bs m2' ops2 m3 r len al bs' m3' q q i
      H0 Hret Hp Hm Hi H1 R1 L1 H2 R2 L2 Hq Hq) as E. cbn zeta in E. rewrite <-Ex in E. unfold loaded in E.
    rewrite !byte_at_in in E by lia. replace (Z.to_nat (tp_addr r + Z.of_nat j - tp_addr r)) with j in E by lia. symmetry. apply E; unfold covers; lia.
  - rewrite !lookup_ge_None_2 by lia. done.
Qed.
Print Assumptions C98_shared_again.

(** After a byte was read through a protected mutable reference or box, it is the same in all loads, through
    whatever pointers, until it is written through that reference. *)
Theorem C98_mutable_read T ops0 m0 f ptr pt lk p m1 f1 id P ops1 m2 r len al bs m2' ops2 m3 r2 len2 al2 bs2 m3' Q2 x :
  let TO := TreeOps T in
  mem_run TO (mo_new TO) ops0 = Ret m0 ->
  mut_like pt -> mo_retag TO m0 f ptr pt true lk = Ret (p, m1, f1) ->
  tp_prov (p_thin p) = Some (id, P) ->
  mem_run TO m1 ops1 = Ret m2 -> (id, P) ∉ released ops1 ->
  mo_load TO m2 r len al = Ret (bs, m2') -> derived r id P -> covers r len x ->
  mem_run TO m2' ops2 = Ret m3 -> (id, P) ∉ released ops2 -> no_store_through id P ops2 ->
  mo_load TO m3 r2 len2 al2 = Ret (bs2, m3') -> tp_prov r2 = Some (id, Q2) -> covers r2 len2 x ->
  loaded r2 bs2 x = loaded r bs x.
Proof.
  intros TO H0 Hm Hret Hp H1 R1 L1 (q & Hq & Hpre) C1 H2 R2 Hn L2 P2 C2. subst TO.
  destruct (load_covered_lt T _ _ _ _ _ _ _ _ _ L1 Hq C1) as (a & o & Ha & Hx & Ho).
  destruct (retag_mut_perm T ops0 m0 f ptr pt lk p m1 f1 id P ops1 m2 a x o H0 Hm Hret Hp H1 R1 Ha Hx Ho) as (Hlen & p2 & Hp2 & Hmp).
  destruct (tb_load_perm T _ _ _ _ _ _ _ _ P x p2 L1 Hq Hp2) as (p3 & Hp3 & Ht & _). specialize (Ht C1). rewrite rel_local in Ht by done.
  assert (used p3) as Hu.
  { clear -Hmp Ht. destruct p2 as [[]|[|[] []| |[]|]]; simpl in *; try done; by injection Ht as <-. }
  assert (tb_len m2') as Hlen' by (eapply tb_steps_len; [apply (tb_load_steps T (fun _ => False) _ _ _ _ _ _ L1)|done]).
  assert (mem_run (TreeOps T) (mo_new (TreeOps T)) (ops0 ++ OpRetag f ptr pt true lk :: ops1) = Ret m2) as H.
  { rewrite (mem_run_app T _ _ _ _ H0). unfold mem_run. cbn [fold_m mem_op]. rewrite Hret. exact H1. }
  symmetry. eapply (load_stays T _ m2 ops2 m3); try done. eapply (used_untouched T m2' id P); eauto.
Qed.
Print Assumptions C98_mutable_read.

(** After a byte was written through such a reference, every load of it gives what was written, until it is
    written through that reference again. *)
Theorem C98_mutable_written T ops0 m0 f ptr pt lk p m1 f1 id P ops1 m2 w bytes al m2' ops2 m3 r2 len2 al2 bs2 m3' Q2 x :
  let TO := TreeOps T in
  mem_run TO (mo_new TO) ops0 = Ret m0 ->
  mut_like pt -> mo_retag TO m0 f ptr pt true lk = Ret (p, m1, f1) ->
  tp_prov (p_thin p) = Some (id, P) ->
  mem_run TO m1 ops1 = Ret m2 -> (id, P) ∉ released ops1 ->
  mo_store TO m2 w bytes al = Ret m2' -> derived w id P -> covers w (N.of_nat (length bytes)) x ->
  mem_run TO m2' ops2 = Ret m3 -> (id, P) ∉ released ops2 -> no_store_through id P ops2 ->
  mo_load TO m3 r2 len2 al2 = Ret (bs2, m3') -> tp_prov r2 = Some (id, Q2) -> covers r2 len2 x ->
  loaded r2 bs2 x = byte_at (tp_addr w) bytes x.
Proof.
  intros TO H0 Hm Hret Hp H1 R1 Hst (q & Hq & Hpre) C1 H2 R2 Hn L2 P2 C2. subst TO.
  destruct (store_covered_lt T _ _ _ _ _ _ _ _ Hst Hq C1) as (a & o & Ha & Hx & Ho).
  destruct (retag_mut_perm T ops0 m0 f ptr pt lk p m1 f1 id P ops1 m2 a x o H0 Hm Hret Hp H1 R1 Ha Hx Ho) as (Hlen & p2 & Hp2 & Hmp).
  destruct (tb_store_perm T _ _ _ _ _ _ _ P x p2 Hst Hq Hp2) as (p3 & Hp3 & Ht & _). specialize (Ht C1). rewrite rel_local in Ht by done.
  assert (used p3) as Hu.
  { clear -Hmp Ht. destruct p2 as [[]|[|[] []| |[]|]]; simpl in *; try done; by injection Ht as <-. }
  assert (tb_len m2') as Hlen' by (eapply tb_steps_len; [apply (tb_store_steps T (fun _ => False) _ _ _ _ _ Hst)|done]).
  assert (mem_run (TreeOps T) (mo_new (TreeOps T)) (ops0 ++ OpRetag f ptr pt true lk :: ops1 ++ OpStore w bytes al :: ops2) = Ret m3) as H.
  { rewrite (mem_run_app T _ _ _ _ H0). unfold mem_run. cbn [fold_m mem_op]. rewrite Hret. cbn [obind].
    change (mem_run (TreeOps T) m1 (ops1 ++ OpStore w bytes al :: ops2) = Ret m3). rewrite (mem_run_app T _ _ _ _ H1).
    unfold mem_run. cbn [fold_m mem_op]. rewrite Hst. exact H2. }
  pose proof (load_last_store T (TreeOps T) m3 m3' _ r2 id Q2 len2 al2 bs2 (Z.to_nat (x - tp_addr r2)) (tree_like T) H L2 P2 ltac:(unfold covers in C2; lia)) as E.
  unfold covers in C1, C2. replace (tp_addr r2 + Z.of_nat (Z.to_nat (x - tp_addr r2))) with x in E by lia.
  unfold loaded. rewrite (byte_at_in (tp_addr r2)) by (apply lookup_lt_Some in E; lia). rewrite E, last_store_app. cbn [last_store].
  rewrite last_store_app. cbn [last_store]. rewrite Hq, Nat.eqb_refl, (last_store_same ops2) by (eapply (used_untouched T m2' id P); eauto).
  destruct (byte_at (tp_addr w) bytes x) as [b|] eqn:Eb; [done|]. rewrite byte_at_in in Eb by lia. apply lookup_ge_None in Eb. lia.
Qed.
Print Assumptions C98_mutable_written.

(** A history with a write through the parent to the other half and reads through the child and another child;
    without a protector the parent may write, and the bytes change. *)
Example C98_hyps :
  mem_run TX (mo_new TX) ex_ops0 = Ret ex_m0 /\ mut_like (PRef Mutable ex_pi) /\
  mo_retag TX ex_m0 [] (mkPtr ex_root None) (PRef Mutable ex_pi) true no_vtables = Ret (mkPtr ex_child None, ex_m1, [(0%nat, [0%nat])]) /\
  mo_store TX ex_m1 ex_child [c_x x05] (mkAlign 0) = Ret ex_m2 /\ derived ex_child 0 [0%nat] /\ covers ex_child 1 4096 /\
  mem_run TX ex_m2 ex_ops1 = Ret ex_m3 /\ released ex_ops1 = [] /\ no_store_through 0 [0%nat] ex_ops1 /\
  (exists m, mo_load TX ex_m3 ex_child 1 (mkAlign 0) = Ret ([c_x x05], m)) /\
  mo_retag TX ex_m0 [] (mkPtr ex_root None) (PRef Immutable ex_pi_cell) true no_vtables = Ret (mkPtr ex_child None, ex_s1, [(0%nat, [0%nat])]) /\
  freeze_mask (pi_cells ex_pi_cell) (pi_layout ex_pi_cell) None no_vtables = Ret [true; true; false; false] /\
  (exists m m3, mo_load TX ex_s1 ex_child 4 (mkAlign 2) = Ret (four x01, m) /\ mem_run TX m ex_ops2 = Ret m3 /\ released ex_ops2 = [] /\
     exists m4, mo_load TX m3 ex_child 4 (mkAlign 2) = Ret ([c_x x01; c_x x01; c_x x08; c_x x01], m4)) /\
  mem_run TX (mo_new TX) ex_ops3 = Ret ex_u1 /\ mo_store TX ex_u1 ex_root (four x03) (mkAlign 0) = Ret ex_u2.
Proof.
  split; [apply ex_m0_run|]. split; [done|]. split; [apply ex_m1_ret|]. split; [apply ex_m2_ret|]. split; [by exists [0%nat]|].
  split; [done|]. split; [apply ex_m3_run|]. split; [done|]. split.
  { intros w bytes al H. apply elem_of_list_In in H as [[= <- <- <-]|[H|[]]]; [|done]. intros (q & [= <-] & Hpre). by apply prefix_nil_inv in Hpre. }
  split; [eexists; vm_compute; reflexivity|]. split; [apply ex_s1_ret|]. split; [done|]. split.
  { eexists _, _. split; [vm_compute; reflexivity|]. split; [vm_compute; reflexivity|]. split; [done|]. eexists. vm_compute. reflexivity. }
  split; [apply ex_u1_run|apply ex_u2_ret].
Qed.
