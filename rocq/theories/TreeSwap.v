(** Two reads that follow each other can be swapped, also when there are protectors. *)
From Verif Require Export TreeDrop.
From Verif Require Import BaseProofs TreeProofs TreeLike TreeMore.
From Coq Require Import ZifyBool ZifyN ZifyNat.
Local Open Scope Z_scope.

Lemma perm_swap p r1 r2 p1 p12 : perm_transition p AkRead r1 = Ret p1 -> perm_transition p1 AkRead r2 = Ret p12 ->
  exists p2, perm_transition p AkRead r2 = Ret p2 /\ perm_transition p2 AkRead r1 = Ret p12.
Proof.
  destruct p as [[]|[|[] []| |[]|]], r1, r2; simpl; intros [= <-]; simpl; intros [= <-]; eexists; (split; [reflexivity|reflexivity]).
Qed.
Lemma perms_swap ps r1 r2 o1 s1 o2 s2 ps1 ps12 :
  perms_transition ps r1 AkRead o1 s1 = Ret ps1 -> perms_transition ps1 r2 AkRead o2 s2 = Ret ps12 ->
  exists ps2, perms_transition ps r2 AkRead o2 s2 = Ret ps2 /\ perms_transition ps2 r1 AkRead o1 s1 = Ret ps12.
Proof.
  intros V1 V12. destruct (perms_transition_more _ _ r2 AkRead o2 s2 (perms_transition_read _ _ _ _ _ V1) _ V12) as (ps2 & V2 & _).
  exists ps2. split; [done|]. apply perms_transition_iff.
  apply perms_transition_ret in V1 as [L1 V1], V12 as [L12 V12], V2 as [L2 V2]. split; [congruence|]. intros o.
  destruct (V1 o) as [A1 B1], (V12 o) as [A12 B12], (V2 o) as [A2 B2].
  destruct (decide (off_in o1 s1 o)) as [R1|R1], (decide (off_in o2 s2 o)) as [R2|R2]; (split; [intros _|done] || (split; [done|intros _])).
  - destruct (A1 R1) as (p & p1 & Hp & T1 & E1). destruct (A12 R2) as (p1' & p12 & Hp1 & T12 & E12).
    destruct (A2 R2) as (p' & p2 & Hp' & T2 & E2).
    rewrite Hp in Hp'. injection Hp' as <-. rewrite E1 in Hp1. injection Hp1 as <-.
    destruct (perm_swap _ _ _ _ _ T1 T12) as (q & Hq & Hq'). rewrite T2 in Hq. injection Hq as <-. eauto.
  - rewrite B12, B2 by done. auto.
  - destruct (A12 R2) as (p1' & p12 & Hp1 & T12 & E12). destruct (A2 R2) as (p' & p2 & Hp' & T2 & E2).
    rewrite B1 in Hp1 by done. congruence.
  - rewrite B12, B1, B2 by done. done.
Qed.
Lemma nodes_swap n q1 q2 o1 s1 o2 s2 n1 n12 :
  node_access n q1 AkRead o1 s1 = Ret n1 -> node_access n1 q2 AkRead o2 s2 = Ret n12 ->
  exists n2, node_access n q2 AkRead o2 s2 = Ret n2 /\ node_access n2 q1 AkRead o1 s1 = Ret n12.
Proof.
  revert q1 q2 n1 n12. induction n as [cs ps pr IH] using Node_ind'. intros q1 q2 n1 n12 H1 H12. cbn [node_access] in H1.
  apply obind_ret in H1 as (ps1 & Hp1 & H1). apply obind_ret in H1 as (cs1 & Hc1 & [= <-]). cbn [node_access] in H12.
  apply obind_ret in H12 as (ps12 & Hp12 & H12). apply obind_ret in H12 as (cs12 & Hc12 & [= <-]).
  destruct (perms_swap _ _ _ _ _ _ _ _ _ Hp1 Hp12) as (ps2 & Hp2 & Hp21).
  assert (exists cs2, map_idx_m (fun i c => node_access c (sub_path q2 i) AkRead o2 s2) 0 cs = Ret cs2 /\
    map_idx_m (fun i c => node_access c (sub_path q1 i) AkRead o1 s1) 0 cs2 = Ret cs12) as (cs2 & Hc2 & Hc21).
  { clear -IH Hc1 Hc12. revert cs1 cs12 Hc1 Hc12. generalize 0%nat. induction IH as [|c cs Hc IH IHl]; intros i cs1 cs12 Hc1 Hc12; cbn in Hc1.
    - injection Hc1 as <-. cbn in Hc12. injection Hc12 as <-. by exists [].
    - apply obind_ret in Hc1 as (c1 & E1 & Hc1). apply obind_ret in Hc1 as (r1 & Er1 & [= <-]). cbn in Hc12.
      apply obind_ret in Hc12 as (c12 & E12 & Hc12). apply obind_ret in Hc12 as (r12 & Er12 & [= <-]).
      destruct (Hc _ _ _ _ E1 E12) as (c2 & E2 & E21). destruct (IHl _ _ _ Er1 Er12) as (r2 & Er2 & Er21).
      exists (c2 :: r2). cbn. rewrite E2. cbn. rewrite Er2. cbn. rewrite E21. cbn. rewrite Er21. done. }
  exists (mkNode cs2 ps2 pr). cbn [node_access]. rewrite Hp2. cbn. rewrite Hc2. cbn. rewrite Hp21. cbn. rewrite Hc21. done.
Qed.

Theorem loads_swap T m r1 l1 al1 b1 m1 r2 l2 al2 b2 m12 :
  mo_load (TreeOps T) m r1 l1 al1 = Ret (b1, m1) -> mo_load (TreeOps T) m1 r2 l2 al2 = Ret (b2, m12) ->
  exists m2, mo_load (TreeOps T) m r2 l2 al2 = Ret (b2, m2) /\ mo_load (TreeOps T) m2 r1 l1 al1 = Ret (b1, m12).
Proof.
  intros H1 H12.
  apply tb_load_iff in H1 as [Hal1 [(E1 & -> & ->)|(Hl1 & i1 & q1 & o1 & a & root & Hp & Ha & Hli & Hin & Hoff & Hacc & Hb & ->)]].
  { exists m12. split; [done|]. apply tb_load_iff. split; [done|]. by left. }
  apply tb_load_iff in H12 as [Hal2 [(E2 & -> & ->)|(Hl2 & i2 & q2 & o2 & a2 & root2 & Hp2 & Ha2 & Hli2 & Hin2 & Hoff2 & Hacc2 & Hb2 & ->)]].
  { exists m. split; apply tb_load_iff; (split; [done|]); [by left|]. right. split; [done|]. by exists i1, q1, o1, a, root. }
  destruct (decide (i2 = i1)) as [->|Hne].
  - rewrite list_lookup_insert in Ha2 by (by eapply lookup_lt_Some). injection Ha2 as <-. cbn in Hacc2, Hb2, Hli2, Hoff2, Hin2.
    destruct (nodes_swap _ _ _ _ _ _ _ _ _ Hacc Hacc2) as (n2 & Hn2 & Hn21).
    exists (<[i1:=set_extra a n2]> m). split; apply tb_load_iff; (split; [done|]); right; (split; [done|]).
    + by exists i1, q2, o2, a, n2.
    + exists i1, q1, o1, (set_extra a n2), root2. rewrite list_lookup_insert by (by eapply lookup_lt_Some).
      do 7 (split; [done|]). by rewrite !list_insert_insert.
  - rewrite list_lookup_insert_ne in Ha2 by done. exists (<[i2:=set_extra a2 root2]> m).
    split; apply tb_load_iff; (split; [done|]); right; (split; [done|]).
    + by exists i2, q2, o2, a2, root2.
    + exists i1, q1, o1, a, root. rewrite list_lookup_insert_ne by done. do 7 (split; [done|]). by rewrite list_insert_commute.
Qed.

(** ** A read never makes another one fail *)
Lemma perm_keep p r1 r2 p1 p2 : perm_transition p AkRead r1 = Ret p1 -> perm_transition p AkRead r2 = Ret p2 ->
  exists p12, perm_transition p1 AkRead r2 = Ret p12.
Proof.
  destruct p as [[]|[|[] []| |[]|]], r1, r2; simpl; intros [= <-] [= <-]; eexists; reflexivity.
Qed.
Lemma perms_keep ps r1 r2 o1 s1 o2 s2 ps1 ps2 :
  perms_transition ps r1 AkRead o1 s1 = Ret ps1 -> perms_transition ps r2 AkRead o2 s2 = Ret ps2 ->
  exists ps12, perms_transition ps1 r2 AkRead o2 s2 = Ret ps12.
Proof.
  intros V1 V2. apply perms_transition_ret in V1 as [L1 V1], V2 as [L2 V2]. apply perms_transition_total. intros o R2.
  destruct (V1 o) as [A1 B1], (V2 o) as [A2 _]. destruct (A2 R2) as (p & p2 & Hp & T2 & _).
  destruct (decide (off_in o1 s1 o)) as [R1|R1].
  - destruct (A1 R1) as (p' & p1 & Hp' & T1 & E1). rewrite Hp in Hp'. injection Hp' as <-.
    destruct (perm_keep _ _ _ _ _ T1 T2) as (p12 & H). eauto.
  - rewrite B1 by done. eauto.
Qed.
Lemma nodes_keep n q1 q2 o1 s1 o2 s2 n1 n2 :
  node_access n q1 AkRead o1 s1 = Ret n1 -> node_access n q2 AkRead o2 s2 = Ret n2 ->
  exists n12, node_access n1 q2 AkRead o2 s2 = Ret n12.
Proof.
  revert q1 q2 n1 n2. induction n as [cs ps pr IH] using Node_ind'. intros q1 q2 n1 n2 H1 H2. cbn [node_access] in H1, H2.
  apply obind_ret in H1 as (ps1 & Hp1 & H1). apply obind_ret in H1 as (cs1 & Hc1 & [= <-]).
  apply obind_ret in H2 as (ps2 & Hp2 & H2). apply obind_ret in H2 as (cs2 & Hc2 & [= <-]).
  destruct (perms_keep _ _ _ _ _ _ _ _ _ Hp1 Hp2) as (ps12 & Hp12).
  assert (exists cs12, map_idx_m (fun i c => node_access c (sub_path q2 i) AkRead o2 s2) 0 cs1 = Ret cs12) as (cs12 & Hc12).
  { clear -IH Hc1 Hc2. revert cs1 cs2 Hc1 Hc2. generalize 0%nat. induction IH as [|c cs Hc IH IHl]; intros i cs1 cs2 Hc1 Hc2; cbn in Hc1, Hc2.
    - injection Hc1 as <-. by exists [].
    - apply obind_ret in Hc1 as (c1 & E1 & Hc1). apply obind_ret in Hc1 as (r1 & Er1 & [= <-]).
      apply obind_ret in Hc2 as (c2 & E2 & Hc2). apply obind_ret in Hc2 as (r2 & Er2 & [= <-]).
      destruct (Hc _ _ _ _ E1 E2) as (c12 & E12). destruct (IHl _ _ _ Er1 Er2) as (r12 & Er12).
      exists (c12 :: r12). cbn. rewrite E12. cbn. by rewrite Er12. }
  exists (mkNode cs12 ps12 pr). cbn [node_access]. rewrite Hp12. cbn. by rewrite Hc12.
Qed.

(** two loads that succeed can be done one after the other, in either order *)
Theorem loads_both T m r1 l1 al1 b1 m1 r2 l2 al2 b2 m2 :
  mo_load (TreeOps T) m r1 l1 al1 = Ret (b1, m1) -> mo_load (TreeOps T) m r2 l2 al2 = Ret (b2, m2) ->
  exists m', mo_load (TreeOps T) m1 r2 l2 al2 = Ret (b2, m') /\ mo_load (TreeOps T) m2 r1 l1 al1 = Ret (b1, m').
Proof.
  intros H1 H2. assert (exists m', mo_load (TreeOps T) m1 r2 l2 al2 = Ret (b2, m')) as (m' & H12).
  { apply tb_load_iff in H1 as [Hal1 [(E1 & -> & ->)|(Hl1 & i1 & q1 & o1 & a & root & Hp & Ha & Hli & Hin & Hoff & Hacc & Hb & ->)]]; [eauto|].
    apply tb_load_iff in H2 as [Hal2 [(E2 & -> & ->)|(Hl2 & i2 & q2 & o2 & a2 & root2 & Hp2 & Ha2 & Hli2 & Hin2 & Hoff2 & Hacc2 & Hb2 & ->)]].
    { eexists. apply tb_load_iff. split; [done|]. by left. }
    destruct (decide (i2 = i1)) as [->|Hne].
    - rewrite Ha in Ha2. injection Ha2 as <-. destruct (nodes_keep _ _ _ _ _ _ _ _ _ Hacc Hacc2) as (n12 & Hn).
      eexists. apply tb_load_iff. split; [done|]. right. split; [done|].
      exists i1, q2, o2, (set_extra a root), n12. rewrite list_lookup_insert by (by eapply lookup_lt_Some). done.
    - eexists. apply tb_load_iff. split; [done|]. right. split; [done|].
      exists i2, q2, o2, a2, root2. rewrite list_lookup_insert_ne by done. done. }
  exists m'. split; [done|]. destruct (loads_swap _ _ _ _ _ _ _ _ _ _ _ _ H1 H12) as (m2' & H2' & H21). rewrite H2 in H2'. by injection H2' as <-.
Qed.
