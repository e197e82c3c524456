(** Locality of accesses, stability of trees, and commuting reads. *)
From Verif Require Export TreeRefine.
From stdpp Require Import relations.
From Coq Require Import ZifyBool ZifyN ZifyNat.
Local Open Scope Z_scope.

(** ** Locality *)

(** same shape, same protectors, and same permissions at the offsets of the range *)
Definition agree_on (off : Offset) (size : N) (n1 n2 : Node) : Prop :=
  forall path, match ninfo n1 path, ninfo n2 path with
  | Some (ps1, pr1), Some (ps2, pr2) =>
      pr1 = pr2 /\ length ps1 = length ps2 /\ forall o, off_in off size o -> ps1 !! o = ps2 !! o
  | None, None => True
  | _, _ => False
  end.

Lemma agree_sym off size n1 n2 : agree_on off size n1 n2 -> agree_on off size n2 n1.
Proof.
  intros H path. specialize (H path). destruct (ninfo n1 path) as [[ps1 pr1]|], (ninfo n2 path) as [[ps2 pr2]|]; try done.
  destruct H as (-> & -> & H). split; [done|]. split; [done|]. intros o Ho. by rewrite H.
Qed.

Lemma access_outside n q ak off size n' path ps pr ps' pr' o :
  node_access n q ak off size = Ret n' -> ninfo n path = Some (ps, pr) -> ninfo n' path = Some (ps', pr') ->
  ~ off_in off size o -> ps' !! o = ps !! o.
Proof.
  intros H Hi Hi' Ho. apply (node_access_view _ _ _ _ _ _ path) in H. rewrite Hi, Hi' in H. destruct H as [_ H].
  apply perms_transition_ret in H as [_ H]. by apply H.
Qed.

Lemma access_local n1 n2 q ak off size n1' :
  agree_on off size n1 n2 -> node_access n1 q ak off size = Ret n1' ->
  exists n2', node_access n2 q ak off size = Ret n2' /\ agree_on off size n1' n2'.
Proof.
  intros Ha H1. destruct (node_access_total n2 q ak off size) as [n2' H2].
  - intros path ps pr o Hi Ho. specialize (Ha path). rewrite Hi in Ha.
    pose proof (node_access_view _ _ _ _ _ _ path H1) as Hv.
    destruct (ninfo n1 path) as [[ps1 pr1]|]; [|done]. destruct Ha as (-> & Hl & He).
    destruct (ninfo n1' path) as [[ps1' pr1']|]; [|done]. destruct Hv as [_ Hv].
    apply perms_transition_ret in Hv as [_ Hv]. destruct (proj1 (Hv o) Ho) as (p & p' & Hp & Ht & _).
    exists p, p'. by rewrite <- He.
  - exists n2'. split; [done|]. intros path. specialize (Ha path).
    pose proof (node_access_view _ _ _ _ _ _ path H1) as Hv1.
    pose proof (node_access_view _ _ _ _ _ _ path H2) as Hv2.
    destruct (ninfo n1 path) as [[ps1 pr1]|], (ninfo n2 path) as [[ps2 pr2]|]; try done.
    2:{ by destruct (ninfo n1' path), (ninfo n2' path). }
    destruct Ha as (-> & Hl & He).
    destruct (ninfo n1' path) as [[ps1' pr1']|]; [|done]. destruct (ninfo n2' path) as [[ps2' pr2']|]; [|done].
    destruct Hv1 as [-> Hv1], Hv2 as [-> Hv2].
    apply perms_transition_ret in Hv1 as [Hl1 Hv1], Hv2 as [Hl2 Hv2].
    split; [done|]. split; [lia|]. intros o Ho.
    destruct (proj1 (Hv1 o) Ho) as (p & p' & Hp & Ht & ->). destruct (proj1 (Hv2 o) Ho) as (x & x' & Hx & Hxt & ->).
    rewrite He, Hx in Hp by done. injection Hp as ->. congruence.
Qed.

Lemma access_local_ub n1 n2 q ak off size len :
  tree_len n1 len -> (N.to_nat off + N.to_nat size <= len)%nat ->
  agree_on off size n1 n2 ->
  is_ub (node_access n1 q ak off size) -> is_ub (node_access n2 q ak off size).
Proof.
  intros Hl Hr Ha Hub.
  assert (tree_len n2 len) as Hl2.
  { intros path ps pr Hi. specialize (Ha path). rewrite Hi in Ha. destruct (ninfo n1 path) as [[ps1 pr1]|] eqn:E; [|done].
    destruct Ha as (_ & <- & _). by eapply Hl. }
  destruct (node_access_cases n2 q ak off size len Hl2 Hr) as [[n2' H2]|?]; [|done]. exfalso.
  apply agree_sym in Ha. destruct (access_local _ _ _ _ _ _ _ Ha H2) as (n1' & H1 & _).
  destruct Hub as [msg Hub]. congruence.
Qed.

(** ** Shape *)

Lemma access_shape n q ak off size n' :
  node_access n q ak off size = Ret n' ->
  forall path, match node_at n path, node_at n' path with
               | Some nd, Some nd' => length (n_children nd') = length (n_children nd) /\
                   n_prot nd' = n_prot nd /\ length (n_perms nd') = length (n_perms nd)
               | None, None => True
               | _, _ => False
               end.
Proof.
  intros H path. revert n n' q H. induction path as [|i path IH]; intros [cs ps pr] n' q H; simpl in H;
    apply obind_ret in H as (ps' & Hps & H); apply obind_ret in H as (cs' & Hcs & [= <-]);
    apply map_idx_m_ret in Hcs as [Hl Hcs]; simpl.
  - apply perms_transition_ret in Hps as [Hps _]. done.
  - destruct (cs !! i) as [c|] eqn:E.
    + destruct (Hcs i c E) as (c' & Hc' & ->). by eapply IH.
    + apply lookup_ge_None in E. rewrite lookup_ge_None_2 by lia. done.
Qed.

(** each node takes the transition of its position *)
Lemma access_effect n q ak off size n' path ps pr o p :
  node_access n (Some q) ak off size = Ret n' -> ninfo n path = Some (ps, pr) -> ps !! o = Some p ->
  off_in off size o ->
  exists ps' p', ninfo n' path = Some (ps', pr) /\ ps' !! o = Some p' /\
    (path `prefix_of` q -> perm_transition p ak Local = Ret p') /\
    (~ path `prefix_of` q -> perm_transition p ak Foreign = Ret p').
Proof.
  intros H Hi Ho Hr. destruct (node_access_perm _ _ _ _ _ _ _ _ _ _ _ H Hi Ho) as (ps' & p' & Hi' & Ho' & Ht & _).
  exists ps', p'. split; [done|]. split; [done|]. specialize (Ht Hr). unfold rel_at in Ht.
  destruct (decide (path `prefix_of` q)); split; done.
Qed.

Lemma add_node_stable n parent child n' cp :
  add_node n parent child = Ret (n', cp) ->
  (exists k, cp = parent ++ [k]) /\ ninfo n cp = None /\ ninfo n' cp = Some (n_perms child, n_prot child) \/
  n_children child <> [].
Proof.
  destruct child as [[|c cs] ps pr]; [|right; done]. intros H. left.
  apply add_node_view in H as (nd & Hnd & Hcp & Hn & Hv).
  split; [eauto|]. split; [done|]. rewrite Hv, decide_True; done.
Qed.

(** ** Reads *)

(** no node is or was protected *)
Definition no_protectors (n : Node) : Prop :=
  forall path ps pr, ninfo n path = Some (ps, pr) ->
    pr = ProtNo /\ forall o p, ps !! o = Some p -> exists u, p = Unprot u.

Lemma read_keeps_unprot n q off size n' :
  no_protectors n -> node_access n q AkRead off size = Ret n' -> no_protectors n'.
Proof.
  intros Hn H path ps' pr' Hi'. apply (node_access_view _ _ _ _ _ _ path) in H. rewrite Hi' in H.
  destruct (ninfo n path) as [[ps pr]|] eqn:E; [|done]. destruct H as [-> H]. destruct (Hn _ _ _ E) as [-> Hu].
  split; [done|]. intros o p' Ho'. apply perms_transition_ret in H as [Hl H]. destruct (H o) as [H1 H2].
  destruct (decide (off_in off size o)) as [Hr|Hr].
  - destruct (H1 Hr) as (p & p1 & Hp & Ht & Hp1). assert (p1 = p') as -> by congruence.
    destruct (Hu _ _ Hp) as [u ->]. simpl in Ht. apply obind_ret in Ht as (u' & _ & [= <-]). eauto.
  - rewrite H2 in Ho' by done. by eapply Hu.
Qed.

(** without protectors, a read is allowed exactly if the nodes on the path are not disabled *)
Lemma read_ok n q off size len :
  no_protectors n -> tree_len n len -> (N.to_nat off + N.to_nat size <= len)%nat ->
  ((exists n', node_access n (Some q) AkRead off size = Ret n') <->
   forall path ps pr o, ninfo n path = Some (ps, pr) -> path `prefix_of` q -> off_in off size o ->
     ps !! o <> Some (Unprot UDisabled)).
Proof.
  intros Hn Hl Hr. split.
  - intros [n' H] path ps pr o Hi Hp Ho Hd.
    destruct (node_access_perm _ _ _ _ _ _ _ _ _ _ _ H Hi Hd) as (ps' & p' & _ & _ & Ht & _).
    specialize (Ht Ho). rewrite rel_local in Ht by done. discriminate Ht.
  - intros H. apply node_access_total. intros path ps pr o Hi Ho.
    destruct (lookup_lt_is_Some_2 ps o) as [p Hp].
    { rewrite (Hl _ _ _ Hi). unfold off_in in Ho. lia. }
    exists p. destruct (Hn _ _ _ Hi) as [_ Hu]. destruct (Hu _ _ Hp) as [u ->].
    destruct (decide (path `prefix_of` q)) as [Hq|Hq].
    + rewrite rel_local by done. specialize (H _ _ _ _ Hi Hq Ho). simpl.
      destruct u; try done; by eexists.
    + rewrite rel_foreign by done. simpl. destruct u; by eexists.
Qed.

Lemma read_disabled n q1 off1 size1 n1 path ps pr ps1 pr1 o :
  no_protectors n -> node_access n q1 AkRead off1 size1 = Ret n1 ->
  ninfo n path = Some (ps, pr) -> ninfo n1 path = Some (ps1, pr1) ->
  (ps !! o = Some (Unprot UDisabled) <-> ps1 !! o = Some (Unprot UDisabled)).
Proof.
  intros Hn H Hi Hi1. apply (node_access_view _ _ _ _ _ _ path) in H. rewrite Hi, Hi1 in H. destruct H as [_ H].
  apply perms_transition_ret in H as [Hl H]. destruct (H o) as [H1 H2]. destruct (Hn _ _ _ Hi) as [_ Hu].
  destruct (decide (off_in off1 size1 o)) as [Hr|Hr]; [|by rewrite H2].
  destruct (H1 Hr) as (p & p' & Hp & Ht & Hp'). destruct (Hu _ _ Hp) as [u ->]. rewrite Hp, Hp'.
  destruct u, (rel_at q1 path); simpl in Ht; try discriminate Ht; injection Ht as <-; split; intros E; try discriminate E; done.
Qed.

Lemma read_read_iff n q1 off1 size1 n1 q2 off2 size2 len :
  no_protectors n -> tree_len n len -> (N.to_nat off2 + N.to_nat size2 <= len)%nat ->
  node_access n (Some q1) AkRead off1 size1 = Ret n1 ->
  ((exists n2, node_access n (Some q2) AkRead off2 size2 = Ret n2) <->
   (exists n2, node_access n1 (Some q2) AkRead off2 size2 = Ret n2)).
Proof.
  intros Hn Hl Hr H1.
  pose proof (read_keeps_unprot _ _ _ _ _ Hn H1) as Hn1. pose proof (node_access_len _ _ _ _ _ _ _ H1 Hl) as Hl1.
  rewrite (read_ok n q2 off2 size2 len Hn Hl Hr), (read_ok n1 q2 off2 size2 len Hn1 Hl1 Hr).
  split; intros H path ps pr o Hi Hp Ho; pose proof (node_access_view _ _ _ _ _ _ path H1) as Hv; rewrite Hi in Hv.
  - destruct (ninfo n path) as [[ps0 pr0]|] eqn:E; [|done]. specialize (H _ _ _ _ E Hp Ho).
    by rewrite <- (read_disabled _ _ _ _ _ _ _ _ _ _ o Hn H1 E Hi).
  - destruct (ninfo n1 path) as [[ps0 pr0]|] eqn:E; [|done]. specialize (H _ _ _ _ E Hp Ho).
    by rewrite (read_disabled _ _ _ _ _ _ _ _ _ _ o Hn H1 Hi E).
Qed.

Lemma reads_commute n q1 off1 size1 n1 n12 q2 off2 size2 n2 n21 :
  no_protectors n ->
  node_access n (Some q1) AkRead off1 size1 = Ret n1 -> node_access n1 (Some q2) AkRead off2 size2 = Ret n12 ->
  node_access n (Some q2) AkRead off2 size2 = Ret n2 -> node_access n2 (Some q1) AkRead off1 size1 = Ret n21 ->
  n12 = n21.
Proof.
  intros Hn H1 H12 H2 H21. apply ninfo_ext. intros path.
  pose proof (node_access_view _ _ _ _ _ _ path H1) as V1. pose proof (node_access_view _ _ _ _ _ _ path H12) as V12.
  pose proof (node_access_view _ _ _ _ _ _ path H2) as V2. pose proof (node_access_view _ _ _ _ _ _ path H21) as V21.
  destruct (ninfo n path) as [[ps pr]|] eqn:E.
  2:{ destruct (ninfo n1 path); [done|]. destruct (ninfo n12 path); [done|]. destruct (ninfo n2 path); [done|].
      by destruct (ninfo n21 path). }
  destruct (ninfo n1 path) as [[ps1 pr1]|]; [|done]. destruct (ninfo n12 path) as [[ps12 pr12]|]; [|done].
  destruct (ninfo n2 path) as [[ps2 pr2]|]; [|done]. destruct (ninfo n21 path) as [[ps21 pr21]|]; [|done].
  destruct V1 as [-> V1], V12 as [-> V12], V2 as [-> V2], V21 as [-> V21]. f_equal. f_equal.
  apply perms_transition_ret in V1 as [L1 V1], V12 as [L12 V12], V2 as [L2 V2], V21 as [L21 V21].
  apply list_eq. intros o. destruct (Hn _ _ _ E) as [_ Hu].
  destruct (V1 o) as [A1 B1], (V12 o) as [A12 B12], (V2 o) as [A2 B2], (V21 o) as [A21 B21].
  destruct (decide (off_in off1 size1 o)) as [R1|R1], (decide (off_in off2 size2 o)) as [R2|R2].
  - destruct (A1 R1) as (p & p1 & Hp & T1 & E1). destruct (A12 R2) as (p1' & p12 & Hp1 & T12 & E12).
    destruct (A2 R2) as (p' & p2 & Hp' & T2 & E2). destruct (A21 R1) as (p2' & p21 & Hp2 & T21 & E21).
    rewrite Hp in Hp'. injection Hp' as <-. rewrite E1 in Hp1. injection Hp1 as <-. rewrite E2 in Hp2. injection Hp2 as <-.
    rewrite E12, E21. f_equal. destruct (Hu _ _ Hp) as [u ->].
    destruct u, (rel_at (Some q1) path), (rel_at (Some q2) path); simpl in T1, T2; try discriminate T1; try discriminate T2;
      injection T1 as <-; injection T2 as <-; simpl in T12, T21; congruence.
  - rewrite B12 by done. destruct (A1 R1) as (p & p1 & Hp & T1 & E1). destruct (A21 R1) as (p2' & p21 & Hp2 & T21 & E21).
    rewrite B2 in Hp2 by done. rewrite E1, E21. congruence.
  - rewrite B21 by done. destruct (A2 R2) as (p & p1 & Hp & T1 & E1). destruct (A12 R2) as (p2' & p21 & Hp2 & T21 & E21).
    rewrite B1 in Hp2 by done. rewrite E1, E21. congruence.
  - rewrite B12, B1, B21, B2 by done. done.
Qed.

Section Reads.
  Variable T : Target.
  Notation TO := (TreeOps T).

  (** the memory has no protectors: no retag at a function entry so far *)
  Definition mem_no_prot (m : TMem) : Prop :=
    forall id a, m !! id = Some a -> no_protectors (al_extra a).

  Lemma tb_load_iff m r len al b m' :
    mo_load TO m r len al = Ret (b, m') <->
    is_aligned al (tp_addr r) = true /\
    ((len = 0%N /\ b = [] /\ m' = m) \/
     (len <> 0%N /\ exists id q off a root, tp_prov r = Some (id, q) /\ m !! id = Some a /\ al_live a = true /\
        in_alloc a (tp_addr r) len /\ tp_addr r = al_addr a + Z.of_N off /\
        node_access (al_extra a) (Some q) AkRead off len = Ret root /\
        subslice (al_data a) off len = Ret b /\ m' = <[id := set_extra a root]> m)).
  Proof.
    split.
    - intros H. simpl in H. apply bm_load_ret in H. done.
    - intros [Hal [(-> & -> & ->)|(Hl & id & q & off & a & root & Hp & Ha & Hli & Hin & Hoff & Hacc & Hb & ->)]].
      + simpl. unfold bm_load. rewrite Hal. done.
      + simpl. unfold bm_load. rewrite Hal. simpl.
        assert (bm_check_ptr m r len = Ret (Some (id, q, off))) as ->.
        { apply bm_check_ptr_some. split; [done|]. split; [done|]. exists a. done. }
        simpl. rewrite Ha. simpl. rewrite Hacc. simpl. rewrite Hb. done.
  Qed.

  Lemma load_keeps_no_prot m r len al b m' :
    mem_no_prot m -> mo_load TO m r len al = Ret (b, m') -> mem_no_prot m'.
  Proof.
    intros Hn H. apply tb_load_iff in H as [_ [(_ & _ & ->)|(_ & id & q & off & a & root & _ & Ha & _ & _ & _ & Hacc & _ & ->)]];
      [done|]. intros id1 a1 H1. destruct (decide (id1 = id)) as [->|Hne].
    - rewrite list_lookup_insert in H1 by (by eapply lookup_lt_Some). injection H1 as <-. simpl.
      eapply read_keeps_unprot; [|exact Hacc]. by eapply Hn.
    - rewrite list_lookup_insert_ne in H1 by done. by eapply Hn.
  Qed.

  (** a successful load does not change whether another load succeeds *)
  Theorem load_load_iff m r1 len1 al1 b1 m1 r2 len2 al2 b2 :
    tb_len m -> mem_no_prot m ->
    mo_load TO m r1 len1 al1 = Ret (b1, m1) ->
    ((exists m2, mo_load TO m r2 len2 al2 = Ret (b2, m2)) <->
     (exists m2, mo_load TO m1 r2 len2 al2 = Ret (b2, m2))).
  Proof.
    intros Hlen Hn H1. apply tb_load_iff in H1 as [_ [(_ & _ & ->)|(_ & id & q & off & a & root & _ & Ha & Hli & _ & _ & Hacc & _ & ->)]];
      [done|].
    split; intros [m2 H2]; apply tb_load_iff in H2 as
      [Hal [(-> & -> & ->)|(Hl & id2 & q2 & off2 & a2 & root2 & Hp2 & Ha2 & Hli2 & Hin2 & Hoff2 & Hacc2 & Hb2 & ->)]].
    - eexists. apply tb_load_iff. split; [done|]. left. done.
    - destruct (decide (id2 = id)) as [->|Hne].
      + rewrite Ha in Ha2. injection Ha2 as <-.
        destruct (proj1 (read_read_iff _ _ _ _ _ q2 off2 len2 (length (al_data a)) (Hn _ _ Ha) (Hlen _ _ Ha)
          ltac:(destruct Hin2; unfold al_size in *; lia) Hacc)) as [r' Hr']; [eauto|].
        eexists. apply tb_load_iff. split; [done|]. right. split; [done|].
        exists id, q2, off2, (set_extra a root), r'. rewrite list_lookup_insert by (by eapply lookup_lt_Some). done.
      + eexists. apply tb_load_iff. split; [done|]. right. split; [done|].
        exists id2, q2, off2, a2, root2. rewrite list_lookup_insert_ne by done. done.
    - eexists. apply tb_load_iff. split; [done|]. left. done.
    - destruct (decide (id2 = id)) as [->|Hne].
      + rewrite list_lookup_insert in Ha2 by (by eapply lookup_lt_Some). injection Ha2 as <-.
        destruct (proj2 (read_read_iff _ _ _ _ _ q2 off2 len2 (length (al_data a)) (Hn _ _ Ha) (Hlen _ _ Ha)
          ltac:(destruct Hin2; unfold al_size in *; simpl in *; lia) Hacc)) as [r' Hr']; [simpl in *; eauto|].
        eexists. apply tb_load_iff. split; [done|]. right. split; [done|].
        exists id, q2, off2, a, r'. done.
      + rewrite list_lookup_insert_ne in Ha2 by done.
        eexists. apply tb_load_iff. split; [done|]. right. split; [done|].
        exists id2, q2, off2, a2, root2. done.
  Qed.

  (** two loads give the same bytes and the same memory in either order *)
  Theorem loads_commute m r1 len1 al1 b1 m1 r2 len2 al2 b2 m2 :
    tb_len m -> mem_no_prot m ->
    mo_load TO m r1 len1 al1 = Ret (b1, m1) -> mo_load TO m r2 len2 al2 = Ret (b2, m2) ->
    exists m', mo_load TO m1 r2 len2 al2 = Ret (b2, m') /\ mo_load TO m2 r1 len1 al1 = Ret (b1, m').
  Proof.
    intros Hlen Hn H1 H2.
    destruct (proj1 (load_load_iff _ _ _ _ _ _ r2 len2 al2 b2 Hlen Hn H1)) as [m12 H12]; [eauto|].
    destruct (proj1 (load_load_iff _ _ _ _ _ _ r1 len1 al1 b1 Hlen Hn H2)) as [m21 H21]; [eauto|].
    exists m12. split; [done|]. rewrite H21. do 2 f_equal.
    apply tb_load_iff in H1 as [_ [(E1 & _ & ->)|(Hl1 & id & q & off & a & root & Hp & Ha & Hli & _ & Hoff & Hacc & _ & ->)]].
    { apply tb_load_iff in H21 as [_ [(_ & _ & ->)|(? & _)]]; [|done]. congruence. }
    apply tb_load_iff in H2 as [_ [(E2 & _ & ->)|(Hl2 & id2 & q2 & off2 & a2 & root2 & Hp2 & Ha2 & Hli2 & _ & Hoff2 & Hacc2 & _ & ->)]].
    { apply tb_load_iff in H12 as [_ [(_ & _ & ->)|(? & _)]]; [|done].
      apply tb_load_iff in H21 as [_ [(? & _)|(_ & id' & q' & off' & a' & root' & Hp' & Ha' & _ & _ & Hoff' & Hacc' & _ & ->)]]; [done|].
      rewrite Hp in Hp'. injection Hp' as <- <-. rewrite Ha in Ha'. injection Ha' as <-.
      assert (off' = off) as -> by lia. congruence. }
    apply tb_load_iff in H12 as [_ [(? & _)|(_ & id3 & q3 & off3 & a3 & root3 & Hp3 & Ha3 & _ & _ & Hoff3 & Hacc3 & _ & ->)]]; [done|].
    apply tb_load_iff in H21 as [_ [(? & _)|(_ & id4 & q4 & off4 & a4 & root4 & Hp4 & Ha4 & _ & _ & Hoff4 & Hacc4 & _ & ->)]]; [done|].
    rewrite Hp2 in Hp3. injection Hp3 as <- <-. rewrite Hp in Hp4. injection Hp4 as <- <-.
    destruct (decide (id2 = id)) as [->|Hne].
    - rewrite list_lookup_insert in Ha3, Ha4 by (by eapply lookup_lt_Some). rewrite Ha in Ha2. injection Ha2 as <-.
      injection Ha3 as <-. injection Ha4 as <-. simpl in *.
      assert (off3 = off2) as -> by lia. assert (off4 = off) as -> by lia.
      rewrite !list_insert_insert. f_equal. unfold set_extra. simpl. f_equal. symmetry.
      eapply (reads_commute (al_extra a) q off len1 root root3 q2 off2 len2 root2 root4); try done. by eapply Hn.
    - rewrite list_lookup_insert_ne in Ha3, Ha4 by done. rewrite Ha2 in Ha3. injection Ha3 as <-.
      rewrite Ha in Ha4. injection Ha4 as <-. assert (off3 = off2) as -> by lia. assert (off4 = off) as -> by lia.
      rewrite Hacc in Hacc4. injection Hacc4 as <-. rewrite Hacc2 in Hacc3. injection Hacc3 as <-.
      by rewrite list_insert_commute.
  Qed.

  (** histories without function-entry retags have no protectors *)
  Definition no_entry (op : MemOp TProv TFrame) : Prop :=
    match op with OpRetag _ _ _ fe _ => fe = false | _ => True end.
End Reads.
