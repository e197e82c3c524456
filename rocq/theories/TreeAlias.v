(** Exclusivity, immutability and weakening of permissions under Tree Borrows. *)
From Verif Require Export TreeSteps.
From stdpp Require Import relations.
From Coq Require Import ZifyBool ZifyN ZifyNat.
Local Open Scope Z_scope.

Section Alias.
  Variable T : Target.
  Notation TO := (TreeOps T).

  Lemma addr_perm_some m id path x p :
    addr_perm m id path x = Some p <->
    exists a o, m !! id = Some a /\ x = al_addr a + Z.of_nat o /\ mem_perm m id path o = Some p.
  Proof.
    unfold addr_perm. split.
    - destruct (m !! id) as [a|] eqn:E; [|done]. destruct (Z.leb_spec (al_addr a) x); [|done].
      intros H0. exists a, (Z.to_nat (x - al_addr a)). split; [done|]. split; [lia|done].
    - intros (a & o & Ha & -> & Hp). rewrite Ha. destruct (Z.leb_spec (al_addr a) (al_addr a + Z.of_nat o)); [|lia].
      by replace (Z.to_nat (al_addr a + Z.of_nat o - al_addr a)) with o by lia.
  Qed.

  Lemma mem_perm_info m id a path o p :
    m !! id = Some a -> mem_perm m id path o = Some p ->
    exists ps pr, ninfo (al_extra a) path = Some (ps, pr) /\ ps !! o = Some p.
  Proof.
    intros Ha. unfold mem_perm. rewrite Ha. destruct (ninfo _ _) as [[ps pr]|]; [eauto|done].
  Qed.

  (** an invariant of the permission at an address *)
  Lemma addr_perm_invariant (Q : Perm -> Prop) R m m' id path x :
    (forall p ak rel p', Q p -> perm_transition p ak rel = Ret p' -> Q p') ->
    ~ R (id, path) -> rtc (tb_step T R) m m' ->
    (exists p, addr_perm m id path x = Some p /\ Q p) -> exists p, addr_perm m' id path x = Some p /\ Q p.
  Proof.
    intros HQ HR Hs (p & Hp & Hq). apply addr_perm_some in Hp as (a & o & Ha & -> & Hp).
    destruct (perm_invariant T Q R m m' id path o HQ HR Hs) as (p' & Hp' & Hq'); [eauto|].
    destruct (tb_steps_addr T R m m' id a Hs Ha) as (a' & Ha' & Hadr & _).
    exists p'. split; [|done]. apply addr_perm_some. exists a', o. rewrite Hadr. done.
  Qed.

  (** the same when releases are allowed too *)
  Lemma addr_perm_invariant_rel (Q : Perm -> Prop) R m m' id path x :
    (forall p ak rel p', Q p -> perm_transition p ak rel = Ret p' -> Q p') ->
    (forall p p' acc, Q p -> perm_unprotect p = Ret (p', acc) -> Q p') ->
    rtc (tb_step T R) m m' ->
    (exists p, addr_perm m id path x = Some p /\ Q p) -> exists p, addr_perm m' id path x = Some p /\ Q p.
  Proof.
    intros HQ HR Hs. induction Hs as [|m m1 m2 H1 H2 IH]; [done|]. intros (p & Hp & Hq). apply IH.
    apply addr_perm_some in Hp as (a & o & Ha & -> & Hp).
    destruct (tb_step_addr T R m m1 id a H1 Ha) as (a' & Ha' & Hadr & _).
    destruct (tb_step_perm T R m m1 id path o p H1 Hp) as (p' & Hp' & Hc).
    exists p'. split; [apply addr_perm_some; exists a', o; rewrite Hadr; done|].
    destruct Hc as [->|[(ak & rel & Ht)|(_ & acc & Hu)]]; [done|by eapply HQ|by eapply HR].
  Qed.

  (** ** Loads and stores meeting a node that forbids them *)

  Lemma covers_pos {P} (ptr : ThinPtr P) len x : covers ptr len x -> len <> 0%N.
  Proof. unfold covers. lia. Qed.

  Lemma tb_load_ub m r id q path x p len al :
    tb_len m -> tp_prov r = Some (id, q) -> addr_perm m id path x = Some p -> covers r len x ->
    is_ub (perm_transition p AkRead (rel_at (Some q) path)) -> is_ub (mo_load TO m r len al).
  Proof.
    intros Hlen Hr Hp Hc Hub. pose proof (covers_pos _ _ _ Hc) as Hl.
    apply addr_perm_some in Hp as (a & o & Ha & -> & Hp).
    assert (prov_known m r) as Hk.
    { intros id' pe E. rewrite Hr in E. injection E as <- <-. by eapply lookup_lt_Some. }
    destruct (decide (tp_addr r mod Z.of_N (align_bytes al) = 0)) as [Hal|Hal].
    2:{ apply (bad_access_ub T _ m r al (tree_like T) Hk); [done|tauto]. }
    destruct (check_ptr_cases m r len Hl Hk) as [[Hok _]|[Hn _]].
    2:{ apply (bad_access_ub T _ m r al (tree_like T) Hk); [done|tauto]. }
    destruct (bm_load_ok m r len al (fun root path offset => node_access root (Some path) AkRead offset len) Hl Hal Hok)
      as (id' & pe & a' & off & bytes & Hr' & Ha' & Hli & Hadr & Hsz & Heq).
    rewrite Hr in Hr'. injection Hr' as <- <-. rewrite Ha in Ha'. injection Ha' as <-.
    simpl. rewrite Heq. destruct (mem_perm_info _ _ _ _ _ _ Ha Hp) as (ps & pr & Hi & Ho).
    destruct (node_access_ub (al_extra a) (Some q) AkRead off len (length (al_data a)) path ps pr o p) as [msg ->].
    - by eapply Hlen.
    - unfold al_size in Hsz. lia.
    - done.
    - unfold covers in Hc. unfold off_in. lia.
    - done.
    - done.
    - by eexists.
  Qed.

  Lemma tb_store_ub m r id q path x p bytes al :
    tb_len m -> tp_prov r = Some (id, q) -> addr_perm m id path x = Some p ->
    covers r (N.of_nat (length bytes)) x ->
    is_ub (perm_transition p AkWrite (rel_at (Some q) path)) -> is_ub (mo_store TO m r bytes al).
  Proof.
    intros Hlen Hr Hp Hc Hub. pose proof (covers_pos _ _ _ Hc) as Hl.
    assert (bytes <> []) as Hne by (by destruct bytes).
    apply addr_perm_some in Hp as (a & o & Ha & -> & Hp).
    assert (prov_known m r) as Hk.
    { intros id' pe E. rewrite Hr in E. injection E as <- <-. by eapply lookup_lt_Some. }
    destruct (decide (tp_addr r mod Z.of_N (align_bytes al) = 0)) as [Hal|Hal].
    2:{ apply (bad_access_ub T _ m r al (tree_like T) Hk); [done|tauto]. }
    destruct (check_ptr_cases m r _ Hl Hk) as [[Hok _]|[Hn _]].
    2:{ apply (bad_access_ub T _ m r al (tree_like T) Hk); [done|tauto]. }
    destruct (bm_store_ok m r bytes al (fun root path offset => node_access root (Some path) AkWrite offset (N.of_nat (length bytes))) Hne Hal Hok)
      as (id' & pe & a' & off & data & Hr' & Ha' & Hli & Hadr & Hsz & Heq).
    rewrite Hr in Hr'. injection Hr' as <- <-. rewrite Ha in Ha'. injection Ha' as <-.
    simpl. rewrite Heq. destruct (mem_perm_info _ _ _ _ _ _ Ha Hp) as (ps & pr & Hi & Ho).
    destruct (node_access_ub (al_extra a) (Some q) AkWrite off (N.of_nat (length bytes)) (length (al_data a)) path ps pr o p) as [msg ->].
    - by eapply Hlen.
    - unfold al_size in Hsz. lia.
    - done.
    - unfold covers in Hc. unfold off_in. lia.
    - done.
    - done.
    - by eexists.
  Qed.

  (** ** What successful loads and stores do *)

  Lemma tb_load_access m r id q len al b m' :
    mo_load TO m r len al = Ret (b, m') -> tp_prov r = Some (id, q) -> len <> 0%N ->
    exists a off root, m !! id = Some a /\ al_live a = true /\ tp_addr r = al_addr a + Z.of_N off /\
      (N.to_nat off + N.to_nat len <= length (al_data a))%nat /\
      node_access (al_extra a) (Some q) AkRead off len = Ret root /\ m' = <[id := set_extra a root]> m.
  Proof.
    intros H Hr Hl. simpl in H.
    apply bm_load_ret in H as (_ & [(? & _)|(Hne & id' & path & off & a & root & Hp & Ha & Hli & [H1 H2] & Ho & Hh & Hd & ->)]);
      [done|].
    rewrite Hr in Hp. injection Hp as <- <-. exists a, off, root. split; [done|]. split; [done|]. split; [lia|].
    split; [unfold al_size in H2; lia|]. split; [done|]. unfold set_extra. done.
  Qed.

  Lemma tb_store_access m r id q bytes al m' :
    mo_store TO m r bytes al = Ret m' -> tp_prov r = Some (id, q) -> bytes <> [] ->
    exists a off root data, m !! id = Some a /\ al_live a = true /\ tp_addr r = al_addr a + Z.of_N off /\
      (N.to_nat off + length bytes <= length (al_data a))%nat /\ length data = length (al_data a) /\
      node_access (al_extra a) (Some q) AkWrite off (N.of_nat (length bytes)) = Ret root /\
      m' = <[id := mkAlloc data (al_addr a) (al_align a) (al_kind a) (al_live a) root]> m.
  Proof.
    intros H Hr Hl. simpl in H.
    apply bm_store_ret in H as (_ & [(? & _)|(Hne & id' & path & off & a & root & data & Hp & Ha & Hli & [H1 H2] & Ho & Hh & Hd & ->)]);
      [done|].
    rewrite Hr in Hp. injection Hp as <- <-. exists a, off, root, data. split; [done|]. split; [done|]. split; [lia|].
    split; [unfold al_size in H2; lia|]. split; [by apply write_subslice_length in Hd|]. split; [done|]. done.
  Qed.

  Lemma access_addr_perm m id a data live q ak off len root path x p :
    m !! id = Some a -> node_access (al_extra a) (Some q) ak off len = Ret root ->
    addr_perm m id path x = Some p ->
    exists p', addr_perm (<[id := mkAlloc data (al_addr a) (al_align a) (al_kind a) live root]> m) id path x = Some p' /\
      (al_addr a + Z.of_N off <= x < al_addr a + Z.of_N off + Z.of_N len ->
         perm_transition p ak (rel_at (Some q) path) = Ret p') /\
      (~ al_addr a + Z.of_N off <= x < al_addr a + Z.of_N off + Z.of_N len -> p' = p).
  Proof.
    intros Ha Hacc Hp. apply addr_perm_some in Hp as (a0 & o & Ha0 & -> & Hp).
    rewrite Ha in Ha0. injection Ha0 as <-.
    destruct (mem_perm_info _ _ _ _ _ _ Ha Hp) as (ps & pr & Hi & Ho).
    destruct (node_access_perm _ _ _ _ _ _ _ _ _ _ _ Hacc Hi Ho) as (ps' & p' & Hi' & Ho' & H1 & H2).
    exists p'. split; [|split].
    - apply addr_perm_some. eexists _, o. rewrite list_lookup_insert by (by eapply lookup_lt_Some).
      split; [done|]. split; [done|]. rewrite (mem_perm_insert m id a _ id path o Ha), decide_True by done.
      simpl. by rewrite Hi'.
    - intros Hx. apply H1. unfold off_in. lia.
    - intros Hx. apply H2. unfold off_in. lia.
  Qed.

  Lemma tb_load_perm m r id q len al b m' path x p :
    mo_load TO m r len al = Ret (b, m') -> tp_prov r = Some (id, q) ->
    addr_perm m id path x = Some p ->
    exists p', addr_perm m' id path x = Some p' /\
      (covers r len x -> perm_transition p AkRead (rel_at (Some q) path) = Ret p') /\
      (~ covers r len x -> p' = p).
  Proof.
    intros H Hr Hp. destruct (decide (len = 0%N)) as [->|Hl].
    - simpl in H. apply bm_load_ret in H as (_ & [(_ & _ & ->)|(? & _)]); [|done].
      exists p. split; [done|]. split; [unfold covers; lia|done].
    - destruct (tb_load_access _ _ _ _ _ _ _ _ H Hr Hl) as (a & off & root & Ha & Hli & Hadr & Hsz & Hacc & ->).
      destruct (access_addr_perm m id a (al_data a) (al_live a) q AkRead off len root path x p Ha Hacc Hp)
        as (p' & H1 & H2 & H3). exists p'. unfold covers. rewrite Hadr. done.
  Qed.

  Lemma tb_store_perm m r id q bytes al m' path x p :
    mo_store TO m r bytes al = Ret m' -> tp_prov r = Some (id, q) ->
    addr_perm m id path x = Some p ->
    exists p', addr_perm m' id path x = Some p' /\
      (covers r (N.of_nat (length bytes)) x -> perm_transition p AkWrite (rel_at (Some q) path) = Ret p') /\
      (~ covers r (N.of_nat (length bytes)) x -> p' = p).
  Proof.
    intros H Hr Hp. destruct (decide (bytes = [])) as [->|Hl].
    - simpl in H. apply bm_store_ret in H as (_ & [(_ & ->)|(? & _)]); [|done].
      exists p. split; [done|]. split; [unfold covers; simpl; lia|done].
    - destruct (tb_store_access _ _ _ _ _ _ _ H Hr Hl) as (a & off & root & data & Ha & Hli & Hadr & Hsz & _ & Hacc & ->).
      destruct (access_addr_perm m id a data (al_live a) q AkWrite off _ root path x p Ha Hacc Hp)
        as (p' & H1 & H2 & H3). exists p'. unfold covers. rewrite Hadr. done.
  Qed.

  Lemma tb_store_steps R m r bytes al m' : mo_store TO m r bytes al = Ret m' -> rtc (tb_step T R) m m'.
  Proof.
    intros H. eapply tb_steps_impl; [|apply (mem_op_steps T m (OpStore r bytes al) m' H)].
    intros pr Hpr. simpl in Hpr. by apply elem_of_nil in Hpr.
  Qed.
  Lemma tb_load_steps R m r len al b m' : mo_load TO m r len al = Ret (b, m') -> rtc (tb_step T R) m m'.
  Proof.
    intros H. eapply tb_steps_impl; [|apply (mem_op_steps T m (OpLoad r len al) m')].
    - intros pr Hpr. simpl in Hpr. by apply elem_of_nil in Hpr.
    - simpl in *. by rewrite H.
  Qed.
  Lemma tb_retag_steps R m f p pt fe lk p' m' f' :
    mo_retag TO m f p pt fe lk = Ret (p', m', f') -> rtc (tb_step T R) m m'.
  Proof.
    intros H. eapply tb_steps_impl; [|apply (mem_op_steps T m (OpRetag f p pt fe lk) m')].
    - intros pr Hpr. simpl in Hpr. by apply elem_of_nil in Hpr.
    - simpl in *. by rewrite H.
  Qed.

  (** ** What a retag does *)

  (** the read of one byte through the new pointer *)
  Definition reads (cp : list nat) (len : nat) (r r' : Node) : Prop :=
    exists o, node_access r (Some cp) AkRead o 1%N = Ret r' /\ (N.to_nat o + 1 <= len)%nat.

  Lemma init_access_read perm ak : perm_init_access perm = Some ak -> ak = AkRead.
  Proof. destruct perm as [[]|[]]; simpl; congruence. Qed.

  Lemma reborrow_reads cp off inside k root1 root2 :
    fold_m (fun root '(idx, perm) =>
              match perm_init_access perm with
              | Some ak => node_access root (Some cp) ak (off + N.of_nat idx)%N 1%N
              | None => Ret root
              end) (zip (seq k (length inside)) inside) root1 = Ret root2 ->
    rtc (reads cp (N.to_nat off + k + length inside)) root1 root2.
  Proof.
    revert k root1. induction inside as [|perm inside IH]; intros k root1 H; simpl in H.
    - injection H as <-. constructor.
    - apply obind_ret in H as (root & H1 & H). apply IH in H.
      replace (N.to_nat off + S k + length inside)%nat with (N.to_nat off + k + length (perm :: inside))%nat in H
        by (simpl; lia).
      destruct (perm_init_access perm) as [ak|] eqn:E.
      + apply init_access_read in E as ->. eapply rtc_l; [|exact H]. eexists. split; [exact H1|]. simpl. lia.
      + injection H1 as ->. done.
  Qed.

  Lemma reborrow_split cp off inside k root1 root2 i perm :
    fold_m (fun root '(idx, perm) =>
              match perm_init_access perm with
              | Some ak => node_access root (Some cp) ak (off + N.of_nat idx)%N 1%N
              | None => Ret root
              end) (zip (seq k (length inside)) inside) root1 = Ret root2 ->
    inside !! i = Some perm -> perm_init_access perm = Some AkRead ->
    exists ra rb, rtc (reads cp (N.to_nat off + k + length inside)) root1 ra /\
      node_access ra (Some cp) AkRead (off + N.of_nat (k + i))%N 1%N = Ret rb /\
      rtc (reads cp (N.to_nat off + k + length inside)) rb root2.
  Proof.
    revert k root1 i. induction inside as [|perm0 inside IH]; intros k root1 i H Hi Hacc; simpl in H; [done|].
    apply obind_ret in H as (root & H1 & H). destruct i as [|i].
    - injection Hi as ->. rewrite Hacc in H1. exists root1, root. split; [constructor|].
      rewrite Nat.add_0_r. split; [done|]. apply reborrow_reads in H.
      replace (N.to_nat off + k + length (perm :: inside))%nat with (N.to_nat off + S k + length inside)%nat
        by (simpl; lia). done.
    - simpl in Hi. destruct (IH (S k) root i H Hi Hacc) as (ra & rb & H2 & H3 & H4).
      replace (N.to_nat off + S k + length inside)%nat with (N.to_nat off + k + length (perm0 :: inside))%nat in *
        by (simpl; lia).
      exists ra, rb. split; [|split; [|done]].
      + destruct (perm_init_access perm0) as [ak|] eqn:E.
        * apply init_access_read in E as ->. eapply rtc_l; [|exact H2]. eexists. split; [exact H1|]. simpl. lia.
        * injection H1 as ->. done.
      + rewrite Nat.add_succ_r. exact H3.
  Qed.

  Lemma reads_steps R m id a cp r1 r2 :
    m !! id = Some (set_extra a r1) -> al_live a = true -> rtc (reads cp (length (al_data a))) r1 r2 ->
    rtc (tb_step T R) m (<[id := set_extra a r2]> m).
  Proof.
    intros Hm Hl Hr. revert m Hm. induction Hr as [r|r1 r r2 (o & H1 & Ho) H2 IH]; intros m Hm.
    - rewrite list_insert_id by done. constructor.
    - eapply rtc_l; [eapply (ts_access T R m id _ cp AkRead o 1%N r (al_data a) true); [exact Hm|done|exact H1| |done|congruence]|].
      + simpl. lia.
      + simpl. rewrite <- (list_insert_insert m id (set_extra a r2) (set_extra a r)).
        replace (mkAlloc (al_data a) (al_addr a) (al_align a) (al_kind a) true r) with (set_extra a r)
          by (unfold set_extra; by rewrite Hl).
        apply IH. apply list_lookup_insert. by eapply lookup_lt_Some.
  Qed.

  (** A retag that creates a node: the node is new, and its initial permissions are as the settings
      say. Each byte whose permission asks for it is then read through the new pointer. *)
  Lemma retag_new m f ptr pt fe lk p m' f' s id P :
    mo_retag TO m f ptr pt fe lk = Ret (p, m', f') ->
    settings_new ptr pt fe lk = Ret (Some s) -> tp_prov (p_thin p) = Some (id, P) ->
    tp_addr (p_thin p) = tp_addr (p_thin ptr) /\
    exists a perms root1 off,
      m !! id = Some a /\ ninfo (al_extra a) P = None /\
      tp_addr (p_thin ptr) = al_addr a + Z.of_N off /\
      (rs_inside s <> [] -> al_live a = true /\ (N.to_nat off + length (rs_inside s) <= length (al_data a))%nat) /\
      length perms = length (al_data a) /\
      (forall x, x ∈ perms -> x = rs_outside s \/ x ∈ rs_inside s) /\
      (forall i x, rs_inside s !! i = Some x -> perms !! (N.to_nat off + i)%nat = Some x) /\
      (forall q, ninfo root1 q = if decide (q = P) then Some (perms, rs_protected s) else ninfo (al_extra a) q) /\
      exists root2, m' = <[id := set_extra a root2]> m /\ rtc (reads P (length (al_data a))) root1 root2 /\
        (forall i x, rs_inside s !! i = Some x -> perm_init_access x = Some AkRead ->
           exists ra rb, rtc (reads P (length (al_data a))) root1 ra /\
             node_access ra (Some P) AkRead (off + N.of_nat i)%N 1%N = Ret rb /\
             rtc (reads P (length (al_data a))) rb root2).
  Proof.
    intros H Hs Hp. simpl in H. apply tb_retag_ret in H as [(Hs' & _)|(s' & p' & Hs' & Hr & ->)]; [congruence|].
    rewrite Hs in Hs'. injection Hs' as <-. simpl in *.
    apply reborrow_ret in Hr as [(Hn & _ & -> & _)|(id' & parent & a & a' & cp & Hpp & Ha & Hin & Hr & -> & -> & ->)];
      [congruence|].
    simpl in *. injection Hp as -> ->. split; [done|].
    apply reborrow_alloc_ret in Hr as (off & perms & root1 & root2 & Hoff & Hlen & Hperms & Hm & Hadd & Hacc & ->).
    apply add_node_view in Hadd as (nd & _ & _ & Hn & Hv).
    assert (rs_inside s <> [] -> al_live a = true /\ (N.to_nat off + length (rs_inside s) <= length (al_data a))%nat) as Hin'.
    { intros Hne. destruct (Hin Hne) as [Hl [H1 H2]]. split; [done|]. unfold al_size in H2. lia. }
    exists a, perms, root1, off. split; [done|]. split; [done|]. split; [done|].
    split; [done|]. split; [done|]. split; [|split; [|split; [done|]]].
    - intros x Hx. destruct (_ <? _)%nat.
      + apply write_subslice_ret in Hperms as [_ ->]. unfold list_repeat in Hx.
        apply elem_of_app in Hx as [Hx|Hx].
        * left. rewrite take_replicate in Hx. by apply elem_of_replicate in Hx as [-> _].
        * apply elem_of_app in Hx as [Hx|Hx]; [by right|]. left.
          rewrite drop_replicate in Hx. by apply elem_of_replicate in Hx as [-> _].
      + injection Hperms as <-. left. unfold list_repeat in Hx. by apply elem_of_replicate in Hx as [-> _].
    - intros i x Hi. destruct (Nat.ltb_spec 0 (length (rs_inside s))) as [Hpos|Hz].
      + apply write_subslice_ret in Hperms as [Hle ->].
        rewrite lookup_app_r by (rewrite take_length; lia). rewrite take_length.
        rewrite Nat.min_l by lia. replace (N.to_nat off + i - N.to_nat off)%nat with i by lia.
        by apply lookup_app_l_Some.
      + apply lookup_lt_Some in Hi. lia.
    - exists root2. split; [done|]. unfold reborrow_accesses in Hacc.
      assert (forall r r', rtc (reads P (N.to_nat off + 0 + length (rs_inside s))) r r' ->
        rs_inside s <> [] -> rtc (reads P (length (al_data a))) r r') as Hmono.
      { intros r r' Hr Hne. revert Hr. apply rtc_subrel. intros x y (o & H1 & H2). exists o. split; [done|].
        destruct (Hin' Hne). lia. }
      split.
      + destruct (decide (rs_inside s = [])) as [He|Hne].
        * rewrite He in Hacc. injection Hacc as <-. constructor.
        * apply reborrow_reads in Hacc. by apply Hmono.
      + intros i x Hi Hx. assert (rs_inside s <> []) as Hne by (intros E; by rewrite E in Hi).
        destruct (reborrow_split _ _ _ _ _ _ _ _ Hacc Hi Hx) as (ra & rb & H1 & H2 & H3).
        exists ra, rb. split; [by apply Hmono|]. split; [done|by apply Hmono].
  Qed.

  Lemma reads_invariant (Q : Node -> Prop) cp len r r' :
    (forall r o r', Q r -> node_access r (Some cp) AkRead o 1%N = Ret r' -> Q r') ->
    rtc (reads cp len) r r' -> Q r -> Q r'.
  Proof. intros HQ Hr. induction Hr as [|r1 r2 r3 (o & H1 & _) H2 IH]; [done|]. intros H. apply IH. by eapply HQ. Qed.
End Alias.
