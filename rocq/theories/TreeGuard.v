(** What Tree Borrows guarantees to holders of references. *)
From Verif Require Export TreeAlias.
From stdpp Require Import relations.
From Coq Require Import ZifyBool ZifyN ZifyNat.
Local Open Scope Z_scope.

Section Guard.
  Variable T : Target.
  Notation TO := (TreeOps T).

  Lemma rel_local q path : path `prefix_of` q -> rel_at (Some q) path = Local.
  Proof. intros. unfold rel_at. by rewrite decide_True. Qed.
  Lemma rel_foreign q path : ~ path `prefix_of` q -> rel_at (Some q) path = Foreign.
  Proof. intros. unfold rel_at. by rewrite decide_False. Qed.

  (** ** Mutable references *)

  Definition mut_perm (p : Perm) : Prop :=
    match p with Prot (PReserved _ _) | Prot PUnique | Prot PDisabled => True | _ => False end.

  Lemma mut_perm_inv p ak rel p' : mut_perm p -> perm_transition p ak rel = Ret p' -> mut_perm p'.
  Proof.
    destruct p as [[]|[|[] []| |[]|]], ak, rel; simpl; intros Hm H; try done; injection H as <-; done.
  Qed.
  Lemma unique_inv p ak rel p' : p = Prot PUnique -> perm_transition p ak rel = Ret p' -> p' = Prot PUnique.
  Proof. intros ->. destruct ak, rel; simpl; intros H; try done; by injection H as <-. Qed.

  Lemma settings_mut ptr pt lk s :
    mut_like pt -> settings_new ptr pt true lk = Ret (Some s) ->
    rs_outside s = Prot (PReserved false false) /\ (forall x, x ∈ rs_inside s -> x = Prot (PReserved false false)) /\
    prot_yes (rs_protected s) = true.
  Proof.
    intros Hm. unfold settings_new. destruct pt as [[] pi|pi| | |]; simpl in *; try done.
    - rewrite Hm. simpl. intros H. apply obind_ret in H as (mask & _ & [= <-]). simpl.
      split; [by destruct (pi_freeze pi)|]. split; [|done].
      intros x Hx. apply elem_of_list_fmap in Hx as ([] & -> & _); done.
    - intros H. apply obind_ret in H as (mask & _ & [= <-]). simpl.
      split; [by destruct (pi_freeze pi)|]. split; [|done].
      intros x Hx. apply elem_of_list_fmap in Hx as ([] & -> & _); done.
  Qed.

  Lemma settings_mut_some ptr pt lk o :
    mut_like pt -> settings_new ptr pt true lk = Ret o -> exists s, o = Some s.
  Proof.
    intros Hm. unfold settings_new. destruct pt as [[] pi|pi| | |]; simpl in *; try done.
    - rewrite Hm. simpl. intros H. apply obind_ret in H as (mask & _ & [= <-]). eauto.
    - intros H. apply obind_ret in H as (mask & _ & [= <-]). eauto.
  Qed.

  Lemma tb_retag_settings m f ptr pt fe lk r :
    mo_retag TO m f ptr pt fe lk = Ret r -> exists o, settings_new ptr pt fe lk = Ret o.
  Proof. simpl. unfold tb_retag. intros H. apply obind_ret in H as (o & Ho & _). eauto. Qed.

  (** after a protected retag of a mutable reference, all bytes of its node are of the mutable kind *)
  Lemma retag_mut m f ptr pt lk p m' f' id P a :
    mut_like pt -> mo_retag TO m f ptr pt true lk = Ret (p, m', f') ->
    tp_prov (p_thin p) = Some (id, P) -> m !! id = Some a ->
    forall o, (o < length (al_data a))%nat -> exists q, mem_perm m' id P o = Some q /\ mut_perm q.
  Proof.
    intros Hm H Hp Ha o Ho. destruct (tb_retag_settings _ _ _ _ _ _ _ H) as [os Hs].
    destruct (settings_mut_some _ _ _ _ Hm Hs) as [s ->].
    destruct (settings_mut _ _ _ _ Hm Hs) as (Hout & Hin & _).
    destruct (retag_new T _ _ _ _ _ _ _ _ _ _ _ _ H Hs Hp) as
      (_ & a' & perms & root1 & off & Ha' & Hn & Hadr & Hb & Hlen & Hel & _ & Hv & root2 & -> & Hr & _).
    rewrite Ha in Ha'. injection Ha' as <-.
    assert (exists ps pr q, ninfo root2 P = Some (ps, pr) /\ ps !! o = Some q /\ mut_perm q) as (ps & pr & q & H1 & H2 & H3).
    { eapply (reads_invariant (fun r => exists ps pr q, ninfo r P = Some (ps, pr) /\ ps !! o = Some q /\ mut_perm q)); [|exact Hr|].
      - intros r o1 r' (ps & pr & q & Hi & Hq & Hmq) Hacc.
        destruct (node_access_perm _ _ _ _ _ _ _ _ _ _ _ Hacc Hi Hq) as (ps' & q' & Hi' & Hq' & H1 & H2).
        exists ps', pr, q'. split; [done|]. split; [done|].
        destruct (decide (off_in o1 1 o)); [eapply mut_perm_inv; [exact Hmq|auto]|]. by rewrite H2.
      - exists perms, (rs_protected s). rewrite Hv, decide_True by done.
        destruct (lookup_lt_is_Some_2 perms o) as [x Hx]; [lia|]. exists x. split; [done|]. split; [done|].
        destruct (Hel x (elem_of_list_lookup_2 _ _ _ Hx)) as [->|Hx']; [by rewrite Hout|]. by rewrite (Hin x Hx'). }
    exists q. split; [|done]. rewrite (mem_perm_insert _ _ _ _ _ _ _ Ha), decide_True by done. simpl. by rewrite H1.
  Qed.

  Lemma store_covered_lt m r id q bytes al m' x :
    mo_store TO m r bytes al = Ret m' -> tp_prov r = Some (id, q) -> covers r (N.of_nat (length bytes)) x ->
    exists a o, m !! id = Some a /\ x = al_addr a + Z.of_nat o /\ (o < length (al_data a))%nat.
  Proof.
    intros H Hr Hc. assert (bytes <> []) as Hne by (intros ->; unfold covers in Hc; simpl in Hc; lia).
    destruct (tb_store_access T _ _ _ _ _ _ _ H Hr Hne) as (a & off & root & data & Ha & Hli & Hadr & Hsz & _ & _ & _).
    unfold covers in Hc. exists a, (Z.to_nat (x - al_addr a)). split; [done|]. lia.
  Qed.
  Lemma load_covered_lt m r id q len al b m' x :
    mo_load TO m r len al = Ret (b, m') -> tp_prov r = Some (id, q) -> covers r len x ->
    exists a o, m !! id = Some a /\ x = al_addr a + Z.of_nat o /\ (o < length (al_data a))%nat.
  Proof.
    intros H Hr Hc. assert (len <> 0%N) as Hne by (unfold covers in Hc; lia).
    destruct (tb_load_access T _ _ _ _ _ _ _ _ H Hr Hne) as (a & off & root & Ha & Hli & Hadr & Hsz & _ & _).
    unfold covers in Hc. exists a, (Z.to_nat (x - al_addr a)). split; [done|]. lia.
  Qed.

  (** going back: an allocation that exists later and is not new existed before with the same shape *)
  Lemma retag_alloc m f ptr pt fe lk p m' f' id P s :
    mo_retag TO m f ptr pt fe lk = Ret (p, m', f') -> settings_new ptr pt fe lk = Ret (Some s) ->
    tp_prov (p_thin p) = Some (id, P) -> exists a, m !! id = Some a.
  Proof.
    intros H Hs Hp. destruct (retag_new T _ _ _ _ _ _ _ _ _ _ _ _ H Hs Hp) as (_ & a & _ & _ & _ & Ha & _). eauto.
  Qed.

  Theorem mut_exclusive ops0 m0 f ptr pt lk p m1 f1 id P ops1 m2 w bytes al m3 ops2 m4 x r :
    mem_run TO (mo_new TO) ops0 = Ret m0 ->
    mut_like pt -> mo_retag TO m0 f ptr pt true lk = Ret (p, m1, f1) ->
    tp_prov (p_thin p) = Some (id, P) ->
    mem_run TO m1 ops1 = Ret m2 -> (id, P) ∉ released ops1 ->
    mo_store TO m2 w bytes al = Ret m3 -> derived w id P -> covers w (N.of_nat (length bytes)) x ->
    mem_run TO m3 ops2 = Ret m4 -> (id, P) ∉ released ops2 ->
    not_derived r id P ->
    (forall len al', covers r len x -> is_ub (mo_load TO m4 r len al')) /\
    (forall bytes' al', covers r (N.of_nat (length bytes')) x -> is_ub (mo_store TO m4 r bytes' al')).
  Proof.
    intros H0 Hm Hret Hp H1 HR1 Hst (q & Hq & Hpre) Hcov H2 HR2 (q' & Hq' & Hnpre).
    destruct (tb_retag_settings _ _ _ _ _ _ _ Hret) as [os Hs].
    destruct (settings_mut_some _ _ _ _ Hm Hs) as [s ->].
    destruct (retag_alloc _ _ _ _ _ _ _ _ _ _ _ _ Hret Hs Hp) as [a0 Ha0].
    pose proof (tb_retag_steps T (fun _ => False) _ _ _ _ _ _ _ _ _ Hret) as S0.
    pose proof (mem_run_steps T _ _ _ H1) as S1.
    destruct (tb_steps_addr T _ _ _ _ _ S0 Ha0) as (a1 & Ha1 & E1 & L1 & _).
    destruct (tb_steps_addr T _ _ _ _ _ S1 Ha1) as (a2 & Ha2 & E2 & L2 & _).
    destruct (store_covered_lt _ _ _ _ _ _ _ _ Hst Hq Hcov) as (a & o & Ha & Hx & Ho).
    rewrite Ha2 in Ha. injection Ha as <-.
    destruct (retag_mut _ _ _ _ _ _ _ _ _ _ _ Hm Hret Hp Ha0 o) as (p1 & Hp1 & Hmp1); [lia|].
    destruct (perm_invariant T mut_perm _ _ _ id P o mut_perm_inv HR1 S1) as (p2 & Hp2 & Hmp2); [eauto|].
    assert (addr_perm m2 id P x = Some p2) as Hap2.
    { apply addr_perm_some. exists a2, o. done. }
    destruct (tb_store_perm T _ _ _ _ _ _ _ P x p2 Hst Hq Hap2) as (p3 & Hp3 & Ht & _).
    specialize (Ht Hcov). rewrite rel_local in Ht by done.
    assert (p3 = Prot PUnique) as ->.
    { clear -Hmp2 Ht. destruct p2 as [[]|[|[] []| |[]|]]; simpl in *; try done; by injection Ht as <-. }
    destruct (addr_perm_invariant T (eq (Prot PUnique)) _ _ _ id P x
      (fun p ak rel p' E H => eq_sym (unique_inv p ak rel p' (eq_sym E) H)) HR2 (mem_run_steps T _ _ _ H2))
      as (p4 & Hp4 & <-); [eauto|].
    assert (tb_len m4) as Hlen.
    { eapply tb_steps_len; [apply (mem_run_steps T _ _ _ H2)|].
      eapply tb_steps_len; [apply (tb_store_steps T (fun _ => False) _ _ _ _ _ Hst)|].
      eapply tb_steps_len; [exact S1|]. eapply tb_steps_len; [exact S0|]. by eapply tb_len_run. }
    split.
    - intros len al' Hc. eapply tb_load_ub; [done|exact Hq'|exact Hp4|done|].
      rewrite rel_foreign by done. by eexists.
    - intros bytes' al' Hc. eapply tb_store_ub; [done|exact Hq'|exact Hp4|done|].
      rewrite rel_foreign by done. by eexists.
  Qed.

  (** ** Shared references *)

  Definition is_disabled (p : Perm) : Prop := p = Unprot UDisabled \/ p = Prot PDisabled.

  (** The node [P] is protected, frozen and was read at offset [o], and every other node lets it be
      read. *)
  Definition frozen_inv (root : Node) (P : list nat) (o : nat) : Prop :=
    (exists ps pr, ninfo root P = Some (ps, pr) /\ ps !! o = Some (Prot (PFrozen true))) /\
    (forall path ps pr p, ninfo root path = Some (ps, pr) -> ps !! o = Some p ->
       ((path `prefix_of` P \/ P `prefix_of` path) -> ~ is_disabled p) /\
       (~ path `prefix_of` P -> p <> Prot PUnique)).

  Lemma read_not_disabled p rel p' : perm_transition p AkRead rel = Ret p' -> ~ is_disabled p -> ~ is_disabled p'.
  Proof.
    unfold is_disabled. intros H Hd [->| ->]; apply Hd.
    - destruct p as [[]|[|[] []| |[]|]], rel; simpl in H; try discriminate H; by left.
    - destruct p as [[]|[|[] []| |[]|]], rel; simpl in H; try discriminate H; by right.
  Qed.
  Lemma read_not_unique p rel p' : perm_transition p AkRead rel = Ret p' -> p <> Prot PUnique -> p' <> Prot PUnique.
  Proof.
    intros H Hd ->. apply Hd. destruct p as [[]|[|[] []| |[]|]], rel; simpl in H; try discriminate H; done.
  Qed.
  Lemma local_not_disabled p ak p' : perm_transition p ak Local = Ret p' -> ~ is_disabled p'.
  Proof.
    unfold is_disabled. intros H [->| ->]; destruct p as [[]|[|[] []| |[]|]], ak; simpl in H; discriminate H.
  Qed.
  Lemma foreign_not_unique p ak p' : perm_transition p ak Foreign = Ret p' -> p' <> Prot PUnique.
  Proof. intros H ->. destruct p as [[]|[|[] []| |[]|]], ak; simpl in H; discriminate H. Qed.
  Lemma unprotect_not_disabled p p' acc : perm_unprotect p = Ret (p', acc) -> ~ is_disabled p -> ~ is_disabled p'.
  Proof.
    unfold is_disabled. intros H Hd [->| ->]; apply Hd; destruct p as [[]|[|[] []| |[]|]]; simpl in H; try discriminate H; by right.
  Qed.
  Lemma unprotect_not_unique p p' acc : perm_unprotect p = Ret (p', acc) -> p' <> Prot PUnique.
  Proof. intros H ->. destruct p as [[]|[|[] []| |[]|]]; discriminate H. Qed.
  Lemma unprotect_write p p' : perm_unprotect p = Ret (p', Some AkWrite) -> p = Prot PUnique.
  Proof. intros H. destruct p as [[]|[|[] []| |[]|]]; try discriminate H; done. Qed.

  (** a write at [o] is undefined behaviour, a read keeps the invariant *)
  Lemma frozen_access root P o q ak off size root' :
    frozen_inv root P o -> node_access root (Some q) ak off size = Ret root' ->
    frozen_inv root' P o /\ ~ (ak = AkWrite /\ off_in off size o).
  Proof.
    intros [(ps & pr & Hi & Ho) Hall] Hacc.
    assert (~ (ak = AkWrite /\ off_in off size o)) as Hnw.
    { intros [-> Hr]. destruct (node_access_perm _ _ _ _ _ _ _ _ _ _ _ Hacc Hi Ho) as (ps' & p' & _ & _ & Ht & _).
      specialize (Ht Hr). destruct (rel_at (Some q) P); discriminate Ht. }
    split; [|done]. split.
    - destruct (node_access_perm _ _ _ _ _ _ _ _ _ _ _ Hacc Hi Ho) as (ps' & p' & Hi' & Ho' & Ht & Hn).
      exists ps', pr. split; [done|]. destruct (decide (off_in off size o)) as [Hr|Hr].
      + specialize (Ht Hr). destruct ak; [|by destruct Hnw]. rewrite Ho'. f_equal.
        destruct (rel_at (Some q) P); by injection Ht as <-.
      + rewrite Ho', Hn; done.
    - intros path ps' pr' p' Hi' Ho'.
      pose proof (node_access_view _ _ _ _ _ _ path Hacc) as Hv. rewrite Hi' in Hv.
      destruct (ninfo root path) as [[ps0 pr0]|] eqn:E; [|done]. destruct Hv as [-> Hv].
      apply perms_transition_ret in Hv as [Hl Hv]. destruct (Hv o) as [Hv1 Hv2].
      destruct (decide (off_in off size o)) as [Hr|Hr].
      + destruct (Hv1 Hr) as (p0 & p1 & Hp0 & Ht & Hp1). assert (p1 = p') as -> by congruence.
        destruct ak; [|by destruct Hnw]. destruct (Hall _ _ _ _ E Hp0) as [H1 H2].
        split; intros Hp; [eapply read_not_disabled; eauto|eapply read_not_unique; eauto].
      + rewrite Hv2 in Ho' by done. by eapply Hall.
  Qed.

  Definition mem_frozen (m : TMem) (id : nat) (P : list nat) (o : nat) : Prop :=
    exists a, m !! id = Some a /\ al_live a = true /\ (o < length (al_data a))%nat /\ frozen_inv (al_extra a) P o.

  Lemma frozen_step R m m' id P o :
    tb_step T R m m' -> ~ R (id, P) -> mem_frozen m id P o -> mem_frozen m' id P o.
  Proof.
    intros Hs HR (a0 & Ha0 & Hl0 & Ho & Hf).
    destruct Hs as [m kind size align addr ptr m' H|m id1 a q ak off size root data live Ha Hl Hacc Hr Hd Hlv
      |m id1 a parent perms prot cp root Ha Hadd Hlen Hfr|m id1 path1 a a' Ha HR' Hrel].
    - apply bm_allocate_ret in H as (_ & _ & _ & ->). exists a0. split; [by apply lookup_app_l_Some|done].
    - destruct (decide (id = id1)) as [->|Hn].
      2:{ exists a0. rewrite list_lookup_insert_ne by done. done. }
      rewrite Ha0 in Ha. injection Ha as <-. destruct (frozen_access _ _ _ _ _ _ _ _ Hf Hacc) as [Hf' Hnw].
      eexists. rewrite list_lookup_insert by (by eapply lookup_lt_Some). split; [done|]. simpl.
      split; [|split; [lia|done]]. destruct live; [done|exfalso]. destruct (Hlv eq_refl) as (-> & -> & -> & _).
      apply Hnw. split; [done|]. unfold off_in, al_size. lia.
    - destruct (decide (id = id1)) as [->|Hn].
      2:{ exists a0. rewrite list_lookup_insert_ne by done. done. }
      rewrite Ha0 in Ha. injection Ha as <-.
      eexists. rewrite list_lookup_insert by (by eapply lookup_lt_Some). split; [done|]. simpl.
      split; [done|]. split; [done|]. destruct Hf as [(ps & pr & Hi & Hps) Hall].
      apply add_node_view in Hadd as (nd & _ & _ & Hnone & Hv).
      split.
      + exists ps, pr. rewrite Hv, decide_False by congruence. done.
      + intros path ps1 pr1 p Hi1 Hp. rewrite Hv in Hi1. destruct (decide (path = cp)) as [->|Hne].
        * injection Hi1 as <- <-. rewrite Forall_lookup in Hfr. destruct (Hfr _ _ Hp) as [_ Hfresh].
          split; intros _; [|by intros ->]. unfold is_disabled. by intros [->| ->].
        * by eapply Hall.
    - destruct (decide (id = id1)) as [->|Hn].
      2:{ exists a0. rewrite list_lookup_insert_ne by done. done. }
      rewrite Ha0 in Ha. injection Ha as <-.
      apply release_alloc_view in Hrel as (ps1 & pr1 & l & root & -> & Hi1 & _ & Hl & Hv).
      eexists. rewrite list_lookup_insert by (by eapply lookup_lt_Some). split; [done|]. simpl.
      split; [done|]. split; [done|]. destruct Hf as [(ps & pr & Hi & Hps) Hall].
      assert (path1 <> P) as Hne by (intros ->; done).
      apply map_m_unprotect_ret in Hl as [Hll Hl].
      assert (forall acc, List.map snd l !! o = Some (Some acc) -> acc = AkWrite -> path1 `prefix_of` P) as Hwr.
      { intros acc Hacc ->. rewrite list_lookup_fmap in Hacc. destruct (l !! o) as [[pu au]|] eqn:El; [|done].
        simpl in Hacc. injection Hacc as ->. destruct (lookup_lt_is_Some_2 ps1 o) as [p1 Hp1].
        { rewrite <- Hll. by eapply lookup_lt_Some. }
        destruct (Hl _ _ Hp1) as (r & Hu & Hlo). rewrite El in Hlo. injection Hlo as <-.
        apply unprotect_write in Hu as ->.
        destruct (decide (path1 `prefix_of` P)) as [|Hnp]; [done|].
        destruct (Hall _ _ _ _ Hi1 Hp1) as [_ Hu]. by destruct (Hu Hnp). }
      split.
      + pose proof (Hv P) as HvP. rewrite Hi in HvP. destruct (ninfo root P) as [[ps2 pr2]|]; [|done].
        exists ps2, pr2. split; [done|]. rewrite decide_False in HvP by congruence.
        destruct (decide _) as [Hd|Hd]; [by destruct HvP as [-> _]|].
        destruct HvP as [_ HvP]. apply perms_release_ret in HvP as [_ HvP]. specialize (HvP o).
        destruct (List.map snd l !! o) as [[ak|]|] eqn:Eacc; [|congruence..].
        destruct HvP as (p & p' & Hp & Ht & Hp'). rewrite Hps in Hp. injection Hp as <-. rewrite Hp'. f_equal.
        destruct ak.
        * destruct (rel_at (Some path1) P); by injection Ht as <-.
        * exfalso. apply Hd. right. by eapply Hwr.
      + intros path ps2 pr2 p2 Hi2 Hp2. specialize (Hv path). rewrite Hi2 in Hv.
        destruct (ninfo (al_extra a0) path) as [[ps0 pr0]|] eqn:E0; [|done].
        destruct (decide (path = path1)) as [->|Hnp].
        * destruct Hv as [-> _]. rewrite list_lookup_fmap in Hp2. destruct (l !! o) as [[pu au]|] eqn:El; [|done].
          injection Hp2 as <-. rewrite E0 in Hi1. injection Hi1 as <- <-.
          destruct (lookup_lt_is_Some_2 ps0 o) as [p1 Hp1].
          { rewrite <- Hll. by eapply lookup_lt_Some. }
          destruct (Hl _ _ Hp1) as (r & Hu & Hlo). rewrite El in Hlo. injection Hlo as <-.
          destruct (Hall _ _ _ _ E0 Hp1) as [H1 H2].
          split; intros Hx; [eapply unprotect_not_disabled; eauto|eapply unprotect_not_unique; eauto].
        * destruct (decide _) as [Hd|Hd].
          -- destruct Hv as [-> _]. by eapply Hall.
          -- destruct Hv as [_ Hv]. apply perms_release_ret in Hv as [_ Hv]. specialize (Hv o).
             destruct (List.map snd l !! o) as [[ak|]|] eqn:Eacc; [|rewrite Hp2 in Hv; by eapply Hall..].
             destruct Hv as (p & p' & Hp & Ht & Hp'). assert (p' = p2) as -> by congruence.
             destruct (Hall _ _ _ _ E0 Hp) as [H1 H2]. destruct ak.
             ++ split; intros Hx; [eapply read_not_disabled; eauto|eapply read_not_unique; eauto].
             ++ assert (path1 `prefix_of` P) as Hpre by (by eapply Hwr).
                destruct (decide (path `prefix_of` path1)) as [Hloc|Hfor].
                ** rewrite rel_local in Ht by done. split; intros Hx.
                   --- by eapply local_not_disabled.
                   --- exfalso. apply Hx. by trans path1.
                ** rewrite rel_foreign in Ht by done. split; intros Hx; [|by eapply foreign_not_unique].
                   exfalso. apply Hd. right. destruct Hx as [Hx|Hx]; [|by trans P].
                   destruct (prefix_weak_total path path1 P Hx Hpre); done.
  Qed.

  Lemma frozen_steps R m m' id P o :
    rtc (tb_step T R) m m' -> ~ R (id, P) -> mem_frozen m id P o -> mem_frozen m' id P o.
  Proof. induction 1; [done|]. eauto using frozen_step. Qed.

  Lemma retag_shared_frozen m f ptr pi lk p m' f' id P mask i :
    mo_retag TO m f ptr (PRef Immutable pi) true lk = Ret (p, m', f') ->
    tp_prov (p_thin p) = Some (id, P) ->
    freeze_mask (pi_cells pi) (pi_layout pi) (p_meta ptr) lk = Ret mask -> mask !! i = Some true ->
    exists a o, m' !! id = Some a /\ tp_addr (p_thin p) + Z.of_nat i = al_addr a + Z.of_nat o /\ mem_frozen m' id P o.
  Proof.
    intros H Hp Hmask Hi.
    set (s := {| rs_protected := ProtStrong;
      rs_inside := List.map (fun freeze : bool => if freeze then Prot (PFrozen false) else Prot PCell) mask;
      rs_outside := if pi_freeze pi then Prot (PFrozen false) else Prot PCell |}).
    assert (settings_new ptr (PRef Immutable pi) true lk = Ret (Some s)) as Hs.
    { unfold settings_new. simpl. by rewrite Hmask. }
    destruct (retag_new T _ _ _ _ _ _ _ _ _ _ _ _ H Hs Hp) as
      (Hadr0 & a & perms & root1 & off & Ha & Hn & Hadr & Hb & Hlen & Hel & Hin & Hv & root2 & -> & Hr & Hacc).
    assert (rs_inside s !! i = Some (Prot (PFrozen false))) as Hins.
    { simpl. rewrite list_lookup_fmap, Hi. done. }
    destruct (Hacc i _ Hins eq_refl) as (ra & rb & Hra & Hrb & Hrc).
    destruct Hb as [Hlive Hsz]. { intros E. by rewrite E in Hins. }
    assert (i < length (rs_inside s))%nat as Hilt by (by eapply lookup_lt_Some).
    set (o := (N.to_nat off + i)%nat) in *.
    assert ((exists ps pr q, ninfo ra P = Some (ps, pr) /\ ps !! o = Some q /\ (q = Prot (PFrozen false) \/ q = Prot (PFrozen true))) /\
      (forall path ps pr q, ninfo ra path = Some (ps, pr) -> ps !! o = Some q -> path <> P -> P `prefix_of` path -> ~ is_disabled q)) as [HP Hdesc].
    { eapply (reads_invariant (fun ra => (exists ps pr q, ninfo ra P = Some (ps, pr) /\ ps !! o = Some q /\ (q = Prot (PFrozen false) \/ q = Prot (PFrozen true))) /\
      (forall path ps pr q, ninfo ra path = Some (ps, pr) -> ps !! o = Some q -> path <> P -> P `prefix_of` path -> ~ is_disabled q))); [|exact Hra|].
      - intros r o1 r' [(ps & pr & q & H1 & H2 & H3) Hd] Hac. split.
        + destruct (node_access_perm _ _ _ _ _ _ _ _ _ _ _ Hac H1 H2) as (ps' & q' & Hi' & Hq' & Ht & Hnt).
          exists ps', pr, q'. split; [done|]. split; [done|].
          destruct (decide (off_in o1 1 o)) as [Hx|Hx]; [|rewrite Hnt; done].
          specialize (Ht Hx). rewrite rel_local in Ht by done. destruct H3 as [->| ->]; injection Ht as <-; by right.
        + intros path ps1 pr1 q1 Hi1 Hq1 Hne Hpre.
          pose proof (node_access_view _ _ _ _ _ _ path Hac) as Hvw. rewrite Hi1 in Hvw.
          destruct (ninfo r path) as [[ps0 pr0]|] eqn:E; [|done]. destruct Hvw as [_ Hvw].
          apply perms_transition_ret in Hvw as [_ Hvw]. destruct (Hvw o) as [Hv1 Hv2].
          destruct (decide (off_in o1 1 o)) as [Hx|Hx].
          * destruct (Hv1 Hx) as (p0 & p1 & Hp0 & Ht & Hp1). assert (p1 = q1) as -> by congruence.
            eapply read_not_disabled; [exact Ht|]. by eapply Hd.
          * rewrite Hv2 in Hq1 by done. by eapply Hd.
      - split.
        + exists perms, ProtStrong, (Prot (PFrozen false)). rewrite Hv, decide_True by done.
          split; [done|]. split; [by apply Hin|by left].
        + intros path ps pr q Hi1 _ Hne Hpre. rewrite Hv, decide_False in Hi1 by done.
          destruct (ninfo_prefix (al_extra a) P path Hpre) as [y Hy]; [by eexists|]. congruence. }
    assert (off_in (off + N.of_nat i)%N 1 o) as Hrange by (unfold off_in, o; lia).
    assert (frozen_inv rb P o) as Hfr.
    { split.
      - destruct HP as (ps & pr & q & H1 & H2 & H3).
        destruct (node_access_perm _ _ _ _ _ _ _ _ _ _ _ Hrb H1 H2) as (ps' & q' & Hi' & Hq' & Ht & _).
        exists ps', pr. split; [done|]. specialize (Ht Hrange). rewrite rel_local in Ht by done.
        rewrite Hq'. f_equal. destruct H3 as [->| ->]; by injection Ht as <-.
      - intros path ps pr q Hi1 Hq1.
        pose proof (node_access_view _ _ _ _ _ _ path Hrb) as Hvw. rewrite Hi1 in Hvw.
        destruct (ninfo ra path) as [[ps0 pr0]|] eqn:E; [|done]. destruct Hvw as [_ Hvw].
        apply perms_transition_ret in Hvw as [_ Hvw]. destruct (Hvw o) as [Hv1 _].
        destruct (Hv1 Hrange) as (p0 & p1 & Hp0 & Ht & Hp1). assert (p1 = q) as -> by congruence.
        split; intros Hx.
        + destruct (decide (path `prefix_of` P)) as [Hpre|Hnp].
          * rewrite rel_local in Ht by done. by eapply local_not_disabled.
          * destruct Hx as [|Hx]; [done|]. eapply read_not_disabled; [exact Ht|]. eapply Hdesc; [exact E|done| |done].
            by intros ->.
        + rewrite rel_foreign in Ht by done. by eapply foreign_not_unique. }
    assert (frozen_inv root2 P o) as Hfr2.
    { eapply (reads_invariant (fun r => frozen_inv r P o)); [|exact Hrc|done].
      intros r o1 r' Hf Hac. by destruct (frozen_access _ _ _ _ _ _ _ _ Hf Hac). }
    exists (set_extra a root2), o. rewrite list_lookup_insert by (by eapply lookup_lt_Some).
    split; [done|]. split; [simpl; unfold o; lia|]. exists (set_extra a root2).
    rewrite list_lookup_insert by (by eapply lookup_lt_Some). split; [done|]. split; [done|].
    split; [simpl; unfold o; lia|done].
  Qed.

  Lemma frozen_store_ub m id P o a r Q bytes al :
    tb_len m -> mem_frozen m id P o -> m !! id = Some a -> tp_prov r = Some (id, Q) ->
    covers r (N.of_nat (length bytes)) (al_addr a + Z.of_nat o) ->
    is_ub (mo_store TO m r bytes al).
  Proof.
    intros Hlen (a' & Ha' & _ & _ & [(ps & pr & Hi & Ho) _]) Ha Hr Hc.
    rewrite Ha in Ha'. injection Ha' as <-.
    eapply (tb_store_ub T m r id Q P (al_addr a + Z.of_nat o) (Prot (PFrozen true))); [done|done| |done|].
    - apply addr_perm_some. exists a, o. split; [done|]. split; [done|]. unfold mem_perm. by rewrite Ha, Hi.
    - destruct (rel_at (Some Q) P); by eexists.
  Qed.

  Lemma frozen_load_ok m id P a r len al :
    tb_len m -> m !! id = Some a -> derived r id P ->
    tp_addr r mod Z.of_N (align_bytes al) = 0 ->
    (forall x, covers r len x -> exists o, x = al_addr a + Z.of_nat o /\ mem_frozen m id P o) ->
    exists b m', mo_load TO m r len al = Ret (b, m').
  Proof.
    intros Hlen Ha (Q & HQ & Hpre) Hal Hall. destruct (decide (len = 0%N)) as [->|Hl].
    { destruct (zero_sized T TO m r al (tree_like T)) as [Hz _]. destruct (Hz Hal) as [-> _]. eauto. }
    assert (access_ok m r len) as Hok.
    { exists id, Q, a. destruct (Hall (tp_addr r)) as (o & Ho & a' & Ha' & Hli & Hlt & _); [unfold covers; lia|].
      destruct (Hall (tp_addr r + Z.of_N len - 1)) as (o' & Ho' & a'' & Ha'' & _ & Hlt' & _); [unfold covers; lia|].
      rewrite Ha in Ha', Ha''. injection Ha' as <-. injection Ha'' as <-. unfold al_size.
      split; [done|]. split; [done|]. split; [done|]. lia. }
    destruct (bm_load_ok m r len al (fun root path offset => node_access root (Some path) AkRead offset len) Hl Hal Hok)
      as (id' & pe & a' & off & bytes & Hr' & Ha' & Hli & Hadr & Hsz & Heq).
    rewrite HQ in Hr'. injection Hr' as <- <-. rewrite Ha in Ha'. injection Ha' as <-.
    simpl. rewrite Heq. destruct (node_access_total (al_extra a) (Some Q) AkRead off len) as [root ->]; [|simpl; eauto].
    intros path ps pr o Hi Ho. destruct (Hall (al_addr a + Z.of_nat o)) as (o' & Ho' & a' & Ha' & _ & Hlt & Hf).
    { unfold covers. unfold off_in in Ho. lia. }
    rewrite Ha in Ha'. injection Ha' as <-. assert (o' = o) as -> by lia.
    destruct (lookup_lt_is_Some_2 ps o) as [p Hp]. { rewrite (Hlen _ _ Ha _ _ _ Hi). done. }
    destruct Hf as [_ Hf]. destruct (Hf _ _ _ _ Hi Hp) as [H1 H2]. exists p.
    destruct (decide (path `prefix_of` Q)) as [Hp1|Hp1].
    - rewrite rel_local by done. assert (~ is_disabled p) as Hnd.
      { apply H1. destruct (prefix_weak_total path P Q Hp1 Hpre) as [?|?]; [by left|by right]. }
      destruct p as [[]|[]]; simpl; try (by eexists); exfalso; apply Hnd; [by left|by right].
    - rewrite rel_foreign by done. assert (p <> Prot PUnique) as Hnu.
      { apply H2. intros Hx. apply Hp1. by trans P. }
      destruct p as [[]|[]]; simpl; try done; by eexists.
  Qed.

  Theorem shared_immutable ops0 m0 f ptr pi lk p m1 f1 id P mask ops1 m2 :
    mem_run TO (mo_new TO) ops0 = Ret m0 ->
    mo_retag TO m0 f ptr (PRef Immutable pi) true lk = Ret (p, m1, f1) ->
    tp_prov (p_thin p) = Some (id, P) ->
    freeze_mask (pi_cells pi) (pi_layout pi) (p_meta ptr) lk = Ret mask ->
    mem_run TO m1 ops1 = Ret m2 -> (id, P) ∉ released ops1 ->
    (forall i w Q bytes al, mask !! i = Some true -> tp_prov w = Some (id, Q) ->
       covers w (N.of_nat (length bytes)) (tp_addr (p_thin p) + Z.of_nat i) ->
       is_ub (mo_store TO m2 w bytes al)) /\
    (forall r len al, derived r id P -> tp_addr r mod Z.of_N (align_bytes al) = 0 ->
       (forall x, covers r len x -> exists i, x = tp_addr (p_thin p) + Z.of_nat i /\ mask !! i = Some true) ->
       exists b m3, mo_load TO m2 r len al = Ret (b, m3)).
  Proof.
    intros H0 Hret Hp Hmask H1 HR1.
    pose proof (tb_retag_steps T (fun _ => False) _ _ _ _ _ _ _ _ _ Hret) as S0.
    pose proof (mem_run_steps T _ _ _ H1) as S1.
    assert (tb_len m2) as Hlen.
    { eapply tb_steps_len; [exact S1|]. eapply tb_steps_len; [exact S0|]. by eapply tb_len_run. }
    assert (forall i, mask !! i = Some true -> exists a2 o, m2 !! id = Some a2 /\
      tp_addr (p_thin p) + Z.of_nat i = al_addr a2 + Z.of_nat o /\ mem_frozen m2 id P o) as Hfr.
    { intros i Hi. destruct (retag_shared_frozen _ _ _ _ _ _ _ _ _ _ _ _ Hret Hp Hmask Hi) as (a1 & o & Ha1 & Hadr & Hf).
      destruct (tb_steps_addr T _ _ _ _ _ S1 Ha1) as (a2 & Ha2 & E2 & _).
      exists a2, o. split; [done|]. rewrite E2. split; [done|]. by eapply frozen_steps. }
    split.
    - intros i w Q bytes al Hi Hw Hc. destruct (Hfr i Hi) as (a2 & o & Ha2 & E & Hf). rewrite E in Hc.
      by eapply frozen_store_ub.
    - intros r len al Hd Hal Hc. destruct (decide (len = 0%N)) as [->|Hl].
      { destruct (zero_sized T TO m2 r al (tree_like T)) as [Hz _]. destruct (Hz Hal) as [-> _]. eauto. }
      destruct (Hc (tp_addr r)) as (i0 & _ & Hi0); [unfold covers; lia|].
      destruct (Hfr i0 Hi0) as (a2 & o0 & Ha2 & _). eapply frozen_load_ok; [done|exact Ha2|done|done|].
      intros x Hx. destruct (Hc x Hx) as (i & -> & Hi). destruct (Hfr i Hi) as (a2' & o & Ha2' & E & Hf).
      rewrite Ha2 in Ha2'. injection Ha2' as <-. exists o. done.
  Qed.

  (** ** Permissions only weaken *)

  Lemma disabled_inv p ak rel p' : is_disabled p -> perm_transition p ak rel = Ret p' -> is_disabled p'.
  Proof. intros [->| ->] H; destruct ak, rel; try discriminate H; injection H as <-; [by left|by left|by right|by right]. Qed.
  Lemma disabled_unprot p p' acc : is_disabled p -> perm_unprotect p = Ret (p', acc) -> is_disabled p'.
  Proof. intros [->| ->] H; [done|]. injection H as <- _. by left. Qed.

  Definition is_frozen (p : Perm) : Prop := p = Unprot UFrozen \/ exists b, p = Prot (PFrozen b).
  Lemma frozen_weak_inv p ak rel p' :
    is_frozen p \/ is_disabled p -> perm_transition p ak rel = Ret p' -> is_frozen p' \/ is_disabled p'.
  Proof.
    intros [[->|[[] ->]]|Hd] H; [| | |right; by eapply disabled_inv];
      destruct ak, rel; try discriminate H; injection H as <-; unfold is_frozen, is_disabled; eauto.
  Qed.
  Lemma frozen_weak_unprot p p' acc :
    is_frozen p \/ is_disabled p -> perm_unprotect p = Ret (p', acc) -> is_frozen p' \/ is_disabled p'.
  Proof.
    intros [[->|[[] ->]]|Hd] H; [done| | |right; by eapply disabled_unprot]; injection H as <- _;
      unfold is_frozen; eauto.
  Qed.

  Theorem disabled_forever m ops0 id P x p ops m' r :
    mem_run TO (mo_new TO) ops0 = Ret m -> addr_perm m id P x = Some p -> is_disabled p ->
    mem_run TO m ops = Ret m' -> derived r id P ->
    (exists p', addr_perm m' id P x = Some p' /\ is_disabled p') /\
    (forall len al, covers r len x -> is_ub (mo_load TO m' r len al)) /\
    (forall bytes al, covers r (N.of_nat (length bytes)) x -> is_ub (mo_store TO m' r bytes al)).
  Proof.
    intros H0 Hp Hd H (Q & HQ & Hpre).
    destruct (addr_perm_invariant_rel T is_disabled _ m m' id P x disabled_inv disabled_unprot (mem_run_steps T _ _ _ H))
      as (p' & Hp' & Hd'); [eauto|].
    assert (tb_len m') as Hlen.
    { eapply tb_steps_len; [apply (mem_run_steps T _ _ _ H)|]. by eapply tb_len_run. }
    split; [eauto|]. split.
    - intros len al Hc. eapply tb_load_ub; [done|done|exact Hp'|done|]. rewrite rel_local by done.
      destruct Hd' as [->| ->]; by eexists.
    - intros bytes al Hc. eapply tb_store_ub; [done|done|exact Hp'|done|]. rewrite rel_local by done.
      destruct Hd' as [->| ->]; by eexists.
  Qed.

  Theorem frozen_forever m ops0 id P x p ops m' r :
    mem_run TO (mo_new TO) ops0 = Ret m -> addr_perm m id P x = Some p -> is_frozen p ->
    mem_run TO m ops = Ret m' -> derived r id P ->
    (exists p', addr_perm m' id P x = Some p' /\ (is_frozen p' \/ is_disabled p')) /\
    (forall bytes al, covers r (N.of_nat (length bytes)) x -> is_ub (mo_store TO m' r bytes al)).
  Proof.
    intros H0 Hp Hd H (Q & HQ & Hpre).
    destruct (addr_perm_invariant_rel T (fun p => is_frozen p \/ is_disabled p) _ m m' id P x
      frozen_weak_inv frozen_weak_unprot (mem_run_steps T _ _ _ H))
      as (p' & Hp' & Hd'); [eauto|].
    assert (tb_len m') as Hlen.
    { eapply tb_steps_len; [apply (mem_run_steps T _ _ _ H)|]. by eapply tb_len_run. }
    split; [eauto|].
    intros bytes al Hc. eapply tb_store_ub; [done|done|exact Hp'|done|]. rewrite rel_local by done.
    destruct Hd' as [[->|[[] ->]]|[->| ->]]; by eexists.
  Qed.

  (** a write through another pointer disables a unique or reserved one; a read freezes a unique one *)
  Theorem foreign_write_disables m id P x u w bytes al m' :
    addr_perm m id P x = Some (Unprot u) -> u <> UCell -> u <> UReservedIm ->
    mo_store TO m w bytes al = Ret m' -> not_derived w id P -> covers w (N.of_nat (length bytes)) x ->
    addr_perm m' id P x = Some (Unprot UDisabled).
  Proof.
    intros Hp H1 H2 Hst (Q & HQ & Hn) Hc.
    destruct (tb_store_perm T _ _ _ _ _ _ _ P x _ Hst HQ Hp) as (p' & Hp' & Ht & _).
    specialize (Ht Hc). rewrite rel_foreign in Ht by done. rewrite Hp'. f_equal.
    destruct u; try done; by injection Ht as <-.
  Qed.
  Theorem foreign_read_freezes m id P x w len al b m' :
    addr_perm m id P x = Some (Unprot UUnique) ->
    mo_load TO m w len al = Ret (b, m') -> not_derived w id P -> covers w len x ->
    addr_perm m' id P x = Some (Unprot UFrozen).
  Proof.
    intros Hp Hst (Q & HQ & Hn) Hc.
    destruct (tb_load_perm T _ _ _ _ _ _ _ _ P x _ Hst HQ Hp) as (p' & Hp' & Ht & _).
    specialize (Ht Hc). rewrite rel_foreign in Ht by done. rewrite Hp'. f_equal. by injection Ht as <-.
  Qed.

  (** ** Strong protectors and deallocation *)

  Theorem prevents_dealloc_exact p : p_prevents_deallocation p = true <-> is_ub (p_foreign_write p).
  Proof.
    destruct p as [|[] []| |[]|]; simpl; split; intros H; try done; try (by eexists); by destruct H.
  Qed.

  Lemma blocks_dealloc_exact n :
    node_blocks_dealloc n = true <->
    exists path ps o p, ninfo n path = Some (ps, ProtStrong) /\ ps !! o = Some p /\
      perm_prevents_deallocation p = true.
  Proof.
    induction n as [cs ps pr IH] using Node_ind'. simpl. rewrite orb_true_iff. split.
    - intros [H|H].
      + destruct pr; try done. apply existsb_exists in H as (p & Hp & Hb).
        apply elem_of_list_In, elem_of_list_lookup in Hp as [o Ho]. exists [], ps, o, p. done.
      + apply existsb_exists in H as (c & Hc & Hb).
        apply elem_of_list_In, elem_of_list_lookup in Hc as [k Hk]. rewrite Forall_lookup in IH.
        apply (IH k c Hk) in Hb as (path & ps' & o & p & Hi & Ho & Hp).
        exists (k :: path), ps', o, p. rewrite ninfo_cons. simpl. by rewrite Hk.
    - intros ([|k path] & ps' & o & p & Hi & Ho & Hp).
      + rewrite ninfo_nil in Hi. simpl in Hi. injection Hi as -> ->. left. apply existsb_exists. exists p.
        split; [|done]. apply elem_of_list_In. by eapply elem_of_list_lookup_2.
      + rewrite ninfo_cons in Hi. simpl in Hi. destruct (cs !! k) as [c|] eqn:Hk; [|done]. right.
        apply existsb_exists. exists c. split; [apply elem_of_list_In; by eapply elem_of_list_lookup_2|].
        rewrite Forall_lookup in IH. apply (IH k c Hk). eauto 8.
  Qed.

  (** a permission that stops deallocation keeps doing so *)
  Lemma prevents_inv p ak rel p' :
    perm_prevents_deallocation p = true -> perm_transition p ak rel = Ret p' -> perm_prevents_deallocation p' = true.
  Proof.
    destruct p as [[]|[|[] []| |[]|]], ak, rel; simpl; intros Hp H; try done; injection H as <-; done.
  Qed.

  Lemma dealloc_blocked m ptr kind size align id Q a P ps o p :
    tb_len m -> tp_prov ptr = Some (id, Q) -> m !! id = Some a ->
    ninfo (al_extra a) P = Some (ps, ProtStrong) -> ps !! o = Some p -> perm_prevents_deallocation p = true ->
    is_ub (mo_deallocate TO m ptr kind size align).
  Proof.
    intros Hlen Hp Ha Hi Ho Hb. simpl.
    destruct (bm_deallocate_cases m ptr kind size align (fun root path => tb_dealloc size root path)) as
      [(id' & pe & a' & Hp' & Ha' & _ & Hsz & ->)|[_ ?]];
      [intros id' pe E; rewrite Hp in E; injection E as <- <-; by eapply lookup_lt_Some| |done].
    rewrite Hp in Hp'. injection Hp' as <- <-. rewrite Ha in Ha'. injection Ha' as <-.
    unfold tb_dealloc.
    destruct (node_access_cases (al_extra a) (Some Q) AkWrite 0 size (length (al_data a))) as [[root Hr]|[msg ->]].
    - by eapply Hlen.
    - rewrite <- Hsz. unfold al_size. lia.
    - rewrite Hr. simpl. assert (node_blocks_dealloc root = true) as ->; [|by eexists].
      apply blocks_dealloc_exact.
      destruct (node_access_perm _ _ _ _ _ _ _ _ _ _ _ Hr Hi Ho) as (ps' & p' & Hi' & Ho' & H1 & H2).
      exists P, ps', o, p'. split; [done|]. split; [done|].
      destruct (decide (off_in 0 size o)) as [Hin|Hn]; [eapply prevents_inv; [exact Hb|auto]|by rewrite H2].
    - by eexists.
  Qed.

  Lemma settings_ref ptr pt lk s :
    settings_new ptr pt true lk = Ret (Some s) ->
    rs_protected s = match pt with PBox _ => ProtWeak | _ => ProtStrong end.
  Proof.
    unfold settings_new. destruct (safe_pointee pt) as [pi|]; [|done].
    destruct (match pt with PRef _ _ => _ | _ => _ end) eqn:E0; [done|]. intros H.
    apply obind_ret in H as (mask & _ & [= <-]). done.
  Qed.

  Lemma retag_prot m f ptr pt fe lk p m' f' s id P :
    mo_retag TO m f ptr pt fe lk = Ret (p, m', f') -> settings_new ptr pt fe lk = Ret (Some s) ->
    tp_prov (p_thin p) = Some (id, P) -> mem_prot m' id P = Some (rs_protected s).
  Proof.
    intros H Hs Hp.
    destruct (retag_new T _ _ _ _ _ _ _ _ _ _ _ _ H Hs Hp) as
      (_ & a & perms & root1 & off & Ha & Hn & Hadr & Hb & Hlen & Hel & _ & Hv & root2 & -> & Hr & _).
    assert (exists ps, ninfo root2 P = Some (ps, rs_protected s)) as [ps Hps].
    { eapply (reads_invariant (fun r => exists ps, ninfo r P = Some (ps, rs_protected s))); [|exact Hr|].
      - intros r o r' [ps Hps] Hacc. apply (node_access_view _ _ _ _ _ _ P) in Hacc. rewrite Hps in Hacc.
        destruct (ninfo r' P) as [[ps' pr']|]; [|done]. destruct Hacc as [-> _]. eauto.
      - exists perms. by rewrite Hv, decide_True. }
    rewrite (mem_prot_insert _ _ _ _ _ _ Ha), decide_True by done. simpl. by rewrite Hps.
  Qed.

  (** permissions of a protected node other than Cell *)
  Definition guard_perm (p : Perm) : Prop :=
    match p with Prot PCell => False | Prot _ => True | _ => False end.
  Lemma guard_inv p ak rel p' : guard_perm p -> perm_transition p ak rel = Ret p' -> guard_perm p'.
  Proof. destruct p as [[]|[|[] []| |[]|]], ak, rel; simpl; intros Hp H; try done; injection H as <-; done. Qed.
  Lemma guard_local p ak p' : guard_perm p -> perm_transition p ak Local = Ret p' -> perm_prevents_deallocation p' = true.
  Proof. destruct p as [[]|[|[] []| |[]|]], ak; simpl; intros Hp H; try done; injection H as <-; done. Qed.

  Theorem strong_protector_dealloc ops0 m1 id P x q op r m2 ops m3 :
    mem_run TO (mo_new TO) ops0 = Ret m1 ->
    mem_prot m1 id P = Some ProtStrong -> addr_perm m1 id P x = Some (Prot q) -> q <> PCell ->
    (exists len al, op = OpLoad r len al /\ covers r len x) \/
    (exists bytes al, op = OpStore r bytes al /\ covers r (N.of_nat (length bytes)) x) ->
    derived r id P -> mem_op TO m1 op = Ret m2 ->
    mem_run TO m2 ops = Ret m3 -> (id, P) ∉ released ops ->
    forall d Q kind size align, tp_prov d = Some (id, Q) -> is_ub (mo_deallocate TO m3 d kind size align).
  Proof.
    intros H0 Hprot Hq Hcell Hop (q' & Hq' & Hpre) Hst H2 HR2 d Q kind size align Hd.
    pose proof (mem_run_steps T _ _ _ H2) as S2.
    assert (exists R, ~ R (id, P) /\ rtc (tb_step T R) m1 m2 /\
      exists p2, addr_perm m2 id P x = Some p2 /\ perm_prevents_deallocation p2 = true) as (R & HR & S1 & p2 & Hp2 & Hb2).
    { assert (guard_perm (Prot q)) as Hg by (by destruct q).
      exists (fun _ => False). split; [tauto|].
      destruct Hop as [(len & al & -> & Hc)|(bytes & al & -> & Hc)]; simpl in Hst.
      - apply obind_ret in Hst as ([b m2'] & Hld & [= <-]). split; [by apply (tb_load_steps T _ _ _ _ _ _ _ Hld)|].
        destruct (tb_load_perm T _ _ _ _ _ _ _ _ P x _ Hld Hq' Hq) as (p2 & Hp2 & Ht & _).
        exists p2. split; [done|]. specialize (Ht Hc). rewrite rel_local in Ht by done. by eapply guard_local.
      - split; [by apply (tb_store_steps T _ _ _ _ _ _ Hst)|].
        destruct (tb_store_perm T _ _ _ _ _ _ _ P x _ Hst Hq' Hq) as (p2 & Hp2 & Ht & _).
        exists p2. split; [done|]. specialize (Ht Hc). rewrite rel_local in Ht by done. by eapply guard_local. }
    pose proof (prot_invariant T _ _ _ _ _ _ HR S1 Hprot) as Hprot2.
    pose proof (prot_invariant T _ _ _ _ _ _ HR2 S2 Hprot2) as Hprot3.
    destruct (addr_perm_invariant T (fun p => perm_prevents_deallocation p = true) _ _ _ id P x prevents_inv HR2 S2)
      as (p3 & Hp3 & Hb3); [eauto|].
    assert (tb_len m3) as Hlen.
    { eapply tb_steps_len; [exact S2|]. eapply tb_steps_len; [exact S1|]. by eapply tb_len_run. }
    apply addr_perm_some in Hp3 as (a & o & Ha & _ & Hp3).
    destruct (mem_perm_info _ _ _ _ _ _ Ha Hp3) as (ps & pr & Hi & Ho).
    unfold mem_prot in Hprot3. rewrite Ha, Hi in Hprot3. injection Hprot3 as ->.
    by eapply dealloc_blocked.
  Qed.

  (** retagging a reference at a function entry gives it a strong protector *)
  Theorem retag_entry_protected m f ptr mt pi lk p m' f' id P :
    mo_retag TO m f ptr (PRef mt pi) true lk = Ret (p, m', f') ->
    (mt = Mutable -> pi_unpin pi = true) ->
    tp_prov (p_thin p) = Some (id, P) ->
    mem_prot m' id P = Some ProtStrong /\ (id, P) ∈ f'.
  Proof.
    intros H Hm Hp. destruct (tb_retag_settings _ _ _ _ _ _ _ H) as [os Hs].
    assert (exists s, os = Some s) as [s ->].
    { unfold settings_new in Hs. simpl in Hs. destruct mt; simpl in Hs.
      - rewrite Hm in Hs by done. simpl in Hs. apply obind_ret in Hs as (mask & _ & [= <-]). eauto.
      - apply obind_ret in Hs as (mask & _ & [= <-]). eauto. }
    rewrite (retag_prot _ _ _ _ _ _ _ _ _ _ _ _ H Hs Hp). pose proof (settings_ref _ _ _ _ Hs) as Hpr. simpl in Hpr.
    rewrite Hpr. split; [done|]. simpl in H. apply tb_retag_ret in H as [(Hs' & _)|(s' & p' & Hs' & Hr & ->)]; [congruence|].
    rewrite Hs in Hs'. injection Hs' as <-. simpl in *.
    apply reborrow_ret in Hr as [(Hn & _ & -> & _)|(id' & parent & a & a' & cp & Hpp & Ha & Hin & Hr & -> & -> & ->)];
      [congruence|].
    simpl in Hp. injection Hp as -> ->. rewrite Hpr. simpl. apply elem_of_app. right. by apply elem_of_list_singleton.
  Qed.
End Guard.
