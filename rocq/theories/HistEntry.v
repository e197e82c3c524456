(** Proofs: retagging a shared reference at the beginning of a function. *)
From Verif Require Export HistTree MeanProofs.
From stdpp Require Import relations.
From Coq Require Import ZifyBool ZifyN ZifyNat.
Local Open Scope Z_scope.

Section Entry.
  Variable T : Target.
  Notation TO := (TreeOps T).
  Notation Mach := (Machine TProv TFrame TMem).

  Lemma store_threads (m m' : Mach) pl v ty : place_store T TO m pl v ty = Ret m' ->
    m_threads m' = m_threads m /\ m_active m' = m_active m /\
    exists bs, mo_store TO (cm_mem (m_mem m)) (p_thin (pl_ptr pl)) bs align_one = Ret (cm_mem (m_mem m')).
  Proof.
    unfold place_store. destruct (negb _); [done|]. unfold typed_store. intros E. apply obind_ret in E as (? & _ & E).
    apply obind_ret in E as (? & _ & E). apply obind_ret in E as (bs & _ & E). apply obind_ret in E as (c & Hc & [= <-]). split; [done|]. split; [done|].
    exists bs. unfold cm_store in Hc. apply obind_ret in Hc as (mem & Hm & [= <-]). done.
  Qed.

  (** what the retag and the store after it do *)
  Lemma entry_retag (BL : bm_like T TO) (Tok : target_ok T)
      (Hret : forall mem f ptr pt fe lk q mem' f', mo_retag TO mem f ptr pt fe lk = Ret (q, mem', f') -> same_dest ptr q)
      (m m' : Mach) p : steps_to T TO m m' -> at_statement m (m_active m') (SValidate p true) ->
    exists ptr ty w bs, place_means T (turn m (m_active m')) p ptr true ty /\ encode T ty w = Ret bs /\ stores_at m' (p_thin ptr) bs /\
      forall pt, ty = TPtr pt -> exists q, w = VPtr q /\
        exists mem g old mem6 extra st, mo_retag TO mem g old pt true (vtable_lookup m) = Ret (q, mem6, extra) /\ same_dest old q /\
          extra ∈ call_data m' /\ mem_run TO mem6 [OpStore (p_thin ptr) st align_one] = Ret (cm_mem (m_mem m')).
  Proof.
    intros Hs Ha. destruct (step_stmt T TO _ _ _ Hs Ha) as (cs & m3 & cs' & f & He & Hf & Hset & Hal). cbn [eval_statement] in He.
    apply obind_ret in He as ([[pl ty] m1] & Hp & He). apply obind_ret in He as ([v m2] & Hv & He).
    apply obind_ret in He as ([w m4] & Hw & He). apply obind_ret in He as (m5 & Hst & [= <- <-]).
    pose proof (place_store_writes T TO BL _ _ _ _ _ Hst) as (Hpa & bs & Hb & _ & [Hsa _]).
    pose proof (eval_place_still T TO BL p (turn m (m_active m'))) as H1. rewrite Hp in H1. destruct H1 as [S1 _]. cbn [fst snd] in S1.
    pose proof (place_load_still T TO BL m1 pl ty) as H2. rewrite Hv in H2. destruct H2 as [S2 _]. cbn [fst snd] in S2.
    pose proof (at_place_means T TO BL Tok Hret p (turn m (m_active m')) pl ty m1 (conj Hp Hpa)) as [Hm _].
    exists (pl_ptr pl), ty, w, bs. split; [exact Hm|]. split; [exact Hb|]. split; [by apply (alike_stores _ _ _ _ Hal)|].
    intros pi ->. pose proof (place_load_shape T TO _ _ _ _ _ Hv) as Hsh. inversion Hsh as [| |pt old Hb1 Hb2 E1 E2| | | |]; subst v. cbn in Hw. apply obind_ret in Hw as ([q m6] & Hr & [= <- <-]).
    exists q. split; [done|].
    unfold retag_ptr in Hr. apply obind_ret in Hr as (g & Hg & Hr). apply obind_ret in Hr as ([[q1 mem] extra] & Hc & Hr).
    apply obind_ret in Hr as (m7 & Hm7 & [= -> ->]). unfold cm_retag in Hc. apply obind_ret in Hc as ([[q2 mem2] e2] & Hc & [= -> <- ->]).
    pose proof (Hret _ _ _ _ _ _ _ _ _ Hc) as Hd.
    destruct (store_threads _ _ _ _ _ Hst) as (Et & Eac & bs' & Hstore).
    pose proof (set_cur_mem _ _ _ Hm7) as Em7. pose proof (set_cur_mem _ _ _ Hset) as Em'.
    assert (vtable_lookup m2 = vtable_lookup m) as El.
    { unfold same in S1, S2. unfold vtable_lookup. pose proof (f_equal c_prog S1) as P1. pose proof (f_equal c_prog S2) as P2.
      pose proof (f_equal c_vtptrs S1) as V1. pose proof (f_equal c_vtptrs S2) as V2. cbn in P1, P2, V1, V2.
      by rewrite P2, P1, V2, V1. }
    rewrite El in Hc. eexists _, _, old, mem2, extra, bs'. split; [exact Hc|]. split; [done|]. split.
    - destruct (set_cur_extras _ _ _ _ Hf Hset) as (rest & D1 & D2). rewrite D2. replace (f_extra (with_pc f (f_block f) (S (f_stmt f)))) with extra; [left|].
      unfold set_cur_frame in Hm7. apply obind_ret in Hm7 as (t7 & Ht7 & Hm7). destruct (t_stack t7) as [|g7 r7] eqn:Es7; [done|]. injection Hm7 as <-.
      unfold active_thread in Ht7. apply unwrap_ret in Ht7. cbn in Ht7.
      unfold cur_frame, active_thread in Hf. rewrite Et, Eac in Hf. cbn in Hf. rewrite list_lookup_insert in Hf by (by eapply lookup_lt_Some).
      cbn in Hf. injection Hf as <-. done.
    - rewrite Em7 in Hstore. unfold mem_run. cbn [fold_m mem_op]. rewrite Em'. etrans; [|exact Hstore]. cbn. by destruct (bm_store _ _ _ _ _).
  Qed.

  Lemma entry_frozen (BL : bm_like T TO) (Tok : target_ok T)
      (Hret : forall mem f ptr pt fe lk q mem' f', mo_retag TO mem f ptr pt fe lk = Ret (q, mem', f') -> same_dest ptr q)
      (m m' : Mach) p : steps_to T TO m m' -> at_statement m (m_active m') (SValidate p true) ->
    exists ptr ty w bs, place_means T (turn m (m_active m')) p ptr true ty /\ encode T ty w = Ret bs /\ stores_at m' (p_thin ptr) bs /\
      forall pi, ty = TPtr (PRef Immutable pi) -> exists q, w = VPtr q /\
        forall id P, tp_prov (p_thin q) = Some (id, P) ->
          (exists f, f ∈ call_data m' /\ (id, P) ∈ f) /\
          forall mask i, freeze_mask (pi_cells pi) (pi_layout pi) (p_meta q) (vtable_lookup m) = Ret mask -> mask !! i = Some true ->
            exists a o, cm_mem (m_mem m') !! id = Some a /\ tp_addr (p_thin q) + Z.of_nat i = al_addr a + Z.of_nat o /\
              mem_frozen (cm_mem (m_mem m')) id P o.
  Proof.
    intros Hs Ha. destruct (entry_retag BL Tok Hret m m' p Hs Ha) as (ptr & ty & w & bs & H1 & H2 & H3 & H4).
    exists ptr, ty, w, bs. split; [done|]. split; [done|]. split; [done|]. intros pi E.
    destruct (H4 _ E) as (q & Ew & mem & g & old & mem6 & extra & st & Hc & (Eaddr & Emeta & _) & Hin & Hrun).
    exists q. split; [done|]. intros id P Hq. split.
    - exists extra. split; [done|]. by destruct (retag_entry_protected T _ _ _ _ _ _ _ _ _ _ _ Hc ltac:(done) Hq) as [_ H].
    - intros mask i Hmask Hi. rewrite Emeta in Hmask.
      destruct (retag_shared_frozen T _ _ _ _ _ _ _ _ _ _ _ _ Hc Hq Hmask Hi) as (a & o & Ha' & Eo & Hfr).
      apply mem_run_steps in Hrun.
      destruct (tb_steps_addr T _ _ _ _ _ Hrun Ha') as (a2 & Ha2 & E2 & _).
      exists a2, o. split; [done|]. rewrite E2. split; [done|]. eapply frozen_steps; [exact Hrun| |exact Hfr]. by apply not_elem_of_nil.
  Qed.
  Lemma frozen_addr_perm mem id P a o x : mem !! id = Some a -> x = al_addr a + Z.of_nat o -> mem_frozen mem id P o ->
    addr_perm mem id P x = Some (Prot (PFrozen true)).
  Proof.
    intros Ha -> (a' & Ha' & _ & _ & [(ps & pr & Hn & Ho) _]). apply addr_perm_some. exists a, o. split; [done|]. split; [done|].
    unfold mem_perm. by rewrite Ha', Hn.
  Qed.

  Lemma entry_shared (BL : bm_like T TO) (Tok : target_ok T)
      (Hret : forall mem f ptr pt fe lk q mem' f', mo_retag TO mem f ptr pt fe lk = Ret (q, mem', f') -> same_dest ptr q)
      (m m' : Mach) p : steps_to T TO m m' -> at_statement m (m_active m') (SValidate p true) ->
    exists ptr ty w bs, place_means T (turn m (m_active m')) p ptr true ty /\ encode T ty w = Ret bs /\ stores_at m' (p_thin ptr) bs /\
      forall pi, ty = TPtr (PRef Immutable pi) -> exists q, w = VPtr q /\
        forall id P, tp_prov (p_thin q) = Some (id, P) ->
          (exists f, f ∈ call_data m' /\ (id, P) ∈ f) /\
          forall mask i, freeze_mask (pi_cells pi) (pi_layout pi) (p_meta q) (vtable_lookup m) = Ret mask -> mask !! i = Some true ->
            addr_perm (cm_mem (m_mem m')) id P (tp_addr (p_thin q) + Z.of_nat i) = Some (Prot (PFrozen true)).
  Proof.
    intros Hs Ha. destruct (entry_frozen BL Tok Hret m m' p Hs Ha) as (ptr & ty & w & bs & H1 & H2 & H3 & H4).
    exists ptr, ty, w, bs. split; [done|]. split; [done|]. split; [done|]. intros pi E. destruct (H4 pi E) as (q & Ew & H5).
    exists q. split; [done|]. intros id P Hq. destruct (H5 id P Hq) as [H6 H7]. split; [done|].
    intros mask i Hm Hi. destruct (H7 mask i Hm Hi) as (a & o & Ha' & Eo & Hf). by eapply frozen_addr_perm.
  Qed.

  (** ** Later in the execution *)

  (** bytes that are frozen at one moment, while the tag stays protected *)
  Lemma frozen_readable prog (m m' : Mach) l id P (good : Address -> Prop) :
    reachable T TO prog m -> execution T TO m l m' ->
    (forall s, s ∈ l ++ [m'] -> exists f, f ∈ call_data s /\ (id, P) ∈ f) ->
    (forall x, good x -> exists a o, cm_mem (m_mem m) !! id = Some a /\ x = al_addr a + Z.of_nat o /\ mem_frozen (cm_mem (m_mem m)) id P o) ->
    forall r len al, derived r id P -> tp_addr r mod Z.of_N (align_bytes al) = 0 -> (forall x, TreeSpec.covers r len x -> good x) ->
      exists bs mem mem', mo_load TO (cm_mem (m_mem m)) r len al = Ret (bs, mem) /\ mo_load TO (cm_mem (m_mem m')) r len al = Ret (bs, mem').
  Proof.
    intros Hr He Hl Hg r len al Hd Hal Hc. destruct (reach_hist T TO prog m Hr) as (ops & Ho).
    destruct (exec_has_ops T TO _ _ _ He) as (ops2 & He2). pose proof (exec_ops_run T TO _ _ _ _ He2) as Ho2.
    pose proof (listed_only T prog m l m' (id, P) ops2 Hr He2 Hl) as Hrel.
    pose proof (mem_run_steps T _ _ _ Ho2) as S2. pose proof (tb_len_run T _ _ Ho) as L1. pose proof (tb_steps_len T _ _ _ S2 L1) as L2.
    destruct (decide (len = 0%N)) as [->|Hn].
    { destruct (zero_sized T TO (cm_mem (m_mem m)) r al (tree_like T)) as [Hz _]. destruct (Hz Hal) as [-> _].
      destruct (zero_sized T TO (cm_mem (m_mem m')) r al (tree_like T)) as [Hz' _]. destruct (Hz' Hal) as [-> _]. eauto. }
    destruct (Hg (tp_addr r)) as (a & _ & Ha & _ & _); [apply Hc; unfold TreeSpec.covers; lia|].
    destruct (tb_steps_addr T _ _ _ _ _ S2 Ha) as (a2 & Ha2 & E2 & _).
    assert (exists bs mem, mo_load TO (cm_mem (m_mem m)) r len al = Ret (bs, mem)) as (bs & mem & Hb).
    { eapply frozen_load_ok; [done|exact Ha|exact Hd|done|]. intros x Hx. destruct (Hg x (Hc x Hx)) as (a' & o & Ha' & E & Hf).
      rewrite Ha in Ha'. injection Ha' as <-. exists o. done. }
    assert (exists bs mem, mo_load TO (cm_mem (m_mem m')) r len al = Ret (bs, mem)) as (bs' & mem' & Hb').
    { eapply frozen_load_ok; [done|exact Ha2|exact Hd|done|]. intros x Hx. destruct (Hg x (Hc x Hx)) as (a' & o & Ha' & E & Hf).
      rewrite Ha in Ha'. injection Ha' as <-. exists o. rewrite E2. split; [done|]. by eapply frozen_steps. }
    assert (bs' = bs) as ->; [|eauto].
    destruct Hd as (Q & HQ & _). pose proof (load_len T _ _ _ _ _ _ Hb) as N1. pose proof (load_len T _ _ _ _ _ _ Hb') as N2.
    apply list_eq. intros j. destruct (decide (j < length bs)%nat) as [Hj|Hj]; [|rewrite !lookup_ge_None_2 by lia; done].
    assert (TreeSpec.covers r len (tp_addr r + Z.of_nat j)) as Hx by (unfold TreeSpec.covers; lia).
    pose proof (load_hist T _ _ _ _ _ _ _ _ _ _ Ho Hb HQ Hx) as B1.
    assert (mem_run TO (mo_new TO) (ops ++ ops2) = Ret (cm_mem (m_mem m'))) as Ho3.
    { unfold mem_run in *. by rewrite fold_m_app, Ho. }
    pose proof (load_hist T _ _ _ _ _ _ _ _ _ _ Ho3 Hb' HQ Hx) as B2.
    destruct (Hg _ (Hc _ Hx)) as (a' & o & Ha' & E & Hf).
    rewrite last_store_app, (last_store_same ops2) in B2.
    2: { eapply frozen_untouched; [exact L1|by eapply frozen_addr_perm|exact Ho2|exact Hrel]. }
    rewrite <-B1 in B2. unfold loaded in B2. rewrite !byte_at_in in B2 by lia.
    by replace (Z.to_nat (tp_addr r + Z.of_nat j - tp_addr r)) with j in B2 by lia.
  Qed.

  (** an allocation that a strong protector keeps alive *)
  Definition kept (mem : TMem) (id : nat) (P : list nat) (x : Address) : Prop :=
    mem_prot mem id P = Some ProtStrong /\ (exists p, addr_perm mem id P x = Some p /\ perm_prevents_deallocation p = true) /\
    exists a, mem !! id = Some a /\ al_live a = true.
  Lemma kept_step R mem mem' id P x : tb_step T R mem mem' -> ~ R (id, P) -> kept mem id P x -> kept mem' id P x.
  Proof.
    intros Hs HR (Hp & Hx & a & Ha & Hl). pose proof (rtc_once _ _ Hs) as Hs1.
    split; [exact (prot_invariant T _ _ _ _ _ _ HR Hs1 Hp)|].
    split; [exact (addr_perm_invariant T (fun p => perm_prevents_deallocation p = true) _ _ _ id P x prevents_inv HR Hs1 Hx)|].
    destruct Hs as [m kind size align addr p m' He|m id1 a0 q ak off size root data live Ha0 Hl0 Hacc Hle Hlen Hdead|m id1 a0 parent perms prot cp root Ha0 Hadd Hpl Hfr|m id1 path1 a0 a1 Ha0 HR1 Hrel].
    - apply bm_allocate_ret in He as (_ & _ & _ & ->). exists a. split; [|done]. by apply lookup_app_l_Some.
    - destruct (decide (id = id1)) as [->|Hn]; [|exists a; by rewrite list_lookup_insert_ne].
      eexists. rewrite list_lookup_insert by (by eapply lookup_lt_Some). split; [done|]. cbn. destruct live; [done|exfalso].
      destruct (Hdead eq_refl) as (-> & -> & -> & Hnb). rewrite Ha in Ha0. injection Ha0 as <-.
      destruct Hx as (p & Hx & Hb). apply addr_perm_some in Hx as (a' & o & Ha' & _ & Ho). rewrite Ha in Ha'. injection Ha' as <-.
      destruct (mem_perm_info _ _ _ _ _ _ Ha Ho) as (ps & pr & Hi & Hpo). unfold mem_prot in Hp. rewrite Ha, Hi in Hp. injection Hp as ->.
      assert (node_blocks_dealloc root = true) as E; [|congruence]. apply blocks_dealloc_exact.
      destruct (node_access_perm _ _ _ _ _ _ _ _ _ _ _ Hacc Hi Hpo) as (ps' & p' & Hi' & Ho' & H1 & H2).
      exists P, ps', o, p'. split; [done|]. split; [done|].
      destruct (decide (off_in 0 (al_size a) o)) as [Hin|Hno]; [eapply prevents_inv; [exact Hb|auto]|by rewrite H2].
    - destruct (decide (id = id1)) as [->|Hn]; [|exists a; by rewrite list_lookup_insert_ne].
      eexists. rewrite list_lookup_insert by (by eapply lookup_lt_Some). split; [done|]. cbn. congruence.
    - destruct (decide (id = id1)) as [->|Hn]; [|exists a; by rewrite list_lookup_insert_ne].
      apply release_alloc_view in Hrel as (ps1 & pr1 & l & root & -> & _).
      eexists. rewrite list_lookup_insert by (by eapply lookup_lt_Some). split; [done|]. cbn. congruence.
  Qed.
  Lemma kept_steps R mem mem' id P x : rtc (tb_step T R) mem mem' -> ~ R (id, P) -> kept mem id P x -> kept mem' id P x.
  Proof. induction 1; [done|]. eauto using kept_step. Qed.

  (** the permission of a byte that a retag reads *)
  Lemma retag_byte (G B : Perm -> Prop) mem f ptr pt fe lk p mem' f' id P s i q :
    (forall p ak rel p', G p -> perm_transition p ak rel = Ret p' -> G p') ->
    (forall p ak rel p', B p -> perm_transition p ak rel = Ret p' -> B p') ->
    (forall p p', G p -> perm_transition p AkRead Local = Ret p' -> B p') ->
    mo_retag TO mem f ptr pt fe lk = Ret (p, mem', f') -> tp_prov (p_thin p) = Some (id, P) ->
    settings_new ptr pt fe lk = Ret (Some s) -> rs_inside s !! i = Some q -> G q -> perm_init_access q = Some AkRead ->
    (exists q', addr_perm mem' id P (tp_addr (p_thin p) + Z.of_nat i) = Some q' /\ B q') /\
    exists a, mem' !! id = Some a /\ al_live a = true.
  Proof.
    intros HG HB HGB H Hp Hs Hq Hg Hacc.
    destruct (retag_new T _ _ _ _ _ _ _ _ _ _ _ _ H Hs Hp) as
      (Hadr0 & a & perms & root1 & off & Ha & Hn & Hadr & Hlb & Hlen & Hel & Hin & Hv & root2 & -> & Hr & Hra).
    destruct (Hra i _ Hq Hacc) as (ra & rb & R1 & R2 & R3).
    destruct Hlb as [Hlive Hsz]. { intros E. by rewrite E in Hq. }
    set (o := (N.to_nat off + i)%nat) in *.
    assert (forall (I : Perm -> Prop), (forall p ak rel p', I p -> perm_transition p ak rel = Ret p' -> I p') -> forall r r',
      rtc (reads P (length (al_data a))) r r' -> (exists ps pr q, ninfo r P = Some (ps, pr) /\ ps !! o = Some q /\ I q) ->
      exists ps pr q, ninfo r' P = Some (ps, pr) /\ ps !! o = Some q /\ I q) as K.
    { intros I HI r r' Hrr Hr0. eapply (reads_invariant (fun r => exists ps pr q, ninfo r P = Some (ps, pr) /\ ps !! o = Some q /\ I q)); [|exact Hrr|exact Hr0]. intros r1 o1 r2 (ps & pr & q1 & K1 & K2 & K3) Hac.
      destruct (node_access_perm _ _ _ _ _ _ _ _ _ _ _ Hac K1 K2) as (ps' & q' & Hi' & Hq' & Ht & Hnt).
      exists ps', pr, q'. split; [done|]. split; [done|].
      destruct (decide (off_in o1 1 o)) as [Hx|Hx]; [eapply HI; [exact K3|exact (Ht Hx)]|by rewrite Hnt]. }
    destruct (K G HG _ _ R1) as (ps & pr & q1 & K1 & K2 & K3).
    { exists perms, (rs_protected s), q. split; [by rewrite Hv, decide_True|]. split; [by apply Hin|done]. }
    destruct (node_access_perm _ _ _ _ _ _ _ _ _ _ _ R2 K1 K2) as (ps' & q' & Hi' & Hq' & Ht & _).
    destruct (K B HB _ _ R3) as (ps2 & pr2 & q2 & M1 & M2 & M3).
    { exists ps', pr, q'. split; [done|]. split; [done|]. eapply HGB; [exact K3|]. rewrite rel_local in Ht by done. apply Ht. unfold off_in, o. lia. }
    split.
    - exists q2. split; [|done]. apply addr_perm_some. exists (set_extra a root2), o. rewrite list_lookup_insert by (by eapply lookup_lt_Some).
      split; [done|]. split; [cbn; unfold o; lia|]. unfold mem_perm. rewrite list_lookup_insert by (by eapply lookup_lt_Some). cbn. by rewrite M1.
    - eexists. rewrite list_lookup_insert by (by eapply lookup_lt_Some). split; [done|]. exact Hlive.
  Qed.

  (** every reference retagged at the beginning of a function is such, where it may not be behind a cell *)
  Lemma retag_kept mem f ptr mt pi lk p mem' f' id P mask i b :
    mo_retag TO mem f ptr (PRef mt pi) true lk = Ret (p, mem', f') -> tp_prov (p_thin p) = Some (id, P) ->
    (mt = Mutable -> pi_unpin pi = true) ->
    freeze_mask (pi_cells pi) (pi_layout pi) (p_meta ptr) lk = Ret mask -> mask !! i = Some b -> (mt = Immutable -> b = true) ->
    kept mem' id P (tp_addr (p_thin p) + Z.of_nat i).
  Proof.
    intros H Hp Hu Hmask Hi Hb. destruct (retag_entry_protected T _ _ _ _ _ _ _ _ _ _ _ H Hu Hp) as [Hst _]. split; [done|].
    assert (exists s, settings_new ptr (PRef mt pi) true lk = Ret (Some s) /\
      exists q, rs_inside s !! i = Some q /\ guard_perm q /\ perm_init_access q = Some AkRead) as (s & Hs & q & Hq & Hg & Hacc).
    { unfold settings_new. destruct mt; cbn [safe_pointee]; [rewrite (Hu eq_refl)|]; cbn [negb]; rewrite Hmask; cbn [obind]; eexists; (split; [reflexivity|]);
        cbn [rs_inside]; rewrite list_lookup_fmap, Hi; eexists; (split; [reflexivity|]); [by destruct b|by rewrite (Hb eq_refl)]. }
    eapply (retag_byte guard_perm (fun p => perm_prevents_deallocation p = true)); try done; [apply guard_inv|apply prevents_inv|].
    intros p1 p2. apply guard_local.
  Qed.

  (** a mutable one has read its bytes *)
  Definition mut_used (p : Perm) : Prop := p = Prot PUnique \/ exists c, p = Prot (PReserved true c).
  Lemma mut_used_inv p ak rel p' : mut_used p -> perm_transition p ak rel = Ret p' -> mut_used p'.
  Proof. intros [->|[c ->]] H; destruct ak, rel; try destruct c; cbn in H; try done; injection H as <-; (by left) || (right; eauto). Qed.
  Definition mut_perm (p : Perm) : Prop := p = Prot PUnique \/ p = Prot PDisabled \/ exists b c, p = Prot (PReserved b c).
  Lemma mut_perm_inv p ak rel p' : mut_perm p -> perm_transition p ak rel = Ret p' -> mut_perm p'.
  Proof.
    intros [->|[->|(b & c & ->)]] H; destruct ak, rel; try destruct b; try destruct c; cbn in H; try done; injection H as <-;
      first [by left|right; left; done|right; right; eauto].
  Qed.
  Lemma retag_mut_used mem f ptr pi lk p mem' f' id P mask i b :
    mo_retag TO mem f ptr (PRef Mutable pi) true lk = Ret (p, mem', f') -> tp_prov (p_thin p) = Some (id, P) -> pi_unpin pi = true ->
    freeze_mask (pi_cells pi) (pi_layout pi) (p_meta ptr) lk = Ret mask -> mask !! i = Some b ->
    exists q, addr_perm mem' id P (tp_addr (p_thin p) + Z.of_nat i) = Some q /\ mut_used q.
  Proof.
    intros H Hp Hu Hmask Hi.
    assert (exists s, settings_new ptr (PRef Mutable pi) true lk = Ret (Some s) /\
      exists q, rs_inside s !! i = Some q /\ mut_perm q /\ perm_init_access q = Some AkRead) as (s & Hs & q & Hq & Hg & Hacc).
    { unfold settings_new. cbn [safe_pointee]. rewrite Hu. cbn [negb]. rewrite Hmask. cbn [obind]. eexists. split; [reflexivity|].
      cbn [rs_inside]. rewrite list_lookup_fmap, Hi. eexists. split; [reflexivity|]. destruct b; (split; [right; right; eexists _, _; reflexivity|done]). }
    eapply (retag_byte mut_perm mut_used); try done; [apply mut_perm_inv|apply mut_used_inv|].
    intros p1 p2 [->|[->|(b1 & c & ->)]] E; cbn in E; try done; injection E as <-; [by left|right; eauto].
  Qed.

  Lemma entry_kept (BL : bm_like T TO) (Tok : target_ok T)
      (Hret : forall mem f ptr pt fe lk q mem' f', mo_retag TO mem f ptr pt fe lk = Ret (q, mem', f') -> same_dest ptr q)
      (m m' : Mach) p : steps_to T TO m m' -> at_statement m (m_active m') (SValidate p true) ->
    exists ptr ty w bs, place_means T (turn m (m_active m')) p ptr true ty /\ encode T ty w = Ret bs /\ stores_at m' (p_thin ptr) bs /\
      forall mt pi, ty = TPtr (PRef mt pi) -> (mt = Mutable -> pi_unpin pi = true) -> exists q, w = VPtr q /\
        forall id P, tp_prov (p_thin q) = Some (id, P) ->
          (exists f, f ∈ call_data m' /\ (id, P) ∈ f) /\
          forall mask i b, freeze_mask (pi_cells pi) (pi_layout pi) (p_meta q) (vtable_lookup m) = Ret mask -> mask !! i = Some b ->
            (mt = Immutable -> b = true) -> kept (cm_mem (m_mem m')) id P (tp_addr (p_thin q) + Z.of_nat i).
  Proof.
    intros Hs Ha. destruct (entry_retag BL Tok Hret m m' p Hs Ha) as (ptr & ty & w & bs & H1 & H2 & H3 & H4).
    exists ptr, ty, w, bs. split; [done|]. split; [done|]. split; [done|]. intros mt pi E Hu.
    destruct (H4 _ E) as (q & Ew & mem & g & old & mem6 & extra & st & Hc & (Eaddr & Emeta & _) & Hin & Hrun).
    exists q. split; [done|]. intros id P Hq. split.
    - exists extra. split; [done|]. by destruct (retag_entry_protected T _ _ _ _ _ _ _ _ _ _ _ Hc Hu Hq) as [_ H].
    - intros mask i b Hmask Hi Hb. rewrite Emeta in Hmask. apply mem_run_steps in Hrun.
      eapply kept_steps; [exact Hrun|by apply not_elem_of_nil|]. by eapply retag_kept.
  Qed.

  Lemma strong_live prog (m m' : Mach) l id P x :
    reachable T TO prog m -> execution T TO m l m' ->
    (forall s, s ∈ l ++ [m'] -> exists f, f ∈ call_data s /\ (id, P) ∈ f) -> kept (cm_mem (m_mem m)) id P x ->
    (exists a, cm_mem (m_mem m') !! id = Some a /\ al_live a = true /\ al_addr a <= x < al_addr a + Z.of_N (al_size a)) /\
    forall d Q kind size align, tp_prov d = Some (id, Q) -> is_ub (mo_deallocate TO (cm_mem (m_mem m')) d kind size align).
  Proof.
    intros Hr He Hl Hk. destruct (reach_hist T TO prog m Hr) as (ops & Ho).
    destruct (exec_has_ops T TO _ _ _ He) as (ops2 & He2). pose proof (exec_ops_run T TO _ _ _ _ He2) as Ho2.
    pose proof (listed_only T prog m l m' (id, P) ops2 Hr He2 Hl) as Hrel.
    pose proof (mem_run_steps T _ _ _ Ho2) as S2. pose proof (tb_len_run T _ _ Ho) as L1. pose proof (tb_steps_len T _ _ _ S2 L1) as L2.
    destruct (kept_steps _ _ _ id P x S2 Hrel Hk) as (Hp' & (q' & Hx' & Hq') & a' & Ha' & Hli').
    apply addr_perm_some in Hx' as (a2 & o & Ha2 & Ex & Ho'). rewrite Ha' in Ha2. injection Ha2 as <-.
    destruct (mem_perm_info _ _ _ _ _ _ Ha' Ho') as (ps & pr & Hi & Hpo). unfold mem_prot in Hp'. rewrite Ha', Hi in Hp'. injection Hp' as ->.
    split.
    - exists a'. split; [done|]. split; [done|]. pose proof (L2 _ _ Ha' _ _ _ Hi) as Hlen. apply lookup_lt_Some in Hpo. unfold al_size. lia.
    - intros d Q kind size align Hd. by eapply dealloc_blocked.
  Qed.
End Entry.
