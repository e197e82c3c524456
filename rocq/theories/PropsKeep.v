(** C100: what the memory promises holds in executions: allocations stay apart, freed memory stays
    unusable, and what a reference points to stays there until the function it was passed to returns. *)
From Verif Require Export KeepSpec.
From Verif Require Import HistLive PropsMem PropsOwn PropsTB PropsData PropsHist ExSim.
From Verif Require Import DataSpec ExprSpec HistSpec AliasSpec KeepSpec.
Local Open Scope Z_scope.

(** In every state a program reaches, the live allocations do not overlap, and every allocation is non-null,
    aligned and inside the address space. *)
Theorem C100_disjoint {PE AE F} `{EqDecision PE} T (MO : MemOps (nat * PE) F (BMem PE AE)) prog m :
  memory_model T MO -> target_ok T -> reachable T MO prog m -> allocs_fit T (cm_mem (m_mem m)).
Proof.
  intros MM Tok (ops & Ho)%reach_hist. exact (run_allocs_fit T _ _ ops (PropsOwn.model_like T MO MM) Tok Ho).
Qed.
Print Assumptions C100_disjoint.

(** Once an allocation is dead, then whatever the program does, every use of a pointer to it is undefined
    behaviour. *)
Theorem C100_dead {PE AE F} `{EqDecision PE} T (MO : MemOps (nat * PE) F (BMem PE AE)) m l m' id a p pe :
  memory_model T MO -> execution T MO m l m' ->
  cm_mem (m_mem m) !! id = Some a -> al_live a = false -> tp_prov p = Some (id, pe) ->
  pointers_dead MO (cm_mem (m_mem m')) p.
Proof.
  intros MM (ops & He)%exec_has_ops Ha Hd Hp. pose proof (PropsOwn.model_like T MO MM) as BL. apply exec_ops_run in He.
  destruct (run_dead T MO _ _ _ id _ BL He Ha Hd) as (a' & Ha' & Hl').
  split; [|split; [|split]].
  - intros k s al. destruct (bl_dealloc _ _ BL (cm_mem (m_mem m')) p k s al) as [h' ->]. by eapply dead_dealloc_ub.
  - intros len al ?. destruct (bl_load _ _ BL (cm_mem (m_mem m')) p len al) as [h' ->]. by eapply dead_load_ub.
  - intros len ?. rewrite (bl_deref _ _ BL).
    destruct (dead_check_ub (cm_mem (m_mem m')) p pe id a' len) as [msg ->]; try done. by eexists.
  - intros bytes al ?. destruct (bl_store _ _ BL (cm_mem (m_mem m')) p bytes al) as [h' ->]. by eapply dead_store_ub.
Qed.
Print Assumptions C100_dead.

(** A function retags a reference it was passed. Until the call that did so ends, a call on some stack
    protects the new reference, the memory behind it stays live where it was, and to deallocate it is
    undefined behaviour through every pointer: for a mutable reference (of a type that may be moved) all of
    it, for a shared one all that has a byte outside of cells. *)
Theorem C100_live T prog (m m1 : Machine TProv TFrame TMem) p :
  let TO := TreeOps T in
  target_ok T -> reachable T TO prog m -> steps_to T TO m m1 -> at_statement m (m_active m1) (SValidate p true) ->
  exists ptr ty w bs, place_means T (turn m (m_active m1)) p ptr true ty /\ encode T ty w = Ret bs /\ stores_at m1 (p_thin ptr) bs /\
    forall mt pi, ty = TPtr (PRef mt pi) -> (mt = Mutable -> pi_unpin pi = true) -> exists q, w = VPtr q /\
      forall id P mask i b, tp_prov (p_thin q) = Some (id, P) ->
        freeze_mask (pi_cells pi) (pi_layout pi) (p_meta q) (vtable_lookup m) = Ret mask -> mask !! i = Some b -> (mt = Immutable -> b = true) ->
        forall l m', without_end T TO (fun f => (id, P) ∈ f) m1 l m' ->
          (exists f, f ∈ call_data m' /\ (id, P) ∈ f) /\
          (exists a, cm_mem (m_mem m') !! id = Some a /\ al_live a = true /\
             al_addr a <= tp_addr (p_thin q) + Z.of_nat i < al_addr a + Z.of_N (al_size a)) /\
          forall d Q kind size align, tp_prov d = Some (id, Q) -> is_ub (mo_deallocate TO (cm_mem (m_mem m')) d kind size align).
Proof.
  intros TO Tok Hr Hs Ha. destruct (entry_kept T (tree_like T) Tok (model_retag T _ (mm_tree T)) m m1 p Hs Ha) as (ptr & ty & w & bs & H1 & H2 & H3 & H4).
  exists ptr, ty, w, bs. split; [done|]. split; [done|]. split; [done|]. intros mt pi E Hu. destruct (H4 mt pi E Hu) as (q & Ew & H5).
  exists q. split; [done|]. intros id P mask i b Hq Hm Hi Hb l m' He. destruct (H5 id P Hq) as [_ H6]. specialize (H6 mask i b Hm Hi Hb).
  assert (reachable T TO prog m1) as Hr1 by (by eapply reach_step).
  pose proof (stays_listed T prog m1 m' l id P _ Hr1 He H6) as Hl. split.
  - apply Hl. apply elem_of_app. right. left.
  - exact (strong_live T prog m1 m' l id P _ Hr1 (without_end_exec T _ _ _ _ _ He) Hl H6).
Qed.
Print Assumptions C100_live.

(** For a shared reference, moreover: until then every aligned load of its bytes outside of cells, through
    it or a pointer derived from it, succeeds and gives the bytes it gave at the beginning. *)
Theorem C100_readable T prog (m m1 : Machine TProv TFrame TMem) p :
  let TO := TreeOps T in
  target_ok T -> reachable T TO prog m -> steps_to T TO m m1 -> at_statement m (m_active m1) (SValidate p true) ->
  exists ptr ty w bs, place_means T (turn m (m_active m1)) p ptr true ty /\ encode T ty w = Ret bs /\ stores_at m1 (p_thin ptr) bs /\
    forall pi, ty = TPtr (PRef Immutable pi) -> exists q, w = VPtr q /\
      forall id P mask, tp_prov (p_thin q) = Some (id, P) ->
        freeze_mask (pi_cells pi) (pi_layout pi) (p_meta q) (vtable_lookup m) = Ret mask ->
        forall l m', without_end T TO (fun f => (id, P) ∈ f) m1 l m' ->
        forall r len al, derived r id P -> tp_addr r mod Z.of_N (align_bytes al) = 0 ->
          (forall x, TreeSpec.covers r len x -> exists i, x = tp_addr (p_thin q) + Z.of_nat i /\ mask !! i = Some true) ->
          exists bs mem mem', mo_load TO (cm_mem (m_mem m1)) r len al = Ret (bs, mem) /\ mo_load TO (cm_mem (m_mem m')) r len al = Ret (bs, mem').
Proof.
  intros TO Tok Hr Hs Ha. pose proof (model_retag T _ (mm_tree T)) as Hret.
  destruct (entry_retag T (tree_like T) Tok Hret m m1 p Hs Ha) as (ptr & ty & w & bs & H1 & H2 & H3 & H4).
  exists ptr, ty, w, bs. split; [done|]. split; [done|]. split; [done|]. intros pi E.
  destruct (H4 _ E) as (q & Ew & mem & g & old & mem6 & extra & st & Hc & (Eaddr & Emeta & _) & Hin & Hrun). apply mem_run_steps in Hrun.
  exists q. split; [done|]. intros id P mask Hq Hm l m' He r len al Hd Hal Hcov.
  assert (reachable T TO prog m1) as Hr1 by (by eapply reach_step). rewrite Emeta in Hm.
  destruct (decide (len = 0%N)) as [->|Hn].
  { destruct (zero_sized T TO (cm_mem (m_mem m1)) r al (tree_like T)) as [Hz _]. destruct (Hz Hal) as [-> _].
    destruct (zero_sized T TO (cm_mem (m_mem m')) r al (tree_like T)) as [Hz' _]. destruct (Hz' Hal) as [-> _]. eauto. }
  destruct (Hcov (tp_addr r)) as (i0 & _ & Hi0); [unfold TreeSpec.covers; lia|].
  assert (kept (cm_mem (m_mem m1)) id P (tp_addr (p_thin q) + Z.of_nat i0)) as Hk.
  { eapply kept_steps; [exact Hrun|by apply not_elem_of_nil|]. by eapply retag_kept. }
  apply (frozen_readable T prog m1 m' l id P (fun x => exists i, x = tp_addr (p_thin q) + Z.of_nat i /\ mask !! i = Some true)); try done.
  - by eapply without_end_exec.
  - by eapply stays_listed.
  - intros x (i & -> & Hi). destruct (retag_shared_frozen T _ _ _ _ _ _ _ _ _ _ _ _ Hc Hq Hm Hi) as (a & o & Ha' & Eo & Hfr).
    destruct (tb_steps_addr T _ _ _ _ _ Hrun Ha') as (a2 & Ha2 & E2 & _).
    exists a2, o. split; [done|]. rewrite E2. split; [done|]. eapply frozen_steps; [exact Hrun| |exact Hfr]. by apply not_elem_of_nil.
Qed.
Print Assumptions C100_readable.

(** So what a function has loaded through a reference it was passed need not be loaded again before it
    returns: through a shared reference outside of cells never, through a mutable one until something is
    stored through it. *)
Theorem C100_reload T prog (m m1 : Machine TProv TFrame TMem) p :
  let TO := TreeOps T in
  target_ok T -> reachable T TO prog m -> steps_to T TO m m1 -> at_statement m (m_active m1) (SValidate p true) ->
  exists ptr ty w bs, place_means T (turn m (m_active m1)) p ptr true ty /\ encode T ty w = Ret bs /\ stores_at m1 (p_thin ptr) bs /\
    forall mt pi, ty = TPtr (PRef mt pi) -> (mt = Mutable -> pi_unpin pi = true) -> exists q, w = VPtr q /\
      forall id P mask, tp_prov (p_thin q) = Some (id, P) ->
        freeze_mask (pi_cells pi) (pi_layout pi) (p_meta q) (vtable_lookup m) = Ret mask ->
        forall l1 m2 l2 ops m', without_end T TO (fun f => (id, P) ∈ f) m1 l1 m2 -> without_end T TO (fun f => (id, P) ∈ f) m2 l2 m' ->
          exec_ops T TO m2 l2 ops m' -> (mt = Mutable -> no_store_through id P ops) ->
        forall r Q t al at_ v k r' Q' al' at_' v' k', tp_prov r = Some (id, Q) -> tp_prov r' = Some (id, Q') -> tp_addr r' = tp_addr r ->
          (forall size x, size_of T t = Ret size -> TreeSpec.covers r size x ->
             exists i b, x = tp_addr (p_thin q) + Z.of_nat i /\ mask !! i = Some b /\ (mt = Immutable -> b = true)) ->
          typed_load T TO m2 r t al at_ = Ret (v, k) -> typed_load T TO m' r' t al' at_' = Ret (v', k') -> v' = v.
Proof.
  intros TO Tok Hr Hs Ha. pose proof (model_retag T _ (mm_tree T)) as Hret.
  destruct (entry_retag T (tree_like T) Tok Hret m m1 p Hs Ha) as (ptr & ty & w & bs & H1 & H2 & H3 & H4).
  exists ptr, ty, w, bs. split; [done|]. split; [done|]. split; [done|]. intros mt pi E Hu.
  destruct (H4 _ E) as (q & Ew & mem & g & old & mem6 & extra & st & Hc & (Eaddr & Emeta & _) & Hin & Hrun). apply mem_run_steps in Hrun.
  exists q. split; [done|]. intros id P mask Hq Hm l1 m2 l2 ops m' He1 He2 Hops Hno r Q t al at_ v k r' Q' al' at_' v' k' Hp Hp' Ea Hcov L1 L2.
  assert (reachable T TO prog m1) as Hr1 by (by eapply reach_step). rewrite Emeta in Hm.
  pose proof (reach_exec T prog _ _ _ Hr1 (without_end_exec T _ _ _ _ _ He1)) as Hr2.
  assert (forall i b, mask !! i = Some b -> (mt = Immutable -> b = true) -> kept (cm_mem (m_mem m1)) id P (tp_addr (p_thin q) + Z.of_nat i)) as Hk1.
  { intros i b Hi Hb. eapply kept_steps; [exact Hrun|by apply not_elem_of_nil|]. by eapply retag_kept. }
  destruct (size_of T t) as [sz| | |] eqn:Es; [|unfold typed_load in L1; by rewrite Es in L1..].
  destruct (decide (sz = 0%N)) as [->|Hn].
  { eapply (HistTree.reload T m2 m'); [exact L1|exact L2|exact Ea|]. intros sz' bs1 mem1 bs2 mem2 x Es' C1. rewrite Es in Es'. injection Es' as <-.
    exfalso. unfold TreeSpec.covers in C1. lia. }
  destruct (Hcov sz (tp_addr r) eq_refl) as (i0 & b0 & _ & Hi0 & Hb0); [unfold TreeSpec.covers; lia|].
  pose proof (stays_listed T prog m1 m2 l1 id P _ Hr1 He1 (Hk1 _ _ Hi0 Hb0)) as Hl1.
  destruct (exec_has_ops T TO _ _ _ (without_end_exec T _ _ _ _ _ He1)) as (ops1 & Ho1).
  pose proof (listed_only T prog m1 l1 m2 (id, P) ops1 Hr1 Ho1 Hl1) as Hrel1.
  pose proof (mem_run_steps T _ _ _ (exec_ops_run T TO _ _ _ _ Ho1)) as S1.
  pose proof (kept_steps T _ _ _ id P _ S1 Hrel1 (Hk1 _ _ Hi0 Hb0)) as Hk2.
  pose proof (stays_listed T prog m2 m' l2 id P _ Hr2 He2 Hk2) as Hl2.
  assert ((id, P) ∉ ([] : list TProv)) as Hnil by (by apply not_elem_of_nil). destruct mt.
  - eapply (C99_reload_mutable T prog m2 l2 ops m' id P r Q t); [exact Hr2|exact Hops|by apply Hno|exact Hl2| |done..].
    intros size x Es' Hx. rewrite Es in Es'. injection Es' as <-. destruct (Hcov sz x eq_refl Hx) as (i & b & -> & Hi & _).
    pose proof (retag_mut_used T _ _ _ _ _ _ _ _ _ _ _ _ _ Hc Hq (Hu eq_refl) Hm Hi) as Hx6.
    apply (addr_perm_invariant T mut_used _ _ _ id P _ mut_used_inv Hnil Hrun) in Hx6.
    exact (addr_perm_invariant T mut_used _ _ _ id P _ mut_used_inv Hrel1 S1 Hx6).
  - eapply (C99_reload_shared T prog m2 l2 m' id P r Q t); [exact Hr2|by eapply without_end_exec|exact Hl2| |done..].
    intros size x Es' Hx. rewrite Es in Es'. injection Es' as <-. destruct (Hcov sz x eq_refl Hx) as (i & b & -> & Hi & Hb). rewrite (Hb eq_refl) in Hi.
    destruct (retag_shared_frozen T _ _ _ _ _ _ _ _ _ _ _ _ Hc Hq Hm Hi) as (a & o & Ha' & Eo & Hfr).
    assert (exists y, addr_perm mem6 id P (tp_addr (p_thin q) + Z.of_nat i) = Some y /\ pfrozen y) as Hx6.
    { eexists. split; [by eapply frozen_addr_perm|done]. }
    apply (addr_perm_invariant T pfrozen _ _ _ id P _ pfrozen_inv Hnil Hrun) in Hx6.
    destruct (addr_perm_invariant T pfrozen _ _ _ id P _ pfrozen_inv Hrel1 S1 Hx6) as (y & Hy & ->). exact Hy.
Qed.
Print Assumptions C100_reload.

(** A reference that is not protected does not survive a store by somebody else: if during an execution a
    byte behind it, outside of cells, is stored to through a pointer not derived from it, then in all later
    states every access to the byte through the reference, or a pointer derived from it, is undefined
    behaviour. *)
Theorem C100_invalidated T prog (m : Machine TProv TFrame TMem) l ops1 w bytes al ops2 m' id P x u r :
  let TO := TreeOps T in
  reachable T TO prog m -> exec_ops T TO m l (ops1 ++ OpStore w bytes al :: ops2) m' ->
  addr_perm (cm_mem (m_mem m)) id P x = Some (Unprot u) -> u <> UCell -> u <> UReservedIm ->
  not_derived w id P -> TreeSpec.covers w (N.of_nat (length bytes)) x ->
  derived r id P ->
  (forall len al, TreeSpec.covers r len x -> is_ub (mo_load TO (cm_mem (m_mem m')) r len al)) /\
  (forall bytes al, TreeSpec.covers r (N.of_nat (length bytes)) x -> is_ub (mo_store TO (cm_mem (m_mem m')) r bytes al)).
Proof.
  intros TO Hr He Hu Hc Hi Hw Hcov Hd. subst TO. destruct (reach_hist _ _ _ _ Hr) as (ops & Ho). apply exec_ops_run in He.
  apply mem_run_split in He as (k & H1 & (k2 & Hst & H2)%mem_run_cons). cbn [mem_op] in Hst.
  set (I := fun p => exists u, p = Unprot u /\ u <> UCell /\ u <> UReservedIm).
  assert (exists p, addr_perm k id P x = Some p /\ I p) as (p & Hp & u' & -> & Hc' & Hi').
  { eapply (addr_perm_invariant_rel T I); [| |exact (mem_run_steps T _ _ _ H1)|].
    - intros p ak rel p' (v & -> & ? & ?) E. destruct ak, rel, v; cbn in E; try done; injection E as <-; unfold I; eauto.
    - intros p p' acc (v & -> & _) E. done.
    - exists (Unprot u). split; [exact Hu|]. by exists u. }
  pose proof (foreign_write_disables T _ _ _ _ _ _ _ _ _ Hp Hc' Hi' Hst Hw Hcov) as Hdis.
  assert (mem_run (TreeOps T) (mo_new (TreeOps T)) (ops ++ ops1 ++ [OpStore w bytes al]) = Ret k2) as Hk2.
  { unfold mem_run in *. rewrite fold_m_app, Ho. cbn [obind]. rewrite fold_m_app, H1. cbn [obind fold_m mem_op]. by rewrite Hst. }
  destruct (disabled_forever T _ _ _ _ _ _ _ _ r Hk2 Hdis (or_introl eq_refl) H2 Hd) as (_ & H). exact H.
Qed.
Print Assumptions C100_invalidated.

(** The program of [C99_hyps]: [f] retags its reference ([hi_t1]), makes storage for [y] ([hi_t2]), and
    assigns to it ([hi_t3]). Its call ends only after that, and its protector with it. *)
Example C100_hyps : exists m,
  target_ok x86_64 /\ reachable x86_64 (TreeOps x86_64) hi_prog m /\ steps_to x86_64 (TreeOps x86_64) m hi_t1 /\
  at_statement m (m_active hi_t1) (SValidate (PLocal 1) true) /\
  freeze_mask (CSized []) (LSized 4 (mkAlign 2)) None (vtable_lookup m) = Ret [true; true; true; true] /\
  without_end x86_64 (TreeOps x86_64) (fun f => (3%nat, [0%nat; 0%nat]) ∈ f) hi_t1 [hi_t1; hi_t2] hi_t3 /\
  ~ without_end x86_64 (TreeOps x86_64) (fun f => (3%nat, [0%nat; 0%nat]) ∈ f) hi_t3 [hi_t3] hi_t4.
Proof.
  destruct C99_entry_hyps as (m & H1 & H2 & H3 & H4). exists m. split; [exact x86_64_ok|]. do 4 (split; [done|]). split.
  - econstructor; [exists [ChThread 0; ChAddr 48]; instantiate (1 := hi_t2); vm_compute; reflexivity| |].
    { intros fr x (t & r & b & E1 & E2 & E3 & E4) [-> | ->]; vm_compute in E1; injection E1 as <-; injection E2 as <- <-;
        vm_compute in E3; injection E3 as <-; vm_compute in E4; by destruct E4. }
    econstructor; [exists [ChThread 0]; instantiate (1 := hi_t3); vm_compute; reflexivity| |constructor].
    intros fr x (t & r & b & E1 & E2 & E3 & E4) [-> | ->]; vm_compute in E1; injection E1 as <-; injection E2 as <- <-;
      vm_compute in E3; injection E3 as <-; vm_compute in E4; by destruct E4.
  - intros He. inversion He as [|? m1 ? ? Hs Hn He1]; subst. inversion He1; subst.
    assert (exists fr, about_to hi_t3 (m_active hi_t4) fr (inr TmReturn) /\ f_extra fr = [(3%nat, [0%nat; 0%nat])]) as (fr & Hab & E).
    { eexists. split; [eexists _, _, _; split; [reflexivity|]; split; [reflexivity|]; split; [reflexivity|]; done|reflexivity]. }
    apply (Hn fr _ Hab); [by left|]. rewrite E. left.
Qed.

(** fn start() { { let x: u32; } let x: u32; exit() } *)
Definition lv_prog : Program :=
  mkProgram [(0%N, main [(0%N, unit_ty); (1%N, TInt u32_t)]
    [(0%N, blk [SStorageLive 1; SStorageDead 1; SStorageLive 1; SAssign (PLocal 1) (u32_e 5)] (TmIntrinsic InExit [] (PLocal 0) None))])] 0%N [] [] [].
Definition lv_t0 : MachT := Eval vm_compute in fst (out (m_dummyT, []) (machine_new x86_64 (TreeOps x86_64) lv_prog [ChAddr 1; ChAddr 8])).
Definition lv_t1 : MachT := Eval vm_compute in hi_at [[ChThread 0; ChAddr 16]; [ChThread 0]] lv_t0.
Definition lv_t2 : MachT := Eval vm_compute in hi_at [[ChThread 0; ChAddr 16]] lv_t1.
Example C100_dead_hyps :
  let TO := TreeOps x86_64 in
  reachable x86_64 TO lv_prog lv_t1 /\ execution x86_64 TO lv_t1 [lv_t1] lv_t2 /\
  exists id a a', cm_mem (m_mem lv_t1) !! id = Some a /\ al_live a = false /\
    cm_mem (m_mem lv_t2) !! S id = Some a' /\ al_live a' = true /\ al_addr a' = al_addr a.
Proof.
  split; [|split].
  - eapply run_reachable; [constructor; exists [ChAddr 1; ChAddr 8], []; instantiate (1 := lv_t0); vm_compute; reflexivity|].
    instantiate (1 := [[ChThread 0; ChAddr 16]; [ChThread 0]]). vm_compute. reflexivity.
  - econstructor; [|constructor]. exists [ChThread 0; ChAddr 16]. vm_compute. reflexivity.
  - exists 2%nat. do 2 eexists. split; [vm_compute; reflexivity|]. split; [reflexivity|]. split; [vm_compute; reflexivity|]. done.
Qed.

(** The program of [C99_hyps_mutable]: [f] retags its mutable reference, stores through it ([hj_t1]), and
    makes storage for [y] ([hj_t2]). *)
Example C100_reload_hyps : exists m m1,
  let TO := TreeOps x86_64 in
  let pr := (3%nat, [0%nat; 0%nat]) in
  reachable x86_64 TO hj_prog m /\ steps_to x86_64 TO m m1 /\ at_statement m (m_active m1) (SValidate (PLocal 1) true) /\
  freeze_mask (CSized []) (LSized 4 (mkAlign 2)) None (vtable_lookup m) = Ret [true; true; true; true] /\
  without_end x86_64 TO (fun f => pr ∈ f) m1 [m1] hj_t1 /\ without_end x86_64 TO (fun f => pr ∈ f) hj_t1 [hj_t1] hj_t2 /\
  (exists ops, exec_ops x86_64 TO hj_t1 [hj_t1] ops hj_t2 /\ no_store_through 3 [0%nat; 0%nat] ops) /\
  (exists k k', typed_load x86_64 TO hj_t1 (mkThin 16 (Some pr)) (TInt u32_t) (mkAlign 2) NonAtomic = Ret (VInt 7, k) /\
     typed_load x86_64 TO hj_t2 (mkThin 16 (Some pr)) (TInt u32_t) (mkAlign 2) NonAtomic = Ret (VInt 7, k')).
Proof.
  destruct C99_hyps_mutable as (_ & _ & Hex & Hno & _ & _ & _ & _ & Hld).
  exists (hi_at (take 3 hi_cs) hj_t0), (hi_at hi_cs hj_t0). split; [|split; [|split; [|split; [|split; [|split; [|split; [by eexists|exact Hld]]]]]]].
  - eapply run_reachable; [constructor; exists hi_new, []; instantiate (1 := hj_t0); vm_compute; reflexivity|].
    instantiate (1 := take 3 hi_cs). vm_compute. reflexivity.
  - exists [ChThread 0]. vm_compute. reflexivity.
  - vm_compute. eauto 20.
  - vm_compute. reflexivity.
  - econstructor; [exists [ChThread 0]; instantiate (1 := hj_t1); vm_compute; reflexivity| |constructor].
    intros fr x (t & r & b & E1 & E2 & E3 & E4) [-> | ->]; vm_compute in E1; injection E1 as <-; injection E2 as <- <-;
      vm_compute in E3; injection E3 as <-; vm_compute in E4; by destruct E4.
  - econstructor; [exists [ChThread 0; ChAddr 48]; instantiate (1 := hj_t2); vm_compute; reflexivity| |constructor].
    intros fr x (t & r & b & E1 & E2 & E3 & E4) [-> | ->]; vm_compute in E1; injection E1 as <-; injection E2 as <- <-;
      vm_compute in E3; injection E3 as <-; vm_compute in E4; by destruct E4.
Qed.

(** fn start() { let x = 5; let r = &mut x; x = 6; ... }: the assignment to [x] invalidates [r]. *)
Definition iv_t4 : MachT := Eval vm_compute in out m_dummyT (run x86_64 (TreeOps x86_64) (take 4 al_cs) al_t0).
Example C100_invalidated_hyps :
  let TO := TreeOps x86_64 in
  reachable x86_64 TO al_prog iv_t4 /\
  (exists bytes, exec_ops x86_64 TO iv_t4 [iv_t4] ([] ++ OpStore (mkThin 16 (Some (2%nat, []))) bytes align_one :: []) al_t /\
     TreeSpec.covers (mkThin 16 (Some (2%nat, [] : list nat))) (N.of_nat (length bytes)) 16) /\
  addr_perm (cm_mem (m_mem iv_t4)) 2 [0%nat] 16 = Some (Unprot UReserved) /\
  not_derived (mkThin 16 (Some (2%nat, []))) 2 [0%nat] /\ derived (mkThin 16 (Some (2%nat, [0%nat]))) 2 [0%nat].
Proof.
  split; [|split; [|split; [vm_compute; reflexivity|split]]].
  - eapply run_reachable; [constructor; exists al_new, []; instantiate (1 := al_t0); vm_compute; reflexivity|].
    instantiate (1 := take 4 al_cs). vm_compute. reflexivity.
  - exists [Init x06 None; Init x00 None; Init x00 None; Init x00 None]. split; [|unfold TreeSpec.covers; cbn; lia].
    eapply (eo_cons _ _ _ al_t [] _ _ (inl (SAssign (PLocal 1) (u32_e 6))) [_] []); [exists [ChThread 0]; vm_compute; reflexivity| | | |constructor].
    + eexists _, _, _. split; [reflexivity|]. split; [reflexivity|]. split; reflexivity.
    + vm_compute. reflexivity.
    + intros op Hop. apply elem_of_list_singleton in Hop as ->. cbn. eauto 10.
  - exists []. split; [done|]. by intros ?%prefix_nil_inv.
  - exists [0%nat]. done.
Qed.
