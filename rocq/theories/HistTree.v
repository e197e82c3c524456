(** Proofs: protected references in executions of programs. *)
From Verif Require Export HistProofs FrameHist AliasProofs TreeFrames.
From stdpp Require Import relations.
From Coq Require Import ZifyBool ZifyN ZifyNat.
Local Open Scope Z_scope.

Section Any.
  Context {P F M : Type} `{EqDecision P}.
  Variable T : Target.
  Variable MO : MemOps P F M.
  Notation Mach := (Machine P F M).

  Lemma exec_has_ops (m m' : Mach) l : execution T MO m l m' -> exists ops, exec_ops T MO m l ops m'.
  Proof.
    induction 1 as [m|m l m1 m2 [cs Hs] _ (ops & IH)]; [exists []; constructor|].
    pose proof Hs as (fr & x & Ha & ops1 & Hr & Ho)%step_hist. exists (ops1 ++ ops). econstructor; try done. by exists cs.
  Qed.
  Lemma exec_ops_exec (m m' : Mach) l ops : exec_ops T MO m l ops m' -> execution T MO m l m'.
  Proof. induction 1; econstructor; eauto. Qed.
  Lemma exec_ops_run (m m' : Mach) l ops : exec_ops T MO m l ops m' -> mem_run MO (cm_mem (m_mem m)) ops = Ret (cm_mem (m_mem m')).
  Proof. induction 1 as [m|m m1 l m' fr x ops1 ops _ _ Hr _ _ IH]; [done|]. unfold mem_run in *. by rewrite fold_m_app, Hr. Qed.
  Lemma reach_hist prog (m : Mach) : reachable T MO prog m ->
    exists ops, mem_run MO (mo_new MO) ops = Ret (cm_mem (m_mem m)).
  Proof.
    intros Hr. assert (hist MO (fun _ => True) (cm_new MO) (m_mem m)) as (ops & Ho & _); [|by exists ops].
    induction Hr as [m Hs|m m' Hr IH [cs Hs]].
    - eapply hist_mono; [|by eapply start_hist]. done.
    - eapply hist_trans; [exact IH|]. apply step_hist in Hs as (fr & x & _ & Hh). by eapply hist_mono; [|exact Hh].
  Qed.
End Any.

Section Tree.
  Variable T : Target.
  Notation TO := (TreeOps T).

  Definition pfrozen (p : Perm) : Prop := p = Prot (PFrozen true).
  Lemma pfrozen_inv p ak rel p' : pfrozen p -> perm_transition p ak rel = Ret p' -> pfrozen p'.
  Proof. intros ->. destruct ak, rel; simpl; intros H; try done; by injection H as <-. Qed.
  Lemma frozen_untouched m id P x ops m' :
    tb_len m -> addr_perm m id P x = Some (Prot (PFrozen true)) -> mem_run TO m ops = Ret m' -> (id, P) ∉ released ops ->
    untouched id x ops.
  Proof.
    intros Hlen Hu Hr HR l1 w bytes al l2 Q -> Hw Hc.
    apply mem_run_split in Hr as (m1 & H1 & (m2 & Hst & _)%mem_run_cons). rewrite released_app in HR.
    assert (~ (id, P) ∈ released l1) as Hn1 by set_solver.
    pose proof (mem_run_steps T _ _ _ H1) as S1.
    destruct (addr_perm_invariant T pfrozen _ _ _ id P x pfrozen_inv Hn1 S1 (ex_intro _ _ (conj Hu eq_refl))) as (p & Hp & ->).
    eapply ub_ret; [|exact Hst]. eapply tb_store_ub; [by eapply tb_steps_len|exact Hw|exact Hp|done|].
    destruct (rel_at _ _); by eexists.
  Qed.
  Lemma not_released_all pr (ops : list (MemOp TProv TFrame)) : (forall f, OpEndCall f ∈ ops -> pr ∉ f) -> pr ∉ released ops.
  Proof.
    intros H. unfold released. intros (l & Hp & Hl)%elem_of_list_In%in_concat.
    apply in_map_iff in Hp as (op & <- & Hop). destruct op; try done. apply (H f); by apply elem_of_list_In.
  Qed.

  (** bytes loaded from a memory with a history *)
  Lemma load_hist ops m r len al bs m' id Q x : mem_run TO (mo_new TO) ops = Ret m -> mo_load TO m r len al = Ret (bs, m') ->
    tp_prov r = Some (id, Q) -> covers r len x -> loaded r bs x = Some (last_store ops id x Uninit).
  Proof.
    intros Hr Hl Hp Hc. unfold covers in Hc.
    pose proof (load_last_store T TO m m' ops r id Q len al bs (Z.to_nat (x - tp_addr r)) (tree_like T) Hr Hl Hp ltac:(lia)) as E.
    replace (tp_addr r + Z.of_nat (Z.to_nat (x - tp_addr r))) with x in E by lia. unfold loaded. rewrite byte_at_in; [done|].
    apply lookup_lt_Some in E. lia.
  Qed.

  Lemma load_len m r len al bs m' : mo_load TO m r len al = Ret (bs, m') -> N.of_nat (length bs) = len.
  Proof.
    intros L. cbn in L. apply bm_load_ret in L as (_ & [(-> & -> & _)|(_ & ? & ? & ? & ? & ? & _ & _ & _ & _ & _ & _ & Hs & _)]);
      first [done|exact (subslice_length _ _ _ _ Hs)].
  Qed.
  (** what is loaded at a type follows from the bytes *)
  Lemma reload (m m' : Machine TProv TFrame TMem) ptr ty al at_ v m1 ptr' al' at_' v' m1' :
    typed_load T TO m ptr ty al at_ = Ret (v, m1) -> typed_load T TO m' ptr' ty al' at_' = Ret (v', m1') -> tp_addr ptr' = tp_addr ptr ->
    (forall sz bs1 mem1 bs2 mem2 x, size_of T ty = Ret sz -> covers ptr sz x -> covers ptr' sz x ->
       mo_load TO (cm_mem (m_mem m)) ptr sz al = Ret (bs1, mem1) -> mo_load TO (cm_mem (m_mem m')) ptr' sz al' = Ret (bs2, mem2) ->
       loaded ptr bs1 x = loaded ptr' bs2 x) -> v' = v.
  Proof.
    unfold typed_load. intros E1 E2 Ea Hb. apply obind_ret in E1 as (sz & Hs & E1). rewrite Hs in E2. cbn in E2.
    apply obind_ret in E1 as ([bs1 c1] & H1 & E1). apply obind_ret in E2 as ([bs2 c2] & H2 & E2).
    unfold cm_load in H1, H2. apply obind_ret in H1 as ([b1 mem1] & H1 & [= -> _]). apply obind_ret in H2 as ([b2 mem2] & H2 & [= -> _]).
    cbn [cm_mem cm_push] in H1, H2. pose proof (load_len _ _ _ _ _ _ H1) as N1. pose proof (load_len _ _ _ _ _ _ H2) as N2.
    assert (bs1 = bs2) as ->.
    { apply list_eq. intros j. destruct (decide (j < length bs1)%nat) as [Hj|Hj]; [|rewrite !lookup_ge_None_2 by lia; done].
      specialize (Hb sz bs1 mem1 bs2 mem2 (tp_addr ptr + Z.of_nat j) Hs). unfold covers, loaded in Hb. rewrite Ea in Hb.
      rewrite !byte_at_in in Hb by lia. replace (Z.to_nat (tp_addr ptr + Z.of_nat j - tp_addr ptr)) with j in Hb by lia. apply Hb; try done; lia. }
    apply obind_ret in E1 as (o & Hd & E1). rewrite Hd in E2. cbn in E2. destruct o as [w|]; [|done].
    apply obind_ret in E1 as (? & _ & [= <- _]). apply obind_ret in E2 as (? & _ & [= <- _]). done.
  Qed.

  (** ** The calls of the machine are the calls of the memory model *)

  Definition calls_J (m : TMem) (L : list TFrame) : Prop :=
    exists ops fs, call_run T (mo_new TO, []) ops = Ret (m, fs) /\ fs ≡ₚ L.
  Lemma call_run_snoc s ops op s' : call_run T s ops = Ret s' -> call_run T s (ops ++ [op]) = call_op T s' op.
  Proof. unfold call_run. rewrite fold_m_app. intros ->. cbn. by destruct (call_op T s' op). Qed.
  Lemma perm_at {A} (fs : list A) f L : fs ≡ₚ f :: L -> exists i, fs !! i = Some f /\ delete i fs ≡ₚ L /\ forall g, <[i := g]> fs ≡ₚ g :: L.
  Proof.
    intros HP. assert (f ∈ fs) as Hin by (rewrite HP; left). apply elem_of_list_lookup in Hin as (i & Hi).
    assert (delete i fs ≡ₚ L) as Hd.
    { apply (Permutation_cons_inv (a := f)). rewrite <-HP. symmetry. by apply delete_Permutation. }
    exists i. split; [done|]. split; [done|]. intros g. rewrite (delete_Permutation (<[i := g]> fs) i g).
    - constructor. rewrite <-Hd. rewrite !delete_take_drop, take_insert, drop_insert_gt by lia. done.
    - apply list_lookup_insert. by eapply lookup_lt_Some.
  Qed.
  Lemma calls_perm m L L' : L ≡ₚ L' -> calls_J m L -> calls_J m L'.
  Proof. intros HP (ops & fs & H & E). exists ops, fs. split; [done|]. by rewrite E. Qed.
  Lemma calls_call m L : calls_J m L -> calls_J m (mo_new_call TO :: L).
  Proof.
    intros (ops & fs & H & E). exists (ops ++ [CCall]), (fs ++ [mo_new_call TO]). split.
    - rewrite (call_run_snoc _ _ _ _ H). done.
    - rewrite E. symmetry. apply Permutation_cons_append.
  Qed.
  Lemma calls_plain m L op m' : plain op -> mem_op TO m op = Ret m' -> calls_J m L -> calls_J m' L.
  Proof.
    intros Hp Hop (ops & fs & H & E). exists (ops ++ [CMem op]), fs. split; [|done].
    rewrite (call_run_snoc _ _ _ _ H). cbn [call_op]. replace (plain_op op) with true by (by destruct op). by rewrite Hop.
  Qed.
  Lemma calls_retag m f L ptr pt fe lk p m' f' : mo_retag TO m f ptr pt fe lk = Ret (p, m', f') -> calls_J m (f :: L) -> calls_J m' (f' :: L).
  Proof.
    intros Hr (ops & fs & H & E). destruct (perm_at _ _ _ E) as (i & Hi & _ & Hg).
    exists (ops ++ [CRetag i ptr pt fe lk]), (<[i := f']> fs). split; [|by apply Hg].
    rewrite (call_run_snoc _ _ _ _ H). cbn [call_op]. rewrite Hi, Hr. done.
  Qed.
  Lemma calls_end m f L m' : mo_end_call TO m f = Ret m' -> calls_J m (f :: L) -> calls_J m' L.
  Proof.
    intros Hr (ops & fs & H & E). destruct (perm_at _ _ _ E) as (i & Hi & Hd & _).
    exists (ops ++ [CEnd i]), (delete i fs). split; [|done].
    rewrite (call_run_snoc _ _ _ _ H). cbn [call_op]. rewrite Hi, Hr. done.
  Qed.
  Lemma calls_new : calls_J (mo_new TO) [].
  Proof. by exists [], []. Qed.
  Lemma calls_reach prog (m : Machine TProv TFrame TMem) : reachable T TO prog m -> calls_J (cm_mem (m_mem m)) (call_data m).
  Proof. apply (kreach T TO calls_J calls_perm calls_call calls_plain calls_retag calls_end calls_new). Qed.

  Lemma reach_exec prog m l m' : reachable T TO prog m -> execution T TO m l m' -> reachable T TO prog m'.
  Proof. intros Hr He. induction He; [done|]. apply IHHe. by eapply reach_step. Qed.
  Lemma concat_perm' {A} (L L' : list (list A)) : L ≡ₚ L' -> concat L ≡ₚ concat L'.
  Proof.
    induction 1 as [|x l l' _ IH|x y l|l l' l'' _ IH _ IH']; cbn; [done|by rewrite IH|by rewrite !app_assoc, (Permutation_app_comm x y)|by etrans].
  Qed.
  (** while a call lists a protector, none that lists it ends *)
  Lemma listed_only prog m l m' pr ops : reachable T TO prog m -> exec_ops T TO m l ops m' ->
    (forall s, s ∈ l ++ [m'] -> exists f, f ∈ call_data s /\ pr ∈ f) -> pr ∉ released ops.
  Proof.
    intros Hr He Hl. apply not_released_all. revert Hl. induction He as [m|m m1 l m' fr x ops1 ops Hs Hab Hrun Hop He IH]; intros Hl f Hin.
    { by apply not_elem_of_nil in Hin. }
    apply elem_of_app in Hin as [Hin|Hin].
    2: { apply IH; [by eapply reach_step| |done]. intros s Hs'. apply Hl. cbn. by right. }
    intros Hpr. apply Hop in Hin as [Hx ->].
    assert (exists f, f ∈ call_data m1 /\ pr ∈ f) as (g & Hg & Hpg).
    { inversion He; subst; apply Hl; cbn; right; left. }
    destruct (calls_reach _ _ Hr) as (cops & fs & Hc & E). apply call_run_inv in Hc as [Hnd _]. destruct Hs as [cs Hs].
    pose proof (kstep T TO calls_J calls_perm calls_call calls_plain calls_retag calls_end cs m m1 Hs) as [_ Hk].
    specialize (Hk fr x Hab Hx). rewrite Hk in E.
    assert (NoDup (f_extra fr ++ concat (call_data m1))) as Hnd'.
    { change (NoDup (concat (f_extra fr :: call_data m1))). rewrite <-(concat_perm' _ _ E). exact Hnd. }
    apply NoDup_app in Hnd' as (_ & Hnd' & _). apply (Hnd' pr Hpr). apply elem_of_list_In, in_concat. exists g. by rewrite <-!elem_of_list_In.
  Qed.
End Tree.
