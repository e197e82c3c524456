(** Proofs: the bytes behind a protected reference stay. *)
From Verif Require Export AliasSpec ExTree TreeSwap.
From stdpp Require Import relations.
From Coq Require Import ZifyBool ZifyN ZifyNat.
Local Open Scope Z_scope.

Lemma byte_at_some {P} a (bs : list (AByte P)) x b : byte_at a bs x = Some b -> a <= x < a + Z.of_nat (length bs) /\ bs !! Z.to_nat (x - a) = Some b.
Proof. unfold byte_at. destruct ((a <=? x) && (x <? a + Z.of_nat (length bs))) eqn:E; [|done]. intros H. split; [lia|done]. Qed.
Lemma byte_at_in {P} a (bs : list (AByte P)) x : a <= x < a + Z.of_nat (length bs) -> byte_at a bs x = bs !! Z.to_nat (x - a).
Proof. intros H. unfold byte_at. destruct ((a <=? x) && (x <? a + Z.of_nat (length bs))) eqn:E; [done|lia]. Qed.

Section Alias.
  Variable T : Target.
  Notation TO := (TreeOps T).

  Lemma last_store_app ops1 ops2 id x (cur : AByte TProv) :
    last_store (F := TFrame) (ops1 ++ ops2) id x cur = last_store ops2 id x (last_store ops1 id x cur).
  Proof. revert cur. induction ops1 as [|[] ops1 IH]; intros cur; cbn; auto. Qed.

  (** no store of that history changes the byte *)
  Definition untouched id x (ops : list (MemOp TProv TFrame)) : Prop :=
    forall l1 w bytes al l2 Q, ops = l1 ++ OpStore w bytes al :: l2 -> tp_prov w = Some (id, Q) -> ~ covers w (N.of_nat (length bytes)) x.
  Lemma last_store_same ops id x cur : untouched id x ops -> last_store ops id x cur = cur.
  Proof.
    revert cur. induction ops as [|op ops IH]; intros cur H; [done|].
    assert (untouched id x ops) as H' by (intros l1 w bytes al l2 Q ->; by apply (H (op :: l1) w bytes al l2)).
    destruct op as [| |w bytes al| | |]; cbn; try (by apply IH). rewrite IH by done.
    destruct (tp_prov w) as [[id' Q]|] eqn:Ep; [|done]. destruct (Nat.eqb_spec id' id) as [->|]; [|done].
    destruct (byte_at _ _ _) as [b|] eqn:Eb; [|done]. exfalso. apply byte_at_some in Eb as [Hb _].
    apply (H [] w bytes al ops Q); [done|done|]. unfold covers. lia.
  Qed.

  Lemma mem_run_app m ops1 ops2 m1 : mem_run TO m ops1 = Ret m1 -> mem_run TO m (ops1 ++ ops2) = mem_run TO m1 ops2.
  Proof. unfold mem_run. rewrite fold_m_app. by intros ->. Qed.
  Lemma mem_run_split m ops1 ops2 m2 : mem_run TO m (ops1 ++ ops2) = Ret m2 -> exists m1, mem_run TO m ops1 = Ret m1 /\ mem_run TO m1 ops2 = Ret m2.
  Proof. unfold mem_run. rewrite fold_m_app. intros (m1 & H1 & H2)%obind_ret. eauto. Qed.
  Lemma mem_run_cons m op ops m2 : mem_run TO m (op :: ops) = Ret m2 -> exists m1, mem_op TO m op = Ret m1 /\ mem_run TO m1 ops = Ret m2.
  Proof. unfold mem_run. cbn. intros (m1 & H1 & H2)%obind_ret. eauto. Qed.
  Lemma released_app (ops1 ops2 : list (MemOp TProv TFrame)) : released (ops1 ++ ops2) = released ops1 ++ released ops2.
  Proof. unfold released. by rewrite List.map_app, concat_app. Qed.
  Lemma not_released_load pr (ops1 ops2 : list (MemOp TProv TFrame)) r len al :
    pr ∉ released ops1 -> pr ∉ released ops2 -> pr ∉ released (ops1 ++ OpLoad r len al :: ops2).
  Proof. intros H1 H2. rewrite released_app. by apply not_elem_of_app. Qed.
  Lemma ub_ret {A} (o : Outcome A) a : is_ub o -> o = Ret a -> False.
  Proof. intros (s & ->). done. Qed.

  (** what is loaded at the end of a history, of which the second part does not touch the byte *)
  Lemma load_stays ops1 m1 ops2 m2 r1 len1 al1 bs1 m1' r2 len2 al2 bs2 m2' id Q1 Q2 x :
    mem_run TO (mo_new TO) ops1 = Ret m1 -> mo_load TO m1 r1 len1 al1 = Ret (bs1, m1') -> mem_run TO m1' ops2 = Ret m2 ->
    mo_load TO m2 r2 len2 al2 = Ret (bs2, m2') -> tp_prov r1 = Some (id, Q1) -> tp_prov r2 = Some (id, Q2) ->
    covers r1 len1 x -> covers r2 len2 x -> untouched id x ops2 -> loaded r1 bs1 x = loaded r2 bs2 x.
  Proof.
    intros H1 L1 H2 L2 P1 P2 C1 C2 U.
    assert (forall r len al bs m m' ops Q, mem_run TO (mo_new TO) ops = Ret m -> mo_load TO m r len al = Ret (bs, m') -> tp_prov r = Some (id, Q) ->
      covers r len x -> loaded r bs x = Some (last_store ops id x Uninit)) as K.
    { intros r len al bs m m' ops Q Hr Hl Hp Hc. unfold covers in Hc.
      pose proof (load_last_store T TO m m' ops r id Q len al bs (Z.to_nat (x - tp_addr r)) (tree_like T) Hr Hl Hp ltac:(lia)) as E.
      replace (tp_addr r + Z.of_nat (Z.to_nat (x - tp_addr r))) with x in E by lia. unfold loaded. rewrite byte_at_in; [done|].
      apply lookup_lt_Some in E. lia. }
    rewrite (K _ _ _ _ _ _ _ _ H1 L1 P1 C1).
    assert (mem_run TO (mo_new TO) (ops1 ++ OpLoad r1 len1 al1 :: ops2) = Ret m2) as H.
    { rewrite (mem_run_app _ _ _ _ H1). unfold mem_run. cbn. cbn in L1. rewrite L1. exact H2. }
    rewrite (K _ _ _ _ _ _ _ _ H L2 P2 C2), last_store_app. cbn. by rewrite (last_store_same ops2).
  Qed.

  (** ** Shared references *)
  Lemma shared_untouched ops0 m0 f ptr pi lk p m1 f1 id P mask ops1 m2 i :
    mem_run TO (mo_new TO) ops0 = Ret m0 ->
    mo_retag TO m0 f ptr (PRef Immutable pi) true lk = Ret (p, m1, f1) ->
    tp_prov (p_thin p) = Some (id, P) ->
    freeze_mask (pi_cells pi) (pi_layout pi) (p_meta ptr) lk = Ret mask ->
    mem_run TO m1 ops1 = Ret m2 -> (id, P) ∉ released ops1 -> mask !! i = Some true ->
    untouched id (tp_addr (p_thin p) + Z.of_nat i) ops1.
  Proof.
    intros H0 Hret Hp Hm H1 HR Hi l1 w bytes al l2 Q -> Hw Hc.
    apply mem_run_split in H1 as (m' & H1 & (m'' & Hst & _)%mem_run_cons).
    rewrite released_app in HR.
    destruct (shared_immutable T _ _ _ _ _ _ _ _ _ _ _ _ _ _ H0 Hret Hp Hm H1 ltac:(set_solver)) as [Hs _].
    eapply ub_ret; [by eapply (Hs i w Q bytes al)|exact Hst].
  Qed.

  (** ** Mutable references *)

  (** the byte was accessed through the reference *)
  Definition used (p : Perm) : Prop := match p with Prot (PReserved true _) | Prot PUnique => True | _ => False end.
  Lemma used_inv p ak rel p' : used p -> perm_transition p ak rel = Ret p' -> used p'.
  Proof. destruct p as [[]|[|[] []| |[]|]], ak, rel; simpl; intros Hm H; try done; injection H as <-; done. Qed.

  Lemma retag_mut_perm ops0 m0 f ptr pt lk p m1 f1 id P ops1 m2 a x o :
    mem_run TO (mo_new TO) ops0 = Ret m0 -> mut_like pt -> mo_retag TO m0 f ptr pt true lk = Ret (p, m1, f1) ->
    tp_prov (p_thin p) = Some (id, P) -> mem_run TO m1 ops1 = Ret m2 -> (id, P) ∉ released ops1 ->
    m2 !! id = Some a -> x = al_addr a + Z.of_nat o -> (o < length (al_data a))%nat ->
    tb_len m2 /\ exists q, addr_perm m2 id P x = Some q /\ mut_perm q.
  Proof.
    intros H0 Hm Hret Hp H1 HR1 Ha Hx Ho.
    destruct (tb_retag_settings _ _ _ _ _ _ _ _ Hret) as [os Hs].
    destruct (settings_mut_some _ _ _ _ Hm Hs) as [s ->].
    destruct (retag_alloc _ _ _ _ _ _ _ _ _ _ _ _ _ Hret Hs Hp) as [a0 Ha0].
    pose proof (tb_retag_steps T (fun _ => False) _ _ _ _ _ _ _ _ _ Hret) as S0.
    pose proof (mem_run_steps T _ _ _ H1) as S1.
    destruct (tb_steps_addr T _ _ _ _ _ S0 Ha0) as (a1 & Ha1 & E1 & L1 & _).
    destruct (tb_steps_addr T _ _ _ _ _ S1 Ha1) as (a2 & Ha2 & E2 & L2 & _).
    rewrite Ha2 in Ha. injection Ha as <-.
    destruct (retag_mut T _ _ _ _ _ _ _ _ _ _ _ Hm Hret Hp Ha0 o) as (p1 & Hp1 & Hmp1); [lia|].
    destruct (perm_invariant T mut_perm _ _ _ id P o mut_perm_inv HR1 S1) as (p2 & Hp2 & Hmp2); [eauto|].
    split.
    - eapply tb_steps_len; [exact S1|]. eapply tb_steps_len; [exact S0|]. by eapply tb_len_run.
    - exists p2. split; [|done]. apply addr_perm_some. exists a2, o. done.
  Qed.

  Lemma used_untouched m id P x ops m' :
    tb_len m -> (exists p, addr_perm m id P x = Some p /\ used p) -> mem_run TO m ops = Ret m' -> (id, P) ∉ released ops ->
    no_store_through id P ops -> untouched id x ops.
  Proof.
    intros Hlen Hu Hr HR Hn l1 w bytes al l2 Q -> Hw Hc.
    apply mem_run_split in Hr as (m1 & H1 & (m2 & Hst & _)%mem_run_cons). rewrite released_app in HR.
    assert (~ (id, P) ∈ released l1) as Hn1 by set_solver.
    pose proof (mem_run_steps T _ _ _ H1) as S1.
    destruct (addr_perm_invariant T used _ _ _ id P x used_inv Hn1 S1 Hu) as (p & Hp & Hup).
    assert (~ P `prefix_of` Q) as Hnp.
    { intros Hpre. apply (Hn w bytes al); [apply elem_of_app; right; left|]. by exists Q. }
    eapply ub_ret; [|exact Hst]. eapply tb_store_ub; [by eapply tb_steps_len|exact Hw|exact Hp|done|].
    rewrite rel_foreign by done. destruct p as [[]|[|[] []| |[]|]]; try done; by eexists.
  Qed.
End Alias.
