(** Every step of the machine is a step of the scheduler's specification. *)
From Verif Require Export MachSpec CtlStep.

Section Sched.
  Context {P F M : Type} `{EqDecision P}.
  Variable T : Target.
  Variable MO : MemOps P F M.
  Notation Mach := (Machine P F M).
  Notation C := (Ctl P).

  Lemma state_of_ctl (m : Mach) i : state_of m i = option_map tc_state (c_threads (ctl m) !! i).
  Proof. rewrite ctl_thread. unfold state_of. by destruct (m_threads m !! i). Qed.
  Lemma c_in_state (m : Mach) s i : c_in (ctl m) s i <-> state_of m i = Some s.
  Proof.
    rewrite state_of_ctl. unfold c_in. destruct (c_threads (ctl m) !! i) as [t|]; cbn.
    - split; [by intros (? & [= <-] & <-)|intros [= <-]; eauto].
    - split; [by intros (? & ? & _)|done].
  Qed.
  Lemma threads_len (m : Mach) : length (c_threads (ctl m)) = length (m_threads m).
  Proof. apply map_length. Qed.

  (** the position of the thread that a control step runs *)
  Lemma c_top_frame (m : Mach) a t f r : c_top (c_with_active (ctl m) a) t f r ->
    exists t0 f0 r0, m_threads m !! a = Some t0 /\ t_stack t0 = f0 :: r0 /\ tctl t0 = t /\ fctl f0 = f /\
      List.map fctl r0 = r.
  Proof.
    intros [Ht Hs]. change (c_threads (ctl m) !! a = Some t) in Ht. rewrite ctl_thread in Ht.
    destruct (m_threads m !! a) as [t0|] eqn:E; [|done]. injection Ht as <-.
    cbn in Hs. destruct (t_stack t0) as [|f0 r0] eqn:Es; [done|]. cbn in Hs. injection Hs as <- <-.
    exists t0, f0, r0. done.
  Qed.
  Lemma c_top_in_block (m : Mach) a t f r b :
    c_top (c_with_active (ctl m) a) t f r -> map_get (fn_blocks (fc_func f)) (fc_block f) = Some b ->
    exists f0, in_block m a f0 b /\ fctl f0 = f.
  Proof.
    intros Ht Hb. apply c_top_frame in Ht as (t0 & f0 & r0 & H1 & H2 & H3 & <- & H5).
    exists f0. split; [|done]. by exists t0, r0.
  Qed.

  Lemma c_intrinsic_active (c c' : C) op : c_intrinsic c op c' -> c_active c' = c_active c.
  Proof. by destruct 1. Qed.
  Lemma c_jump_active (c c' : C) b : c_jump c b c' -> c_active c' = c_active c.
  Proof. by intros (? & ? & ? & _ & ->). Qed.
  Lemma c_term_active (c c' : C) tm : c_term c tm c' -> c_active c' = c_active c.
  Proof.
    destruct 1; subst; cbn; eauto using c_jump_active.
    match goal with H : c_jump _ _ _ |- _ => rewrite (c_jump_active _ _ _ H) end.
    eauto using c_intrinsic_active.
  Qed.

  (** the states of the threads and the locks *)
  Definition c_state (c : C) i : option ThreadState := option_map tc_state (c_threads c !! i).

  Lemma c_state_put (c : C) t t' i : c_threads c !! c_active c = Some t ->
    c_state (c_put c t') i = if decide (i = c_active c) then Some (tc_state t') else c_state c i.
  Proof.
    intros Ht. unfold c_state. cbn. destruct (decide _) as [->|Hi].
    - rewrite list_lookup_insert; [done|]. by eapply lookup_lt_Some.
    - by rewrite list_lookup_insert_ne.
  Qed.
  Lemma c_state_put_same (c : C) t t' i : c_threads c !! c_active c = Some t -> tc_state t' = tc_state t ->
    c_state (c_put c t') i = c_state c i.
  Proof.
    intros Ht Hs. rewrite (c_state_put c t) by done. destruct (decide _) as [->|]; [|done].
    unfold c_state. rewrite Ht. cbn. by rewrite Hs.
  Qed.
  Lemma c_jump_state (c c' : C) b i : c_jump c b c' -> c_state c' i = c_state c i.
  Proof. intros (t & f & r & [Ht _] & ->). eapply c_state_put_same; [exact Ht|done]. Qed.
  Lemma c_jump_locks (c c' : C) b : c_jump c b c' -> c_locks c' = c_locks c.
  Proof. by intros (t & f & r & _ & ->). Qed.
  Lemma c_state_set_at (c : C) w s i : c_in c s w ->
    forall s', option_map tc_state (set_state_at (c_threads c) w s' !! i) =
      if decide (i = w) then Some s' else c_state c i.
  Proof.
    intros (t & Ht & _) s'. unfold set_state_at. rewrite Ht. destruct (decide _) as [->|Hi].
    - rewrite list_lookup_insert; [done|]. by eapply lookup_lt_Some.
    - by rewrite list_lookup_insert_ne.
  Qed.

  Lemma ss_set_locks (m m' : Mach) l s x : m_locks m !! l = Some x -> m_locks m' = <[l := s]> (m_locks m) ->
    lock_set m m' l s.
  Proof.
    intros Hl E. split; [rewrite E; by rewrite insert_length|]. intros k. rewrite E.
    destruct (decide _) as [->|]; [|by rewrite list_lookup_insert_ne].
    rewrite list_lookup_insert; [done|]. by eapply lookup_lt_Some.
  Qed.

  Lemma sched_of_step (m m' : Mach) : c_step (ctl m) (ctl m') ->
    enabled m (m_active m') /\ sched_step (m_active m') m m'.
  Proof.
    intros H. remember (ctl m') as c' eqn:Ec. destruct H as [a t f r block s c1 t1 f1 r1 Ht Hen Hb Hst H1 Ht1|a t f r block c' Ht Hen Hb Hst Htm].
    - assert (m_active m' = a) as ->.
      { change (c_active (ctl m') = a). rewrite <-Ec. cbn. by destruct H1. }
      split.
      { apply c_in_state. exists t. split; [apply Ht|done]. }
      apply ss_none.
      + intros i. rewrite !state_of_ctl, <-Ec. change (c_state (c_put c1 (tc_with_stack t1 (fc_at f1 (fc_block f1) (S (fc_stmt f1)) :: r1))) i = c_state (ctl m) i).
        erewrite c_state_put_same; [|apply Ht1|done].
        change (c_state (ctl m) i) with (c_state (c_with_active (ctl m) a) i).
        destruct H1 as [|? ? ? ? ? H1|? ? ? ? ? H1]; [done| |]; (eapply c_state_put_same; [apply H1|done]).
      + change (c_locks (ctl m') = c_locks (ctl m)). rewrite <-Ec. cbn. by destruct H1.
    - assert (m_active m' = a) as ->.
      { change (c_active (ctl m') = a). rewrite <-Ec. erewrite c_term_active by done. done. }
      split.
      { apply c_in_state. exists t. split; [apply Ht|done]. }
      destruct (c_top_in_block _ _ _ _ _ _ Ht Hb) as (f0 & Hf0 & <-).
      assert (Hat : at_terminator m a (bb_terminator block)) by (exists f0, block; done).
      assert (Hst' : forall i, state_of m' i = c_state c' i) by (intros i; rewrite state_of_ctl; by rewrite <-Ec).
      assert (Hlk : m_locks m' = c_locks c') by (change (c_locks (ctl m') = c_locks c'); by rewrite <-Ec).
      assert (Hst0 : forall i, state_of m i = c_state (c_with_active (ctl m) a) i) by (intros i; apply state_of_ctl).
      set (c := c_with_active (ctl m) a) in *.
      assert (Hnone : (forall i, c_state c' i = c_state c i) -> c_locks c' = c_locks c -> sched_step a m m').
      { intros H1 H2. apply ss_none; [|by rewrite <-Hlk in H2]. intros i. by rewrite Hst', Hst0. }
      clear Ec. remember (bb_terminator block) as tm eqn:Etm. symmetry in Etm.
      destruct Htm as [b c' Hj|v cases fb i b c' Hb1 Hj|callee conv args ret nb ub t1 n func ls p Ht1 Hfn
        |t1 f1 r1 sync c' Ht1 Hact Hr Hne Hsync Hc'|t1 f1 g r1 b ub p c' Ht1 Hact Hc'|v b p t1 f1 r1 c' Ht1 Hc'
        |b p ps t1 f1 r1 c' Ht1 Hp Hc'|t1 f1 g r1 b nb p c' Ht1 Hact Hc'|op args ret b c1 c' Hin Hj].
      + apply Hnone; [intros j; by eapply c_jump_state|by eapply c_jump_locks].
      + apply Hnone; [intros j; by eapply c_jump_state|by eapply c_jump_locks].
      + apply Hnone; [|done]. intros j. by eapply c_state_put_same.
      + subst c'. destruct Ht1 as [Ht1 Hs1]. eapply ss_end; [done|exact Hne| |exact Hlk].
        intros k. rewrite Hst'. unfold c_state, c_terminate. cbn.
        rewrite list_lookup_fmap.
        destruct (decide (k = a)) as [->|Hk].
        * rewrite list_lookup_insert by (by eapply lookup_lt_Some). done.
        * rewrite list_lookup_insert_ne by done. rewrite Hst0. unfold c_state. cbn.
          destruct (List.map tctl (m_threads m) !! k) as [tk|]; cbn; [|by rewrite decide_False].
          case_bool_decide as Hw; cbn.
          -- by rewrite decide_True by congruence.
          -- rewrite decide_False by congruence. done.
      + apply Hnone; subst c'; [|done]. intros j. eapply c_state_put_same; [apply Ht1|done].
      + apply Hnone; subst c'; [|done]. intros j. eapply c_state_put_same; [apply Ht1|done].
      + apply Hnone; subst c'; [|done]. intros j. eapply c_state_put_same; [apply Ht1|done].
      + apply Hnone; subst c'; [|done]. intros j. eapply c_state_put_same; [apply Ht1|done].
      + assert (Hop : at_intrinsic m a op) by (by exists args, ret, (Some b)).
        assert (Hst1 : forall i, state_of m' i = c_state c1 i).
        { intros i. rewrite Hst'. by eapply c_jump_state. }
        assert (Hlk1 : m_locks m' = c_locks c1) by (rewrite Hlk; by eapply c_jump_locks).
        destruct Hin as [op _|e|s|s|n func ls Hfn|i Hi|i t1 Hi Hni Ht1| |l Hl|l o t1 Hl Ht1|l Hl Hnw|l w Hl Hw].
        * apply ss_none; [|done]. intros i. by rewrite Hst1, Hst0.
        * apply ss_none; [|done]. intros i. by rewrite Hst1, Hst0.
        * apply ss_none; [|done]. intros i. by rewrite Hst1, Hst0.
        * apply ss_none; [|done]. intros i. by rewrite Hst1, Hst0.
        * apply ss_spawn; [done| |done]. intros k. rewrite Hst1, Hst0. unfold c_state. cbn.
          rewrite <-threads_len. cbn. destruct (decide _) as [->|Hk].
          -- by rewrite list_lookup_middle.
          -- destruct (decide (k < length (List.map tctl (m_threads m)))%nat) as [Hlt|Hge].
             ++ by rewrite lookup_app_l.
             ++ rewrite !lookup_ge_None_2; [done| |]; [|rewrite app_length; cbn]; lia.
        * apply ss_none; [|done]. intros k. by rewrite Hst1, Hst0.
        * eapply (ss_join _ _ _ i); [done| | | |done].
          -- apply lookup_lt_is_Some in Hi as [ti Hi]. exists (tc_state ti). rewrite Hst0. unfold c_state. by rewrite Hi.
          -- intros Hter. apply Hni. apply c_in_state in Hter. exact Hter.
          -- intros k. rewrite Hst1, Hst0. by erewrite c_state_put.
        * apply ss_create; [done| |done]. intros k. by rewrite Hst1, Hst0.
        * eapply (ss_acquire _ _ _ l); [done|done| |].
          -- intros k. by rewrite Hst1, Hst0.
          -- by eapply ss_set_locks.
        * eapply (ss_wait _ _ _ l o); [done|done| |done].
          intros k. rewrite Hst1, Hst0. by erewrite c_state_put.
        * eapply (ss_release _ _ _ l); [done|done| | |].
          -- intros i Hi. apply (Hnw i). by apply c_in_state in Hi.
          -- intros k. by rewrite Hst1, Hst0.
          -- by eapply ss_set_locks.
        * eapply (ss_pass _ _ _ l w); [done|done| | |].
          -- by apply c_in_state in Hw.
          -- intros k. rewrite Hst1, Hst0. apply (c_state_set_at c w _ k Hw Enabled).
          -- by eapply ss_set_locks.
  Qed.

  Theorem step_sched (m m' : Mach) : steps_to T MO m m' ->
    enabled m (m_active m') /\ sched_step (m_active m') m m'.
  Proof. intros [cs H]. apply sched_of_step. pose proof (step_ctl T MO cs m) as Hs. by rewrite H in Hs. Qed.

  (** ** The initial state *)

  Lemma new_ctl prog cs m rest : machine_new T MO prog cs = Ret (m, rest) ->
    program_check_wf T prog = Ret tt /\
    exists func ls, map_get (pr_functions prog) (pr_start prog) = Some func /\
      ctl m = mkCtl prog ipc_new [mkTCtl [mkFCtl func ls BottomOfStack (fn_start func) 0] Enabled []] 0 [] []
        (m_globals m) (m_fnptrs m) (m_vtptrs m) "" "".
  Proof.
    unfold machine_new. intros H. apply obind_ret in H as ([] & Hwf & H). split; [done|].
    apply obind_ret in H as ([[g mem1] cs1] & _ & H). apply obind_ret in H as (mem2 & _ & H).
    apply obind_ret in H as ([[fp mem3] cs2] & _ & H). apply obind_ret in H as ([[vp mem4] cs3] & _ & H).
    apply obind_ret in H as (func & Hfn & H). apply unwrap_ret in Hfn.
    apply obind_ret in H as ([[id m1] cs4] & Hn & H). injection H as <- <-.
    unfold new_thread in Hn. apply obind_ret in Hn as ([[f m2] cs5] & Hc & Hn). injection Hn as _ <- _.
    match type of Hc with create_frame _ _ ?m0 _ _ _ _ _ _ = _ =>
      pose proof (create_frame_ctl T MO m0 func BottomOfStack CcC unit_ty [] cs3) as Hcf end.
    rewrite Hc in Hcf. destruct Hcf as [Hsame [ls Hls]].
    exists func, ls. split; [done|]. unfold same in Hsame.
    assert (H2 : c_threads (ctl m2) = []) by (rewrite Hsame; done). cbn in H2.
    unfold ctl in Hsame. cbn in Hsame. unfold ctl. cbn. rewrite map_app, H2. cbn. unfold tctl. cbn. rewrite Hls.
    by injection Hsame as -> -> _ -> -> -> -> -> -> -> ->.
  Qed.

  Lemma new_states prog (m : Mach) : starts T MO prog m ->
    m_locks m = [] /\ forall i s, state_of m i = Some s -> i = 0%nat /\ s = Enabled.
  Proof.
    intros (cs & rest & H). apply new_ctl in H as (_ & func & ls & _ & E). split.
    - change (c_locks (ctl m) = []). by rewrite E.
    - intros i s. rewrite state_of_ctl, E. cbn. destruct i; cbn; [|done]. by intros [= <-].
  Qed.

  (** ** Locks *)

  Definition lock_inv (m : Mach) : Prop :=
    (forall l i, holds m l i -> is_thread m i) /\
    (forall i l, waits_for_lock m i l -> exists o, holds m l o).

  Lemma is_thread_step a (m m' : Mach) i : enabled m a -> sched_step a m m' -> is_thread m i -> is_thread m' i.
  Proof.
    intros Ha H [s Hs]. unfold is_thread.
    destruct H as [H _|_ H _|j _ _ _ H _|_ H _|l _ _ H _|l o _ _ H _|l _ _ _ H _|l w _ _ _ H _|_ _ H _]; rewrite H;
      repeat destruct (decide _); eauto.
  Qed.

  Lemma lock_inv_step a (m m' : Mach) : enabled m a -> sched_step a m m' -> lock_inv m -> lock_inv m'.
  Proof.
    intros Ha Hss [I1 I2]. assert (Hth : forall i, is_thread m i -> is_thread m' i) by (intros i; by eapply is_thread_step).
    assert (Hat : is_thread m a) by (eexists; exact Ha).
    assert (Keep : same_locks m m' -> (forall i l, waits_for_lock m' i l -> waits_for_lock m i l \/ exists o, holds m l o) -> lock_inv m').
    { intros E Hw. split.
      - intros l i. unfold holds. rewrite E. eauto.
      - intros i l Hi. unfold holds. rewrite E. destruct (Hw _ _ Hi) as [H|H]; [by eapply I2|done]. }
    unfold waits_for_lock in *.
    destruct Hss as [H E|_ H E|j _ _ _ H E|_ H E|l _ Hf H [El E]|l o _ Ho H E|l _ Hl Hn H [El E]|l w _ Hl Hw H [El E]|_ _ H E].
    - apply Keep; [done|]. intros i l. rewrite H. eauto.
    - apply Keep; [done|]. intros i l. rewrite H. destruct (decide _); [done|eauto].
    - apply Keep; [done|]. intros i l. rewrite H. destruct (decide _); [done|eauto].
    - split.
      + intros l i. unfold holds. rewrite E. rewrite lookup_app_Some. intros [Hl|[_ Hl]]; [eauto|].
        by destruct (l - _)%nat as [|[|]].
      + intros i l Hi. unfold waits_for_lock in Hi. rewrite H in Hi. destruct (I2 _ _ Hi) as [o Ho]. exists o. unfold holds. rewrite E. by apply lookup_app_l_Some.
    - split.
      + intros k i. unfold holds. rewrite E. destruct (decide _); [intros [= <-]; eauto|eauto].
      + intros i k Hi. unfold waits_for_lock in Hi. rewrite H in Hi. destruct (I2 _ _ Hi) as [o Ho].
        unfold holds. rewrite E. destruct (decide _); eauto.
    - apply Keep; [done|]. intros i k. rewrite H. destruct (decide _); [intros [= ->]; eauto|eauto].
    - split.
      + intros k i. unfold holds. rewrite E. destruct (decide _); [done|eauto].
      + intros i k Hi. unfold waits_for_lock in Hi. rewrite H in Hi. unfold holds. rewrite E.
        destruct (decide _) as [->|]; [by destruct (Hn i)|eauto].
    - split.
      + intros k i. unfold holds. rewrite E. destruct (decide _); [intros [= <-]; apply Hth; by eexists|eauto].
      + intros i k Hi. unfold waits_for_lock in Hi. rewrite H in Hi. unfold holds. rewrite E.
        destruct (decide (i = w)); [done|]. destruct (decide _); eauto.
    - apply Keep; [done|]. intros i k. rewrite H. destruct (decide _); [done|]. destruct (decide _); [done|]. eauto.
  Qed.

  Lemma reach_inv (I : Mach -> Prop) prog :
    (forall m, starts T MO prog m -> I m) -> (forall m m', I m -> steps_to T MO m m' -> I m') ->
    forall m, reachable T MO prog m -> I m.
  Proof. intros H1 H2 m. induction 1; eauto. Qed.

  Lemma reach_lock_inv prog (m : Mach) : reachable T MO prog m -> lock_inv m.
  Proof.
    apply reach_inv.
    - intros m0 H0. apply new_states in H0 as [H1 H2]. split.
      + intros l i. unfold holds. by rewrite H1.
      + intros i l Hi. by apply H2 in Hi as [_ ?].
    - intros m0 m1 I0 H. apply step_sched in H as [He H]. by eapply lock_inv_step.
  Qed.

  (** who holds a lock changes only by the holder's release or by an acquire of a free lock *)
  Lemma holder_step (m m' : Mach) l i : steps_to T MO m m' -> holds m l i ->
    holds m' l i \/ (i = m_active m' /\ at_intrinsic m i (InLock LkRelease)).
  Proof.
    intros Hs Hl. apply step_sched in Hs as [He Hs]. unfold holds in *.
    destruct Hs as [H E|_ H E|j _ _ _ H E|_ H E|k _ Hf H [El E]|k o _ Ho H E|k Hat Hk Hn H [El E]|k w Hat Hk Hw H [El E]|_ _ H E];
      try (left; by rewrite E).
    - left. rewrite E. by apply lookup_app_l_Some.
    - left. rewrite E. destruct (decide _) as [->|]; [|done]. unfold is_free in Hf. congruence.
    - destruct (decide (l = k)) as [->|Hne].
      + right. unfold holds in Hk. rewrite Hl in Hk. injection Hk as ->. done.
      + left. by rewrite E, decide_False.
    - destruct (decide (l = k)) as [->|Hne].
      + right. unfold holds in Hk. rewrite Hl in Hk. injection Hk as ->. done.
      + left. by rewrite E, decide_False.
  Qed.

  Lemma holder_execution (m : Mach) ms m' l i : execution T MO m ms m' -> holds m l i -> ~ holds m' l i ->
    exists m1, m1 ∈ ms /\ holds m1 l i /\ at_intrinsic m1 i (InLock LkRelease).
  Proof.
    induction 1 as [m|m ms m1 m' Hs He IH]; [done|]. intros H1 H2.
    destruct (holder_step _ _ _ _ Hs H1) as [H|[_ H]].
    - destruct (IH H H2) as (m2 & Hm & ?). exists m2. split; [by right|done].
    - exists m. split; [by left|done].
  Qed.

  Lemma waiter_step (m m' : Mach) i l : steps_to T MO m m' -> waits_for_lock m i l ->
    waits_for_lock m' i l \/
    (enabled m' i /\ holds m l (m_active m') /\ at_intrinsic m (m_active m') (InLock LkRelease) /\ holds m' l i).
  Proof.
    intros Hs Hi. apply step_sched in Hs as [He Hs]. set (a := m_active m') in *.
    assert (i <> a) as Hia. { intros ->. unfold waits_for_lock, enabled in *. congruence. }
    unfold waits_for_lock, enabled in *.
    destruct Hs as [H E|_ H E|j _ _ _ H E|_ H E|k _ Hf H [El E]|k o _ Ho H E|k Hat Hk Hn H [El E]|k w Hat Hk Hw H [El E]|_ _ H E];
      try (left; by rewrite H); rewrite H.
    - rewrite decide_False; [by left|]. intros ->. unfold state_of in Hi. by rewrite lookup_ge_None_2 in Hi.
    - rewrite decide_False by done. by left.
    - rewrite decide_False by done. by left.
    - destruct (decide _) as [->|]; [|by left]. right. unfold waits_for_lock in Hw. rewrite Hw in Hi.
      injection Hi as ->. unfold holds at 2. rewrite E. by rewrite decide_True.
    - rewrite decide_False by done. rewrite decide_False by congruence. by left.
  Qed.

  (** a release hands the lock to at most one waiter *)
  Lemma release_step (m m' : Mach) l : steps_to T MO m m' -> holds m l (m_active m') -> ~ holds m' l (m_active m') ->
    (is_free m' l /\ forall i, ~ waits_for_lock m i l) \/
    (exists w, waits_for_lock m w l /\ holds m' l w /\ enabled m' w /\
       forall i, i <> w -> waits_for_lock m i l -> waits_for_lock m' i l).
  Proof.
    intros Hs Hl Hnl. apply step_sched in Hs as [He Hs]. set (a := m_active m') in *.
    unfold waits_for_lock, enabled, holds, is_free in *.
    destruct Hs as [H E|_ H E|j _ _ _ H E|_ H E|k _ Hf H [El E]|k o _ Ho H E|k Hat Hk Hn H [El E]|k w Hat Hk Hw H [El E]|_ _ H E];
      try (destruct Hnl; by rewrite E).
    - destruct Hnl. rewrite E. by apply lookup_app_l_Some.
    - destruct Hnl. rewrite E. destruct (decide _); [done|]. done.
    - rewrite E in Hnl |- *. destruct (decide _) as [->|]; [|done]. left. split; [done|]. exact Hn.
    - rewrite E in Hnl |- *. destruct (decide _) as [->|]; [|done]. right. exists w. split; [exact Hw|].
      split; [done|]. split; [rewrite H; by rewrite decide_True|]. intros i Hi. rewrite H. by rewrite decide_False.
  Qed.

  Lemma acquire_step (m m' : Mach) l i : steps_to T MO m m' -> holds m' l i -> ~ holds m l i ->
    (i = m_active m' /\ at_intrinsic m i (InLock LkAcquire) /\ is_free m l) \/
    (waits_for_lock m i l /\ holds m l (m_active m') /\ at_intrinsic m (m_active m') (InLock LkRelease)).
  Proof.
    intros Hs Hl Hnl. apply step_sched in Hs as [He Hs]. set (a := m_active m') in *.
    unfold waits_for_lock, enabled, holds, is_free in *.
    destruct Hs as [H E|_ H E|j _ _ _ H E|_ H E|k Hat Hf H [El E]|k o _ Ho H E|k Hat Hk Hn H [El E]|k w Hat Hk Hw H [El E]|_ _ H E];
      try (destruct Hnl; by rewrite E in Hl).
    - rewrite E in Hl. apply lookup_app_Some in Hl as [Hl|[_ Hl]]; [done|]. by destruct (l - _)%nat as [|[|]].
    - rewrite E in Hl. destruct (decide _) as [->|]; [|done]. injection Hl as <-. by left.
    - rewrite E in Hl. by destruct (decide _) as [->|].
    - rewrite E in Hl. destruct (decide _) as [->|]; [|done]. injection Hl as <-. by right.
  Qed.

  Lemma block_step (m m' : Mach) l i : steps_to T MO m m' -> waits_for_lock m' i l -> ~ waits_for_lock m i l ->
    i = m_active m' /\ at_intrinsic m i (InLock LkAcquire) /\ exists o, holds m l o /\ holds m' l o.
  Proof.
    intros Hs Hl Hnl. apply step_sched in Hs as [He Hs]. set (a := m_active m') in *.
    unfold waits_for_lock, enabled, holds, is_free in *.
    destruct Hs as [H E|_ H E|j _ _ _ H E|_ H E|k Hat Hf H [El E]|k o Hat Ho H E|k Hat Hk Hn H [El E]|k w Hat Hk Hw H [El E]|_ _ H E];
      rewrite H in Hl; try done.
    - by destruct (decide _).
    - by destruct (decide _).
    - destruct (decide _) as [->|]; [|done]. injection Hl as ->. split; [done|]. split; [done|].
      exists o. split; [done|]. by rewrite E.
    - by destruct (decide _).
    - destruct (decide _); [done|]. by destruct (decide _).
  Qed.

  (** ** Joins *)

  Definition join_inv (m : Mach) : Prop := forall i j, joining m i j -> is_thread m j /\ ~ terminated m j.

  (** a terminated thread stays so *)
  Lemma terminated_step (m m' : Mach) i : steps_to T MO m m' -> terminated m i -> terminated m' i.
  Proof.
    intros Hs Hl. apply step_sched in Hs as [He Hs]. set (a := m_active m') in *.
    assert (i <> a) as Hia. { intros ->. unfold terminated, enabled in *. congruence. }
    unfold waits_for_lock, enabled, terminated in *.
    destruct Hs as [H E|_ H E|j _ _ _ H E|_ H E|k Hat Hf H [El E]|k o Hat Ho H E|k Hat Hk Hn H [El E]|k w Hat Hk Hw H [El E]|_ _ H E];
      rewrite H; try done; try (by rewrite decide_False).
    - rewrite decide_False; [done|]. intros ->. unfold state_of in Hl. by rewrite lookup_ge_None_2 in Hl.
    - rewrite decide_False; [done|]. intros ->. unfold waits_for_lock in Hw. congruence.
    - rewrite decide_False by done. by rewrite decide_False by congruence.
  Qed.

  (** a thread terminates only by its own return *)
  Lemma terminates_step (m m' : Mach) i : steps_to T MO m m' -> terminated m' i -> ~ terminated m i ->
    i = m_active m' /\ i <> 0%nat /\ at_terminator m i TmReturn.
  Proof.
    intros Hs Hl Hnl. apply step_sched in Hs as [He Hs]. set (a := m_active m') in *.
    unfold waits_for_lock, enabled, terminated in *.
    destruct Hs as [H E|_ H E|j _ _ _ H E|_ H E|k Hat Hf H [El E]|k o Hat Ho H E|k Hat Hk Hn H [El E]|k w Hat Hk Hw H [El E]|Hat Hne H E];
      rewrite H in Hl; try done; try (by destruct (decide _)).
    destruct (decide _) as [->|]; [done|]. by destruct (decide _).
  Qed.

  Lemma join_step (m m' : Mach) i j : steps_to T MO m m' -> joining m i j -> ~ terminated m j ->
    (~ terminated m' j /\ joining m' i j) \/ (terminated m' j /\ enabled m' i).
  Proof.
    intros Hs Hl Hnl. pose proof Hs as Hs0. apply step_sched in Hs as [He Hs]. set (a := m_active m') in *.
    assert (i <> a) as Hia. { intros ->. unfold joining, enabled in *. congruence. }
    destruct (decide (state_of m' j = Some Terminated)) as [Ht|Ht].
    - destruct (terminates_step _ _ _ Hs0 Ht Hnl) as (-> & H0 & Hat). right. split; [done|].
      unfold joining, enabled, terminated in *. fold a in Ht, Hl, Hnl.
      destruct Hs as [H E|_ H E|j _ _ _ H E|_ H E|k _ Hf H [El E]|k o _ Ho H E|k _ Hk Hn H [El E]|k w _ Hk Hw H [El E]|_ Hne H E];
        try (rewrite H in Ht; done); try (rewrite H in Ht; by destruct (decide _)).
      rewrite H. rewrite decide_False by done. by rewrite decide_True.
    - left. split; [done|].
      unfold joining, enabled, terminated in *.
      destruct Hs as [H E|_ H E|k _ _ _ H E|_ H E|k _ Hf H [El E]|k o _ Ho H E|k _ Hk Hn H [El E]|k w _ Hk Hw H [El E]|_ Hne H E];
        try (by rewrite H); try (rewrite H; by rewrite decide_False).
      + rewrite H. rewrite decide_False; [done|]. intros ->. unfold state_of in Hl. by rewrite lookup_ge_None_2 in Hl.
      + rewrite H. rewrite decide_False; [done|]. intros ->. unfold waits_for_lock in Hw. congruence.
      + rewrite H. rewrite decide_False by done. rewrite decide_False; [done|]. intros Hj. rewrite Hl in Hj.
        injection Hj as ->. rewrite H in Ht. by rewrite decide_True in Ht.
  Qed.

  Lemma joining_step (m m' : Mach) i j : steps_to T MO m m' -> joining m' i j -> ~ joining m i j ->
    i = m_active m' /\ at_intrinsic m i InJoin /\ is_thread m j /\ ~ terminated m j.
  Proof.
    intros Hs Hl Hnl. apply step_sched in Hs as [He Hs]. set (a := m_active m') in *.
    unfold joining, enabled in *.
    destruct Hs as [H E|_ H E|k Hat Hj1 Hj2 H E|_ H E|k Hat Hf H [El E]|k o Hat Ho H E|k Hat Hk Hn H [El E]|k w Hat Hk Hw H [El E]|Hat Hne H E];
      rewrite H in Hl; try done; try (by destruct (decide _)).
    - destruct (decide _) as [->|]; [|done]. by injection Hl as ->.
    - destruct (decide _) as [->|]; [done|]. by destruct (decide _).
  Qed.

  Lemma join_inv_step (m m' : Mach) : steps_to T MO m m' -> join_inv m -> join_inv m'.
  Proof.
    intros Hs I i j Hj. pose proof (step_sched _ _ Hs) as [He Hss].
    destruct (decide (state_of m i = Some (BlockedOnJoin j))) as [H0|H0].
    - destruct (I _ _ H0) as [H1 H2]. split; [by eapply is_thread_step|].
      destruct (join_step _ _ _ _ Hs H0 H2) as [[? _]|[_ ?]]; [done|]. unfold joining, enabled in *. congruence.
    - destruct (joining_step _ _ _ _ Hs Hj H0) as (-> & Hat & H1 & H2). split; [by eapply is_thread_step|].
      intros Ht. destruct (terminates_step _ _ _ Hs Ht H2) as (-> & _ & _).
      unfold joining, terminated in *. congruence.
  Qed.

  Lemma reach_join_inv prog (m : Mach) : reachable T MO prog m -> join_inv m.
  Proof.
    apply reach_inv; [|eauto using join_inv_step].
    intros m0 H0. apply new_states in H0 as [H1 H2]. intros i j Hi. by apply H2 in Hi as [_ ?].
  Qed.
End Sched.
