(** How steps begin and end: which thread runs, how a step can stop the machine, and data races. *)
From Verif Require Export SchedProofs StopProofs TreeLike.

Section Shape.
  Context {P F M : Type} `{EqDecision P}.
  Variable T : Target.
  Variable MO : MemOps P F M.
  Notation Mach := (Machine P F M).

  (** the state in which thread [a] begins its step *)
  Definition begins (m : Mach) (a : nat) : Mach :=
    set_active (set_mem m (mkConc (cm_mem (m_mem m)) [])) a.

  (** what a thread does in a step, without the check for data races *)
  Definition exec (m : Mach) (cs : list (Choice P)) : Outcome (Mach * list (Choice P)) :=
    let! f := cur_frame m in
    let! block := unwrap (map_get (fn_blocks (f_func f)) (f_block f)) in
    if (f_stmt f =? length (bb_statements block))%nat then
      eval_terminator T MO (bb_terminator block) m cs
    else
      let! stmt := unwrap (bb_statements block !! f_stmt f) in
      let! '(m, cs) := eval_statement T MO stmt m cs in
      let! f := cur_frame m in
      let! m := set_cur_frame m (with_pc f (f_block f) (S (f_stmt f))) in
      Ret (m, cs).

  Lemma obind_assoc {A B C} (o : Outcome A) (f : A -> Outcome B) (g : B -> Outcome C) :
    obind (obind o f) g = obind o (fun a => obind (f a) g).
  Proof. by destruct o. Qed.

  Lemma step_eq cs (m : Mach) : step T MO cs m =
    if negb (some_thread_in m Enabled) then Stop TDeadlock else
    let! '(a, cs) := pick_thread (thread_in m Enabled) cs in
    let! '(m', _) := exec (begins m a) cs in
    let! _ := cm_check_data_races (m_mem m') (m_active m') (set_add (m_sync m) (m_active m))
                (cm_accesses (m_mem m)) in
    Ret m'.
  Proof.
    unfold step, reset_data_race_tracking, cm_reset_accesses. cbn beta iota zeta. destruct (negb _); [done|].
    change (thread_in (set_mem m (mkConc (cm_mem (m_mem m)) [])) Enabled) with (thread_in m Enabled).
    destruct (pick_thread _ cs) as [[a cs1]| | |]; [|done..]. cbn [obind].
    change (set_active (set_mem m (mkConc (cm_mem (m_mem m)) [])) a) with (begins m a).
    unfold exec. rewrite obind_assoc. destruct (cur_frame (begins m a)) as [f| | |]; [|done..]. cbn [obind].
    rewrite obind_assoc. destruct (unwrap _) as [b| | |]; done.
  Qed.

  Lemma some_enabled (m : Mach) : some_thread_in m Enabled = true <-> exists i, enabled m i.
  Proof. rewrite some_thread_in_ctl. split; intros [i Hi]; exists i; by apply c_in_state. Qed.
  Lemma thread_enabled (m : Mach) i : thread_in m Enabled i = true <-> enabled m i.
  Proof. rewrite thread_in_ctl. apply c_in_state. Qed.

  Lemma begins_at (m : Mach) a f : cur_frame (begins m a) = Ret f ->
    exists t r, m_threads m !! a = Some t /\ t_stack t = f :: r.
  Proof.
    unfold cur_frame, active_thread. intros H. apply obind_ret in H as (t & Ht & H).
    apply unwrap_ret in Ht. apply unwrap_ret in H. destruct (t_stack t) as [|g r] eqn:E; [done|].
    injection H as ->. by exists t, r.
  Qed.

  Lemma cur_frame_cases (m : Mach) : (exists f, cur_frame m = Ret f) \/ cur_frame m = Panic.
  Proof.
    unfold cur_frame, active_thread. destruct (m_threads m !! _) as [t|]; [|by right]. cbn.
    destruct (head (t_stack t)); [left; by eexists|by right].
  Qed.

  Lemma exec_cases (m : Mach) a cs :
    (exists tm, at_terminator m a tm /\ exec (begins m a) cs = eval_terminator T MO tm (begins m a) cs) \/
    (exists s, at_statement m a s /\ exec (begins m a) cs =
       let! '(m, cs) := eval_statement T MO s (begins m a) cs in
       let! f := cur_frame m in
       let! m := set_cur_frame m (with_pc f (f_block f) (S (f_stmt f))) in
       Ret (m, cs)) \/
    exec (begins m a) cs = Panic.
  Proof.
    unfold exec. destruct (cur_frame (begins m a)) as [f| | |] eqn:Ef; cbn [obind].
    2,3,4: destruct (cur_frame_cases (begins m a)) as [[g Hg]|Hg]; rewrite Hg in Ef; try done; by (right; right).
    apply begins_at in Ef as (t & r & Ht & Hs).
    destruct (map_get (fn_blocks (f_func f)) (f_block f)) as [b|] eqn:Eb; cbn [unwrap obind]; [|by right; right].
    destruct (Nat.eqb_spec (f_stmt f) (length (bb_statements b))) as [E|E].
    - left. exists (bb_terminator b). split; [|done]. exists f, b. split; [|done]. by exists t, r.
    - destruct (bb_statements b !! f_stmt f) as [s|] eqn:Es; cbn [unwrap obind]; [|by right; right].
      right. left. exists s. split; [|done]. exists f, b. split; [|done]. by exists t, r.
  Qed.

  (** ** Deadlock *)

  Lemma step_no_enabled cs (m : Mach) : (forall i, ~ enabled m i) -> step T MO cs m = Stop TDeadlock.
  Proof.
    intros H. rewrite step_eq. destruct (some_thread_in m Enabled) eqn:E; [|done].
    apply some_enabled in E as [i Hi]. by destruct (H i).
  Qed.

  Lemma step_picks cs (m m' : Mach) : step T MO cs m = Ret m' ->
    exists rest, cs = ChThread (m_active m') :: rest.
  Proof.
    intros H. rewrite step_eq in H. destruct (negb _); [done|].
    apply obind_ret in H as ([a cs1] & Ha & H). apply obind_ret in H as ([m1 cs2] & He & H).
    apply obind_ret in H as (? & _ & H). injection H as <-.
    destruct cs as [|[|t|] cs]; try done. cbn in Ha. destruct (thread_in _ _ _); [|done]. injection Ha as -> ->.
    exists cs1. f_equal. f_equal.
    destruct (exec_cases m a cs1) as [(tm & _ & E)|[(s & _ & E)|E]]; rewrite E in He; [| |done].
    - pose proof (terminator_ctl T MO tm (begins m a) cs1) as Hc. rewrite He in Hc. cbn in Hc.
      apply c_term_active in Hc. done.
    - apply obind_ret in He as ([m2 cs3] & He & H). apply obind_ret in H as (f & _ & H).
      apply obind_ret in H as (m3 & H3 & H). injection H as -> ->.
      pose proof (statement_ctl T MO s (begins m a) cs1) as Hc. rewrite He in Hc. cbn in Hc.
      apply set_cur_frame_ctl in H3 as (? & ? & ? & _ & H3).
      change (a = c_active (ctl m1)). rewrite H3. cbn. change (m_active m2) with (c_active (ctl m2)). by destruct Hc.
  Qed.

  Lemma step_not_enabled cs (m : Mach) a i : enabled m i -> ~ enabled m a ->
    step T MO (ChThread a :: cs) m = NoBehavior.
  Proof.
    intros Hi Ha. rewrite step_eq. destruct (some_thread_in m Enabled) eqn:E.
    - cbn [negb pick_thread]. destruct (thread_in m Enabled a) eqn:Ea; [|done]. by apply thread_enabled in Ea.
    - assert (some_thread_in m Enabled = true) by (apply some_enabled; eauto). congruence.
  Qed.


  (** ** Stops *)

  Hypothesis UO : ub_ops MO.

  Lemma step_stop cs (m : Mach) t : step T MO cs m = Stop t ->
    (t = TDeadlock /\ forall i, ~ enabled m i) \/ (exists msg, t = TUb msg) \/
    exists a rest op args ret nb pl rty m1 vs m2,
      cs = ChThread a :: rest /\ enabled m a /\ at_terminator m a (TmIntrinsic op args ret nb) /\
      eval_place T MO ret (begins m a) = Ret (pl, rty, m1) /\
      map_st (fun m e => eval_value T MO e m) args m1 = Ret (vs, m2) /\
      eval_intrinsic T MO m2 op vs rty rest = Stop t.
  Proof.
    rewrite step_eq. destruct (some_thread_in m Enabled) eqn:Ee; cbn [negb].
    2: { intros [= <-]. left. split; [done|]. intros i Hi.
         assert (some_thread_in m Enabled = true) by (apply some_enabled; eauto). congruence. }
    intros H. right. destruct (pick_thread _ cs) as [[a rest]|t1| |] eqn:Ep; cbn [obind] in H; try done.
    2: { left. injection H as <-. by apply ub_pick_thread in Ep. }
    destruct cs as [|[|a1|] cs]; try done. cbn in Ep. destruct (thread_in _ _ _) eqn:Ea; [|done].
    injection Ep as -> ->. apply thread_enabled in Ea.
    destruct (exec (begins m a) rest) as [[m' r']|t1| |] eqn:Ex; cbn [obind] in H; try done.
    { left. destruct (cm_check_data_races _ _ _ _) as [|t1| |] eqn:Er; try done. injection H as <-. by apply ub_races in Er. }
    injection H as ->.
    destruct (exec_cases m a rest) as [(tm & Hat & E)|[(s & Hat & E)|E]]; rewrite E in Ex; [| |done].
    - apply terminator_stop in Ex as [?|(op & args & ret & nb & pl & rty & m1 & vs & m2 & -> & H1 & H2 & H3)];
        [by left| |done]. right. by exists a, rest, op, args, ret, nb, pl, rty, m1, vs, m2.
    - left. destruct (eval_statement _ _ _ _ _) as [[m1 cs1]|t1| |] eqn:Es; cbn [obind] in Ex; try done.
      + enough (only_ub (let! f := cur_frame m1 in let! m := set_cur_frame m1 (with_pc f (f_block f) (S (f_stmt f))) in
          Ret (m, cs1))) as Hx by exact (Hx _ Ex).
        apply ub_bind; [apply ub_cur|]. intros f. apply ub_bind; [apply ub_set_cur|]. done.
      + injection Ex as ->. by apply ub_statement in Es.
  Qed.

  (** [Stop]s of intrinsics that are not UB *)
  Lemma intrinsic_stop (m : Mach) op vs rty cs t : eval_intrinsic T MO m op vs rty cs = Stop t ->
    (exists msg, t = TUb msg) \/ (op = InAbort /\ t = TAbort) \/
    (op = InExit /\ ((t = TMachineStop /\ mo_leak_check MO (cm_mem (m_mem m)) = Ret tt) \/
                     mo_leak_check MO (cm_mem (m_mem m)) = Stop t)).
  Proof.
    intros H. assert (op = InExit \/ op = InAbort \/ (op <> InExit /\ op <> InAbort)) as [->|[->|[H1 H2]]].
    { destruct op; auto; right; right; done. }
    - right. right. split; [done|]. cbn in H. unfold cm_leak_check in H.
      destruct (mo_leak_check _ _) as [[]|t1| |]; try done; injection H as <-; auto.
    - cbn in H. injection H as <-. auto.
    - left. by apply ub_intrinsic in H.
  Qed.

  (** ** Data races *)

  Lemma races_ub (c : ConcMem M) a sync prev x y :
    a ∉ sync -> x ∈ prev -> y ∈ cm_accesses c -> races y x = true ->
    is_ub (cm_check_data_races c a sync prev).
  Proof.
    intros Ha Hx Hy Hr. unfold cm_check_data_races. rewrite bool_decide_eq_false_2 by done.
    induction (cm_accesses c) as [|z l IH]; [by apply elem_of_nil in Hy|]. cbn.
    destruct (existsb (races z) prev) eqn:E; [by eexists|]. cbn. apply elem_of_cons in Hy as [->|Hy]; [|by apply IH].
    exfalso. rewrite <-not_true_iff_false, existsb_exists in E. apply E. exists x. split; [|done].
    by apply elem_of_list_In.
  Qed.

  Definition forget_accesses (m : Mach) : Mach := set_mem m (mkConc (cm_mem (m_mem m)) []).

  Lemma race_step cs (m m' : Mach) x y :
    step T MO cs (forget_accesses m) = Ret m' -> m_active m' <> m_active m -> m_active m' ∉ m_sync m ->
    x ∈ cm_accesses (m_mem m) -> y ∈ cm_accesses (m_mem m') -> races y x = true ->
    is_ub (step T MO cs m).
  Proof.
    intros H Ha Hs Hx Hy Hr. rewrite step_eq in H |- *.
    change (some_thread_in (forget_accesses m) Enabled) with (some_thread_in m Enabled) in H.
    change (thread_in (forget_accesses m) Enabled) with (thread_in m Enabled) in H.
    destruct (negb _); [done|]. apply obind_ret in H as ([a rest] & Ep & H). rewrite Ep. cbn [obind].
    change (begins (forget_accesses m) a) with (begins m a) in H.
    apply obind_ret in H as ([m1 r1] & Ex & H). rewrite Ex. cbn [obind].
    apply obind_ret in H as (? & _ & H). injection H as <-.
    assert (is_ub (cm_check_data_races (m_mem m1) (m_active m1) (set_add (m_sync m) (m_active m))
       (cm_accesses (m_mem m)))) as [msg Hub].
    { eapply races_ub; [|done..]. unfold set_add. case_bool_decide; [done|].
      rewrite elem_of_app, elem_of_list_singleton. tauto. }
    rewrite Hub. by exists msg.
  Qed.

  Lemma race_free cs (m m' : Mach) x y :
    step T MO cs m = Ret m' -> m_active m' <> m_active m -> m_active m' ∉ m_sync m ->
    x ∈ cm_accesses (m_mem m) -> y ∈ cm_accesses (m_mem m') -> races y x = false.
  Proof.
    intros H Ha Hs Hx Hy. destruct (races y x) eqn:Hr; [|done]. exfalso. rewrite step_eq in H.
    destruct (negb _); [done|]. apply obind_ret in H as ([a rest] & Ep & H).
    apply obind_ret in H as ([m1 r1] & Ex & H).
    apply obind_ret in H as ([] & Hc & H). injection H as <-.
    assert (is_ub (cm_check_data_races (m_mem m1) (m_active m1) (set_add (m_sync m) (m_active m))
       (cm_accesses (m_mem m)))) as [msg Hub].
    { eapply races_ub; [|done..]. unfold set_add. case_bool_decide; [done|].
      rewrite elem_of_app, elem_of_list_singleton. tauto. }
    congruence.
  Qed.
End Shape.

Section BM.
  Context {PE AE F : Type} `{EqDecision PE}.
  Variable T : Target.
  Variable MO : MemOps (nat * PE) F (BMem PE AE).
  Hypothesis BL : bm_like T MO.
  Hypothesis UO : ub_ops MO.
  Notation Mach := (Machine (nat * PE) F (BMem PE AE)).

  (** evaluation changes the memory only in the data of the borrow tracker *)
  Definition mem_rel (m m' : Mach) : Prop := extra_change (cm_mem (m_mem m)) (cm_mem (m_mem m')).
  Lemma mem_rel_refl m : mem_rel m m.
  Proof. constructor. Qed.
  Lemma mem_rel_trans m1 m2 m3 : mem_rel m1 m2 -> mem_rel m2 m3 -> mem_rel m1 m3.
  Proof. apply extra_change_trans. Qed.
  Lemma mem_rel_load m p n a at_ :
    post (cm_load MO (m_mem m) p n a at_) (fun r => mem_rel m (set_mem m (snd r))).
  Proof.
    apply post_intro. intros [b mem] H. unfold cm_load in H. apply obind_ret in H as ([b1 mm] & H & E).
    injection E as <- <-. cbn in H. by eapply (load_frame T MO).
  Qed.
  Lemma mem_rel_retag m ptr pt fe : post (retag_ptr MO m ptr pt fe) (fun r => mem_rel m (snd r)).
  Proof.
    apply post_intro. intros [q m'] H. unfold retag_ptr in H. apply obind_ret in H as (f & _ & H).
    apply obind_ret in H as ([[p mem] ex] & H & E). apply obind_ret in E as (m1 & Hm1 & E). injection E as <- <-.
    unfold cm_retag in H. apply obind_ret in H as ([[p1 mm] ex1] & H & E). injection E as <- <- <-.
    unfold set_cur_frame in Hm1. apply obind_ret in Hm1 as (t & _ & Hm1). destruct (t_stack t); [done|].
    injection Hm1 as <-. cbn. unfold mem_rel. cbn. by eapply bl_retag.
  Qed.
  Lemma mem_rel_value e m : post (eval_value T MO e m) (fun r => mem_rel m (snd r)).
  Proof. apply eval_value_rel; [apply mem_rel_refl|apply mem_rel_trans|apply mem_rel_load|apply mem_rel_retag]. Qed.
  Lemma mem_rel_place e m : post (eval_place T MO e m) (fun r => mem_rel m (snd r)).
  Proof. apply eval_place_rel; [apply mem_rel_refl|apply mem_rel_trans|apply mem_rel_load|apply mem_rel_retag]. Qed.

  Definition heap_live (mem : BMem PE AE) : Prop :=
    exists i a, mem !! i = Some a /\ al_live a = true /\ al_kind a = AHeap.
  Lemma heap_live_extra mem mem' : extra_change mem mem' -> heap_live mem' <-> heap_live mem.
  Proof.
    intros H. induction H as [mem|mem m1 id a ae H IH Ha]; [done|]. rewrite <-IH. clear -Ha. unfold heap_live. split.
    - intros (i & b & Hi & H1 & H2). destruct (decide (i = id)) as [->|Hne].
      + rewrite list_lookup_insert in Hi by (by eapply lookup_lt_Some). injection Hi as <-. by exists id, a.
      + rewrite list_lookup_insert_ne in Hi by done. by exists i, b.
    - intros (i & b & Hi & H1 & H2). destruct (decide (i = id)) as [->|Hne].
      + rewrite Ha in Hi. injection Hi as <-. eexists id, _. rewrite list_lookup_insert by (by eapply lookup_lt_Some). done.
      + exists i, b. by rewrite list_lookup_insert_ne.
  Qed.

  (** the operands of an intrinsic *)
  Lemma operands_mem m a ret args pl rty m1 vs m2 :
    eval_place T MO ret (begins m a) = Ret (pl, rty, m1) ->
    map_st (fun m e => eval_value T MO e m) args m1 = Ret (vs, m2) ->
    heap_live (cm_mem (m_mem m2)) <-> heap_live (cm_mem (m_mem m)).
  Proof.
    intros H1 H2. apply heap_live_extra. change (mem_rel (begins m a) m2). eapply mem_rel_trans.
    - pose proof (mem_rel_place ret (begins m a)) as H. rewrite H1 in H. exact H.
    - assert (post (map_st (fun m e => eval_value T MO e m) args m1) (fun r => mem_rel m1 (snd r))) as H.
      { apply map_st_rel; [apply mem_rel_refl|apply mem_rel_trans|]. apply Forall_true. intros e m'. apply mem_rel_value. }
      rewrite H2 in H. exact H.
  Qed.

  Lemma end_cases cs (m : Mach) t : step T MO cs m = Stop t ->
    (t = TDeadlock /\ forall i, ~ enabled m i) \/ (exists msg, t = TUb msg) \/
    exists a rest, cs = ChThread a :: rest /\ enabled m a /\
      ((at_intrinsic m a InAbort /\ t = TAbort) \/
       (at_intrinsic m a InExit /\ heap_live (cm_mem (m_mem m)) /\ t = TMemoryLeak) \/
       (at_intrinsic m a InExit /\ ~ heap_live (cm_mem (m_mem m)) /\ t = TMachineStop)).
  Proof.
    intros H. apply (step_stop T MO UO) in H as [H|[H|(a & rest & op & args & ret & nb & pl & rty & m1 & vs & m2 & -> & Ha & Hat & H1 & H2 & H)]]; [by left|by right; left|].
    right. apply (intrinsic_stop T MO UO) in H as [H|H]; [by left|]. right. exists a, rest. split; [done|]. split; [done|].
    assert (Hop : at_intrinsic m a op) by (by exists args, ret, nb).
    destruct H as [[-> ->]|[-> H]]; [by left|]. right.
    pose proof (operands_mem _ _ _ _ _ _ _ _ _ H1 H2) as Hh.
    pose proof (leak_exact T MO (cm_mem (m_mem m2)) BL) as [L1 L2].
    change (exists i a, cm_mem (m_mem m2) !! i = Some a /\ al_live a = true /\ al_kind a = AHeap)
      with (heap_live (cm_mem (m_mem m2))) in L1, L2. rewrite Hh in L1, L2.
    destruct H as [[-> H]|H].
    - right. split; [done|]. split; [by apply L2|done].
    - assert (t = TMemoryLeak) as ->.
      { rewrite (bl_leak _ _ BL) in H. revert H. clear. generalize (cm_mem (m_mem m2)) as l. unfold bm_leak_check.
        induction l as [|x l IH]; [done|]. cbn. destruct (al_live x); [|done]. by destruct (al_kind x); try done; intros [= <-]. }
      left. split; [done|]. split; [by apply L1|done].
  Qed.
End BM.
