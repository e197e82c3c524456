(** The basic memory model: a step is undefined behaviour exactly if it is not allowed. Steps. *)
From Verif Require Export UbIntr EndProofs RaceProofs SafeProg.
From Verif Require Export DataSpec ExprSpec UbSpec.
Local Open Scope Z_scope.

Section Step.
  Context `{EqDecision (nat * unit)}.
  Variable T : Target.
  Hypothesis Tok : target_ok T.
  Hypothesis Std : target_std T.
  Notation P := (nat * unit)%type.
  Notation M := (BMem unit unit).
  Notation Mach := (Machine P unit M).
  Notation MO := (BasicOps T).
  Variable prog : Program.
  Hypothesis Hstrict : strict_program T prog.
  Implicit Types m : Mach.
  Let BL := basic_like T.

  Lemma reach_fnptrs m : reachable T MO prog m -> unique_fns m.
  Proof.
    intros Hr n n' p H1 H2. destruct (reach_keys T MO BL Tok prog m Hr) as [Hd _].
    apply map_get_nodup in H1, H2; try done. destruct (decide (n = n')) as [|Hne]; [done|].
    destruct (reach_distinct T MO BL Tok prog m (OFn n) (OFn n') p p (st_unique _ _ Hstrict) Hr H1 H2); congruence.
  Qed.
  Lemma reach_vts m : reachable T MO prog m -> unique_vtables m.
  Proof.
    intros Hr n n' p H1 H2. destruct (reach_keys T MO BL Tok prog m Hr) as [_ Hd].
    apply map_get_nodup in H1, H2; try done. destruct (decide (n = n')) as [|Hne]; [done|].
    destruct (reach_distinct T MO BL Tok prog m (OVTable n) (OVTable n') p p (st_unique _ _ Hstrict) Hr H1 H2); congruence.
  Qed.
  Lemma turn_minv m a : minv T prog m -> minv T prog (turn m a).
  Proof. intros [H1 H2 H3]. by split. Qed.

  Lemma at_fun m a tm tm' : at_terminator m a tm -> at_terminator m a tm' -> tm = tm'.
  Proof. apply at_terminator_fun. Qed.
  Lemma at_fun_stmt m a s s' : at_statement m a s -> at_statement m a s' -> s = s'.
  Proof.
    intros (f & b & (t & r & Ht & Hs & Hb) & Hn) (f' & b' & (t' & r' & Ht' & Hs' & Hb') & Hn'). congruence.
  Qed.

  Lemma j_exec m a cs : reachable T MO prog m -> enabled m a ->
    judge (step_allowed T m a) (exec T MO (begins m a) cs) (step_allowed T m a) (fun r => step_allowed T m a /\ m_active (fst r) = a).
  Proof.
    intros Hr Hen. change (begins m a) with (turn m a). unfold enabled, state_of in Hen.
    destruct (m_threads m !! a) as [t|] eqn:Ht; [|done]. injection Hen as Hst.
    destruct (frame_top T MO (basic_safe T) Tok prog Hstrict m a t Hr Ht Hst) as (f & r & n & b & Hs & Htop & Hn & Hb & Hlen).
    pose proof (turn_minv m a (reach_minv T MO BL Tok prog m Hr)) as Hi.
    assert (cur_frame (turn m a) = Ret f) as Hcf by exact (cur_frame_eq (turn m a) t f r Ht Hs).
    assert (in_block m a f b) as Hib by (by exists t, r).
    assert (Hfok : fn_ok T prog (f_func f)) by apply Htop.
    assert (forall g, top_frame (turn m a) g -> f_func g = f_func f) as Htf.
    { intros g Hg. apply top_frame_cur in Hg. congruence. }
    unfold exec. rewrite Hcf. cbn [obind]. rewrite Hb. cbn [unwrap obind].
    destruct (Nat.eqb_spec (f_stmt f) (length (bb_statements b))) as [Hpc|Hpc].
    - assert (at_terminator m a (bb_terminator b)) as Hat by (by exists f, b).
      assert (step_allowed T m a <-> term_allowed T (turn m a) (bb_terminator b)) as Heq.
      { split; [|intros Ha; right; by eexists]. intros [(s & Hs' & _)|(tm & Hs' & Ha)]; [by destruct (at_term_stmt _ _ _ _ Hat Hs')|].
        by rewrite (at_fun _ _ _ _ Hat Hs'). }
      eapply (judge_weak _ _ _ _ _ (fun _ => term_allowed T (turn m a) (bb_terminator b)));
        [eapply (j_terminator T Tok Std prog (f_func f) (turn m a) (bb_kind b)); [done|exact (reach_vts m Hr)|exact (reach_fnptrs m Hr)| |done|done| | |]|tauto..|].
      + intros n0 func0. apply prog_fn, Hi.
      + by eapply (fo_term _ _ _ Hfok).
      + intros e He. by eapply (st_term _ _ Hstrict).
      + intros op args ret nb pl ty m1 Etm Ep id pe Hpv.
        pose proof (mi_wf _ _ _ Hi) as Hwf.
        pose proof (reach_sinv T MO (basic_safe T) Tok Std prog Hwf (st_unique _ _ Hstrict) Hstrict m Hr) as Hsi.
        pose proof (start_safe T MO (basic_safe T) prog m a Hsi) as Hsi'.
        assert (Hrun : running (f_func f) (turn m a)) by (by exists f).
        pose proof (fo_term _ _ _ Hfok _ _ Hb) as Hw. rewrite Etm in Hw. cbn [terminator_check_wf] in Hw.
        apply obind_ret in Hw as (rty & Hw & _).
        destruct (eval_place_step T MO (basic_safe T) Tok Std prog (st_methods _ _ Hstrict) (f_func f) (fo_locals _ _ _ Hfok) (turn m a) ret rty Hsi' Hrun Hw) as [_ He].
        { eapply (st_term _ _ Hstrict); [done..|]. rewrite Etm. constructor. }
        rewrite Ep in He. cbn [wp fst snd] in He. destruct He as (_ & ((Hth & _) & _) & _). specialize (Hth _ Hpv).
        pose proof (j_place T Tok (turn m a) (turn m a) ret (reach_vts m Hr) (still_refl _)) as Hj. rewrite Ep in Hj. cbn [judge snd] in Hj.
        destruct Hj as ((_ & Hv & _) & _). apply (f_equal length) in Hv.
        unfold mview, mv in Hv. rewrite !fmap_length in Hv. cbn in Hth. unfold memof in Hth. cbn [fst] in Hth. rewrite <-Hv. exact Hth.
      + intros [m1 cs1] E Ha. split; [tauto|]. cbn [fst].
        pose proof (terminator_ctl T MO (bb_terminator b) (turn m a) cs) as Hc. rewrite E in Hc. by apply c_term_active in Hc.
    - destruct (lookup_lt_is_Some_2 (bb_statements b) (f_stmt f)) as [s Hs']; [lia|]. rewrite Hs'. cbn [unwrap obind].
      assert (Hin : In s (bb_statements b)) by (by eapply elem_of_list_In, elem_of_list_lookup_2).
      assert (at_statement m a s) as Hat by (by exists f, b).
      assert (step_allowed T m a <-> stmt_allowed T (turn m a) s) as Heq.
      { split; [|intros Ha; left; by eexists]. intros [(s' & Hs1 & Ha)|(tm & Hs1 & Ha)]; [|by destruct (at_term_stmt _ _ _ _ Hs1 Hat)].
        by rewrite (at_fun_stmt _ _ _ _ Hat Hs1). }
      eapply judge_seq; [eapply (j_statement T Tok Std prog (f_func f) Hfok (turn m a)); [done|exact (reach_vts m Hr)|done| |]|tauto|].
      + by eapply (fo_stmt _ _ _ Hfok).
      + intros e He. by eapply (st_stmt _ _ Hstrict).
      + intros [m1 cs1] E Ha. apply judge_drop; [apply cur_safe|]. intros g _. apply judge_drop; [apply set_cur_safe|].
        intros m2 E2. cbn. split; [tauto|]. pose proof (statement_ctl T MO s (turn m a) cs) as Hc. rewrite E in Hc. cbn in Hc.
        apply set_cur_frame_ctl in E2 as (? & ? & ? & _ & E2). change (c_active (ctl m2) = a). rewrite E2. cbn.
        change (m_active m1) with (c_active (ctl m1)). by destruct Hc.
  Qed.

  Lemma step_exec m a cs : enabled m a -> step T MO (ChThread a :: cs) m =
    let! '(m', _) := exec T MO (begins m a) cs in
    let! _ := cm_check_data_races (m_mem m') (m_active m') (set_add (m_sync m) (m_active m)) (cm_accesses (m_mem m)) in
    Ret m'.
  Proof.
    intros Hen. rewrite step_eq. rewrite (proj2 (some_enabled m)) by (by exists a). cbn [negb pick_thread].
    by rewrite (proj2 (thread_enabled m a) Hen).
  Qed.

  (** a step goes on, or ends the execution, only if it is allowed *)
  Lemma goes_allowed m a cs : reachable T MO prog m -> enabled m a ->
    match step T MO (ChThread a :: cs) m with
    | Ret _ => step_allowed T m a
    | Stop (TUb _) => ~ step_allowed T m a \/ races_before T MO m a cs
    | Stop _ => step_allowed T m a
    | Panic | NoBehavior => True
    end.
  Proof.
    intros Hr Hen. pose proof (j_exec m a cs Hr Hen) as Hj. rewrite (step_exec m a cs Hen).
    destruct (exec T MO (begins m a) cs) as [[m1 cs1]|t| |] eqn:Ex; cbn [obind judge fst] in *; [|destruct t; auto|done..].
    destruct Hj as [Hal Ha]. destruct (cm_check_data_races _ _ _ _) as [[]|t| |] eqn:Ec; cbn [obind]; [done| |done..].
    assert (exists msg, t = TUb msg) as [msg ->].
    { revert Ec. unfold cm_check_data_races. case_bool_decide; [done|]. generalize (cm_accesses (m_mem m1)). intros l.
      induction l as [|x l IH]; cbn [for_each]; [done|]. destruct (existsb _ _); [intros [= <-]; by eexists|]. exact IH. }
    right. apply check_race in Ec as [Hns (x & y & Hx & Hy & Hxy)]. rewrite Ha in Hns. split; [|split].
    - intros ->. apply Hns. unfold set_add. case_bool_decide; [done|]. apply elem_of_app. right. by apply elem_of_list_singleton.
    - intros Hin. apply Hns. unfold set_add. case_bool_decide; [done|]. apply elem_of_app. by left.
    - exists m1, x, y. split; [|done]. change (set_mem m (mkConc (cm_mem (m_mem m)) [])) with (forget_accesses m).
      rewrite step_exec by exact Hen. change (begins (forget_accesses m) a) with (begins m a). rewrite Ex. cbn [obind].
      change (cm_accesses (m_mem (forget_accesses m))) with (@nil Access).
      assert (forall s, cm_check_data_races (m_mem m1) (m_active m1) s [] = Ret tt) as ->; [|done].
      intros s. unfold cm_check_data_races. case_bool_decide; [done|]. generalize (cm_accesses (m_mem m1)). intros l. induction l as [|z l IH]; [done|exact IH].
  Qed.

  Lemma races_ub_step m a cs : reachable T MO prog m -> enabled m a -> races_before T MO m a cs -> is_ub (step T MO (ChThread a :: cs) m).
  Proof.
    intros Hr Hen (Hne & Hns & m' & x & y & Hs & Hx & Hy & Hxy). pose proof Hs as Hs'.
    apply step_picks in Hs' as [rest [= Ea _]]. eapply (race_step T MO); [exact Hs|congruence|congruence|exact Hx|exact Hy|by rewrite races_sym].
  Qed.
End Step.
