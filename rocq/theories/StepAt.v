(** One step, taken apart: the state in which the statement or terminator is evaluated. *)
From Verif Require Export SchedProofs.

Section StepAt.
  Context {P F M : Type} `{EqDecision P}.
  Variable T : Target.
  Variable MO : MemOps P F M.
  Notation Mach := (Machine P F M).

  (** machine.md:198-218 the state in which thread [a] does its step *)
  Definition begin_step (m : Mach) (a : nat) : Mach := set_active (snd (reset_data_race_tracking m)) a.
  Lemma begin_ctl (m : Mach) a : ctl (begin_step m a) = c_with_active (ctl m) a.
  Proof. unfold begin_step, reset_data_race_tracking. by destruct (cm_reset_accesses _). Qed.

  Lemma step_at (m m' : Mach) : steps_to T MO m m' ->
    exists cs cs', (exists tm, at_terminator m (m_active m') tm /\
        eval_terminator T MO tm (begin_step m (m_active m')) cs = Ret (m', cs')) \/
      (exists s m1 f, at_statement m (m_active m') s /\
        eval_statement T MO s (begin_step m (m_active m')) cs = Ret (m1, cs') /\
        cur_frame m1 = Ret f /\ set_cur_frame m1 (with_pc f (f_block f) (S (f_stmt f))) = Ret m').
  Proof.
    intros [cs H]. unfold step in H. destruct (negb _) in H; [done|].
    destruct (reset_data_race_tracking m) as [[ps pa] m0] eqn:Er.
    apply obind_ret in H as ([a cs1] & _ & H). apply obind_ret in H as (f & Hf & H).
    apply obind_ret in H as (block & Hb & H). apply unwrap_ret in Hb. apply obind_ret in H as ([m2 cs2] & H & H').
    apply obind_ret in H' as ([] & _ & [= <-]). cbn [fst snd] in *.
    assert (Hbegin : set_active m0 a = begin_step m a) by (unfold begin_step; by rewrite Er). rewrite Hbegin in *.
    assert (exists t r, m_threads m !! a = Some t /\ t_stack t = f :: r) as (t & r & Ht & Hs).
    { unfold cur_frame in Hf. apply obind_ret in Hf as (t & Ht & Hf). unfold active_thread in Ht. apply unwrap_ret in Ht.
      destruct (t_stack t) as [|g r] eqn:Es; [done|]. injection Hf as <-. exists t, r. split; [|done].
      rewrite <-Hbegin in Ht. unfold reset_data_race_tracking in Er. destruct (cm_reset_accesses _). injection Er as _ _ <-. exact Ht. }
    destruct (Nat.eqb_spec (f_stmt f) (length (bb_statements block))) as [Hn|Hn].
    - pose proof (terminator_ctl T MO (bb_terminator block) (begin_step m a) cs1) as Hc. rewrite H in Hc. cbn [wp fst] in Hc.
      apply c_term_active in Hc. rewrite begin_ctl in Hc. change (m_active m2 = a) in Hc. rewrite Hc.
      exists cs1, cs2. left. exists (bb_terminator block). split; [|done]. exists f, block. split; [by exists t, r|done].
    - apply obind_ret in H as (s & Hst & H). apply unwrap_ret in Hst. apply obind_ret in H as ([m1 cs3] & H & H').
      apply obind_ret in H' as (f1 & Hf1 & H'). apply obind_ret in H' as (m3 & Hm3 & [= <- <-]).
      pose proof (statement_ctl T MO s (begin_step m a) cs1) as Hc. rewrite H in Hc. cbn [wp fst] in Hc.
      assert (Ha : c_active (ctl m1) = a).
      { assert (E : c_active (ctl m1) = c_active (ctl (begin_step m a))) by (by destruct Hc). by rewrite begin_ctl in E. }
      pose proof Hm3 as Hm4. apply set_cur_frame_ctl in Hm4 as (? & ? & ? & _ & E4).
      assert (Ha3 : m_active m3 = a) by (change (c_active (ctl m3) = a); by rewrite E4). rewrite Ha3.
      exists cs1, cs3. right. exists s, m1, f1. split; [|done]. exists f, block. split; [by exists t, r|done].
  Qed.

  Lemma at_terminator_fun (m : Mach) a tm tm' : at_terminator m a tm -> at_terminator m a tm' -> tm = tm'.
  Proof.
    intros (f & b & (t & r & Ht & Hs & Hb) & _ & <-) (f' & b' & (t' & r' & Ht' & Hs' & Hb') & _ & <-). congruence.
  Qed.
  Lemma at_term_stmt (m : Mach) a tm s : at_terminator m a tm -> at_statement m a s -> False.
  Proof.
    intros (f & b & (t & r & Ht & Hs & Hb) & Hn & _) (f' & b' & (t' & r' & Ht' & Hs' & Hb') & Hst).
    assert (f' = f) as -> by congruence. assert (b' = b) as -> by congruence. rewrite Hn in Hst. apply lookup_lt_Some in Hst. lia.
  Qed.
End StepAt.
