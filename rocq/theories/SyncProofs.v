(** What the join and lock intrinsics do, in terms of their operands. *)
From Verif Require Export OutProofs.

Section Sync.
  Context {P F M : Type} `{EqDecision P}.
  Variable T : Target.
  Variable MO : MemOps P F M.
  Notation Mach := (Machine P F M).

  Lemma intrinsic_step cs (m m' : Mach) op args ret nb : step T MO cs m = Ret m' ->
    at_terminator m (m_active m') (TmIntrinsic op args ret nb) ->
    exists vs ty m2 m3 v rest rest', operands T MO m (m_active m') args ret vs /\ same (begins m (m_active m')) m2 /\
      eval_intrinsic T MO m2 op vs ty rest = Ret (v, m3, rest') /\
      (forall i, state_of m' i = state_of m3 i) /\ m_locks m' = m_locks m3.
  Proof.
    intros H Hat. destruct (step_terminator T MO _ _ _ _ H Hat) as (rest & rest' & _ & He). cbn [eval_terminator] in He.
    apply obind_ret in He as ([[pl ty] m1] & H1 & He). apply obind_ret in He as ([vs m2] & H2 & He).
    apply obind_ret in He as ([[v m3] cs3] & H3 & He). apply obind_ret in He as (m4 & H4 & He).
    destruct nb as [b|]; [|done]. apply obind_ret in He as (m5 & H5 & He). injection He as <- <-.
    pose proof (operands_out T MO _ _ _ _ _ _ _ _ _ H1 H2) as Hs.
    exists vs, ty, m2, m3, v, rest, cs3. split; [by exists pl, ty, m1, m2|]. split; [done|]. split; [done|].
    assert (Hs4 : ctl m4 = ctl m3).
    { pose proof (place_store_same T MO m3 pl v ty) as Hx. rewrite H4 in Hx. exact Hx. }
    pose proof (jump_ctl (M:=M) m4 b) as Hj. rewrite H5 in Hj. cbn in Hj.
    destruct Hj as (t & f & r & [Ht Hf] & E). rewrite Hs4 in E, Ht. split.
    - intros i. rewrite !state_of_ctl, E. unfold c_put, c_with_threads. cbn [c_threads].
      destruct (decide (i = c_active (ctl m3))) as [->|Hne].
      + rewrite list_lookup_insert by (by eapply lookup_lt_Some). by rewrite Ht.
      + by rewrite list_lookup_insert_ne by done.
    - change (c_locks (ctl m5) = c_locks (ctl m3)). by rewrite E.
  Qed.

  Lemma same_facts (m m2 : Mach) a : same (begins m a) m2 ->
    (forall i, state_of m2 i = state_of m i) /\ m_locks m2 = m_locks m /\ m_active m2 = a.
  Proof.
    intros Hs. assert (E : ctl m2 = ctl (begins m a)) by exact Hs. split; [|split].
    - intros i. rewrite !state_of_ctl, E. by rewrite <-state_of_ctl, state_of_ctl.
    - change (c_locks (ctl m2) = m_locks m). by rewrite E.
    - change (c_active (ctl m2) = a). by rewrite E.
  Qed.

  Lemma list_get_lookup {A} (l : list A) (n : Z) : 0 <= n -> list_get l n = l !! Z.to_nat n.
  Proof. intros Hn. unfold list_get. destruct (Z.ltb_spec n 0); [lia|]. done. Qed.
  Lemma list_get_neg {A} (l : list A) (n : Z) : n < 0 -> list_get l n = None.
  Proof. intros Hn. unfold list_get. by destruct (Z.ltb_spec n 0); [|lia]. Qed.
  Lemma list_get_some {A} (l : list A) (n : Z) x : list_get l n = Some x -> 0 <= n /\ l !! Z.to_nat n = Some x.
  Proof. destruct (Z.ltb_spec n 0); [by rewrite list_get_neg|by rewrite list_get_lookup]. Qed.

  Lemma state_of_set_active (m : Mach) t s a : m_active m = a -> active_thread m = Ret t ->
    state_of (set_active_thread m (with_state t s)) a = Some s.
  Proof.
    intros <- Ht. unfold active_thread in Ht. apply unwrap_ret in Ht. unfold state_of. cbn.
    by rewrite list_lookup_insert by (by eapply lookup_lt_Some).
  Qed.

  (** ** Join *)
  Lemma join_result cs (m m' : Mach) args ret nb : step T MO cs m = Ret m' ->
    at_terminator m (m_active m') (TmIntrinsic InJoin args ret nb) ->
    exists n ty, operands T MO m (m_active m') args ret [(VInt n, ty)] /\ 0 <= n /\ is_thread m (Z.to_nat n) /\
      (terminated m (Z.to_nat n) -> enabled m' (m_active m')) /\
      (~ terminated m (Z.to_nat n) -> joining m' (m_active m') (Z.to_nat n)).
  Proof.
    intros H Hat. assert (He : enabled m (m_active m')) by (apply (step_sched T MO m m'); by exists cs).
    destruct (intrinsic_step _ _ _ _ _ _ _ H Hat) as (vs & ty & m2 & m3 & v & rest & rest' & Ho & Hs & Hi & E & _).
    apply same_facts in Hs as (S1 & _ & S3).
    cbn [eval_intrinsic] in Hi. destruct vs as [|[[z| | | | |] t0] [|? ?]]; try done.
    apply obind_ret in Hi as (? & _ & Hi). apply obind_ret in Hi as (m4 & Hj & Hi). injection Hi as <- <- <-.
    unfold Step.join in Hj. destruct (list_get _ z) as [t|] eqn:Et; [|done].
    apply list_get_some in Et as [Hn Et].
    assert (Hst : state_of m (Z.to_nat z) = Some (t_state t)).
    { rewrite <-S1. unfold state_of. by rewrite Et. }
    exists z, t0. split; [done|]. split; [done|]. split; [by exists (t_state t)|].
    unfold terminated, enabled, joining. rewrite Hst, E.
    destruct (t_state t) eqn:Es; [..|injection Hj as <-; split; [intros _; rewrite S1; exact He|done]];
      apply obind_ret in Hj as (a & Ha & Hj); injection Hj as <-;
      (split; [done|intros _; by apply state_of_set_active]).
  Qed.

  (** ** Locks *)
  Lemma acquire_result cs (m m' : Mach) args ret nb : step T MO cs m = Ret m' ->
    at_terminator m (m_active m') (TmIntrinsic (InLock LkAcquire) args ret nb) ->
    exists n ty, operands T MO m (m_active m') args ret [(VInt n, ty)] /\ 0 <= n /\
      ((is_free m (Z.to_nat n) /\ holds m' (Z.to_nat n) (m_active m') /\ enabled m' (m_active m')) \/
       ((exists o, holds m (Z.to_nat n) o) /\ waits_for_lock m' (m_active m') (Z.to_nat n))).
  Proof.
    intros H Hat. assert (He : enabled m (m_active m')) by (apply (step_sched T MO m m'); by exists cs).
    destruct (intrinsic_step _ _ _ _ _ _ _ H Hat) as (vs & ty & m2 & m3 & v & rest & rest' & Ho & Hs & Hi & E & El).
    apply same_facts in Hs as (S1 & S2 & S3).
    cbn [eval_intrinsic] in Hi. destruct vs as [|[[z| | | | |] t0] [|? ?]]; try done.
    apply obind_ret in Hi as (? & _ & Hi). apply obind_ret in Hi as (m4 & Hj & Hi). injection Hi as <- <- <-.
    unfold lock_acquire in Hj. destruct (list_get _ z) as [t|] eqn:Et; [|done].
    apply list_get_some in Et as [Hn Et]. rewrite S2 in Et.
    exists z, t0. split; [done|]. split; [done|]. unfold is_free, holds, enabled, waits_for_lock. rewrite El, E.
    destruct t as [|o].
    - injection Hj as <-. left. split; [done|]. cbn. rewrite S2, S3.
      rewrite list_lookup_insert by (by eapply lookup_lt_Some). split; [done|].
      change (state_of m2 (m_active m') = Some Enabled). rewrite S1. exact He.
    - apply obind_ret in Hj as (a & Ha & Hj). injection Hj as <-. right. split; [by exists o|].
      by apply state_of_set_active.
  Qed.

  Lemma release_result cs (m m' : Mach) args ret nb : step T MO cs m = Ret m' ->
    at_terminator m (m_active m') (TmIntrinsic (InLock LkRelease) args ret nb) ->
    exists n ty, operands T MO m (m_active m') args ret [(VInt n, ty)] /\ 0 <= n /\
      holds m (Z.to_nat n) (m_active m') /\
      ((is_free m' (Z.to_nat n) /\ forall i, ~ waits_for_lock m i (Z.to_nat n)) \/
       exists w, waits_for_lock m w (Z.to_nat n) /\ holds m' (Z.to_nat n) w /\ enabled m' w).
  Proof.
    intros H Hat.
    destruct (intrinsic_step _ _ _ _ _ _ _ H Hat) as (vs & ty & m2 & m3 & v & rest & rest' & Ho & Hs & Hi & E & El).
    apply same_facts in Hs as (S1 & S2 & S3).
    cbn [eval_intrinsic] in Hi. destruct vs as [|[[z| | | | |] t0] [|? ?]]; try done.
    apply obind_ret in Hi as (? & _ & Hi). apply obind_ret in Hi as ([m4 cs4] & Hj & Hi). injection Hi as <- <- <-.
    unfold lock_release in Hj. destruct (list_get _ z) as [t|] eqn:Et; [|done].
    apply list_get_some in Et as [Hn Et]. rewrite S2 in Et. destruct t as [|o]; [done|].
    destruct (Nat.eqb_spec o (m_active m2)) as [->|]; [|done]. rewrite S3 in Et. cbn [negb] in Hj.
    exists z, t0. split; [done|]. split; [done|]. split; [done|]. unfold is_free, holds, enabled. rewrite El.
    destruct (some_thread_in m2 _) eqn:Ew.
    - right. apply obind_ret in Hj as ([w cs1] & Hp & Hj). apply obind_ret in Hj as (t & Hu & Hj). injection Hj as <- <-.
      exists w. apply unwrap_ret in Hu. destruct rest as [|[|w1|] rest]; try done. cbn in Hp.
      destruct (thread_in _ _ _) eqn:Ei; [|done]. injection Hp as -> ->.
      split; [unfold waits_for_lock; rewrite <-S1; apply c_in_state; by apply thread_in_ctl|]. cbn.
      rewrite S2, list_lookup_insert by (by eapply lookup_lt_Some). split; [done|]. rewrite E. unfold state_of. cbn.
      by rewrite list_lookup_insert by (by eapply lookup_lt_Some).
    - left. injection Hj as <- <-. cbn. rewrite S2, list_lookup_insert by (by eapply lookup_lt_Some). split; [done|].
      intros i Hi. unfold waits_for_lock in Hi. rewrite <-S1 in Hi. apply c_in_state in Hi.
      assert (some_thread_in m2 (BlockedOnLock (Z.to_nat z)) = true); [|congruence].
      rewrite some_thread_in_ctl. eauto.
  Qed.

  (** ** UB *)
  Lemma join_missing (m : Mach) a args ret nb n ty cs :
    enabled m a -> at_terminator m a (TmIntrinsic InJoin args ret nb) ->
    operands T MO m a args ret [(VInt n, ty)] -> (n < 0 \/ ~ is_thread m (Z.to_nat n)) ->
    is_ub (step T MO (ChThread a :: cs) m).
  Proof.
    intros He Hat (pl & rty & m1 & m2 & H1 & H2) Hn.
    assert (Hx : exists msg, eval_intrinsic T MO m2 InJoin [(VInt n, ty)] rty cs = Stop (TUb msg)).
    { pose proof (operands_out T MO _ _ _ _ _ _ _ _ _ H1 H2) as Hs. apply same_facts in Hs as (S1 & _).
      cbn [eval_intrinsic]. unfold ensure_unit. destruct (bool_decide _); cbn [obind]; [|eexists; reflexivity].
      unfold Step.join. assert (list_get (m_threads m2) n = None) as ->; [|eexists; reflexivity].
      destruct (list_get _ n) as [t|] eqn:Et; [|done]. apply list_get_some in Et as [H0 Et].
      destruct Hn as [|Hn]; [lia|]. destruct Hn. exists (t_state t). rewrite <-S1. unfold state_of. by rewrite Et. }
    destruct Hx as [msg Hx]. exists msg. by eapply (step_at_intrinsic T MO).
  Qed.
  Lemma acquire_missing (m : Mach) a args ret nb n ty cs :
    enabled m a -> at_terminator m a (TmIntrinsic (InLock LkAcquire) args ret nb) ->
    operands T MO m a args ret [(VInt n, ty)] -> (n < 0 \/ m_locks m !! Z.to_nat n = None) ->
    is_ub (step T MO (ChThread a :: cs) m).
  Proof.
    intros He Hat (pl & rty & m1 & m2 & H1 & H2) Hn.
    assert (Hx : exists msg, eval_intrinsic T MO m2 (InLock LkAcquire) [(VInt n, ty)] rty cs = Stop (TUb msg)).
    { pose proof (operands_out T MO _ _ _ _ _ _ _ _ _ H1 H2) as Hs. apply same_facts in Hs as (_ & S2 & _).
      cbn [eval_intrinsic]. unfold ensure_unit. destruct (bool_decide _); cbn [obind]; [|eexists; reflexivity].
      unfold lock_acquire. destruct (list_get (m_locks m2) n) as [t|] eqn:Et; [|eexists; reflexivity].
      apply list_get_some in Et as [H0 Et]. rewrite S2 in Et.
      destruct Hn as [|Hn]; [lia|congruence]. }
    destruct Hx as [msg Hx]. exists msg. by eapply (step_at_intrinsic T MO).
  Qed.
  Lemma release_missing (m : Mach) a args ret nb n ty cs :
    enabled m a -> at_terminator m a (TmIntrinsic (InLock LkRelease) args ret nb) ->
    operands T MO m a args ret [(VInt n, ty)] -> (n < 0 \/ ~ holds m (Z.to_nat n) a) ->
    is_ub (step T MO (ChThread a :: cs) m).
  Proof.
    intros He Hat (pl & rty & m1 & m2 & H1 & H2) Hn.
    assert (Hx : exists msg, eval_intrinsic T MO m2 (InLock LkRelease) [(VInt n, ty)] rty cs = Stop (TUb msg)).
    { pose proof (operands_out T MO _ _ _ _ _ _ _ _ _ H1 H2) as Hs. apply same_facts in Hs as (_ & S2 & S3).
      cbn [eval_intrinsic]. unfold ensure_unit. destruct (bool_decide _); cbn [obind]; [|eexists; reflexivity].
      unfold lock_release. destruct (list_get (m_locks m2) n) as [[|o]|] eqn:Et; [eexists; reflexivity| |eexists; reflexivity].
      apply list_get_some in Et as [H0 Et]. rewrite S2 in Et.
      destruct Hn as [|Hn]; [lia|]. destruct (Nat.eqb_spec o (m_active m2)) as [->|]; [|eexists; reflexivity].
      rewrite S3 in Et. done. }
    destruct Hx as [msg Hx]. exists msg. by eapply (step_at_intrinsic T MO).
  Qed.
End Sync.
