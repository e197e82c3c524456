(** Which threads count as synchronised, and which races are reported. *)
From Verif Require Export EndProofs RaceSpec OpsProofs AccessProofs.

Section Races.
  Context {P F M : Type} `{EqDecision P}.
  Variable T : Target.
  Variable MO : MemOps P F M.
  Notation Mach := (Machine P F M).
  Notation C := (Ctl P).

  Lemma set_add_in (l : list nat) x i : i ∈ set_add l x <-> i ∈ l \/ i = x.
  Proof.
    unfold set_add. case_bool_decide as E.
    - split; [by left|]. by intros [?| ->].
    - by rewrite elem_of_app, elem_of_list_singleton.
  Qed.

  Lemma c_jump_sync (c c' : C) b : c_jump c b c' -> c_sync c' = c_sync c.
  Proof. by intros (? & ? & ? & _ & ->). Qed.

  (** a thread becomes synchronised only through a step that synchronises with it, and then it does *)
  Lemma sync_step (m m' : Mach) i : steps_to T MO m m' ->
    i ∈ m_sync m' <-> i ∈ m_sync m \/ synchronises m m' i.
  Proof.
    intros Hs. pose proof (step_sched T MO _ _ Hs) as [Hen Hss].
    destruct Hs as [cs Hs]. pose proof (step_ctl T MO cs m) as Hc. rewrite Hs in Hc. cbn in Hc. clear Hs cs.
    assert (Hkeep : m_sync m' = m_sync m -> (~ synchronises m m' i) -> i ∈ m_sync m' <-> i ∈ m_sync m \/ synchronises m m' i).
    { intros -> H. tauto. }
    remember (ctl m') as c' eqn:Ec. destruct Hc as [a t f r block s c1 t1 f1 r1 Ht He Hb Hst H1 Ht1|a t f r block c' Ht He Hb Hst Htm].
    - destruct (c_top_in_block _ _ _ _ _ _ Ht Hb) as (f0 & Hf0 & <-).
      assert (m_active m' = a) as Ha.
      { change (c_active (ctl m') = a). rewrite <-Ec. cbn. by destruct H1. }
      assert (Hns : forall tm, ~ at_terminator m (m_active m') tm).
      { rewrite Ha. intros tm (f2 & b2 & (t2 & r2 & Ht2 & Hs2 & Hb2) & Hst2 & _).
        destruct Hf0 as (t3 & r3 & Ht3 & Hs3 & Hb3). assert (t3 = t2) as -> by congruence. assert (f2 = f0) as -> by congruence.
        assert (b2 = block) as -> by congruence. apply lookup_lt_Some in Hst. cbn in Hst. lia. }
      apply Hkeep.
      + change (c_sync (ctl m') = c_sync (ctl m)). rewrite <-Ec. cbn. by destruct H1.
      + intros [(? & ? & ? & H)|? (? & ? & ? & H) _ _ _|H _ _]; by apply Hns in H.
    - destruct (c_top_in_block _ _ _ _ _ _ Ht Hb) as (f0 & Hf0 & <-).
      assert (m_active m' = a) as Ha.
      { change (c_active (ctl m') = a). rewrite <-Ec. by erewrite c_term_active by done. }
      assert (Hat : at_terminator m a (bb_terminator block)) by (exists f0, block; done).
      assert (Hfun : forall tm, at_terminator m a tm -> tm = bb_terminator block).
      { intros tm (f2 & b2 & (t2 & r2 & Ht2 & Hs2 & Hb2) & _ & <-).
        destruct Hf0 as (t3 & r3 & Ht3 & Hs3 & Hb3). assert (t3 = t2) as -> by congruence. congruence. }
      assert (Hsync : m_sync m' = c_sync c') by (change (c_sync (ctl m') = c_sync c'); by rewrite <-Ec).
      assert (Hst' : forall k, state_of m' k = option_map tc_state (c_threads c' !! k)) by (intros k; rewrite state_of_ctl; by rewrite <-Ec).
      assert (Hlk : m_locks m' = c_locks c') by (change (c_locks (ctl m') = c_locks c'); by rewrite <-Ec).
      clear Ec. remember (bb_terminator block) as tm eqn:Etm. symmetry in Etm.
      destruct Htm as [b c' Hj|v cases fb j b c' Hb1 Hj|callee conv args ret nb ub t1 n func ls p Ht1 Hfn
        |t1 f1 r1 sync c' Ht1 Hact Hr Hne Hsy Hc'|t1 f1 g r1 b ub p c' Ht1 Hact Hc'|v b p t1 f1 r1 c' Ht1 Hc'
        |b p ps t1 f1 r1 c' Ht1 Hp Hc'|t1 f1 g r1 b nb p c' Ht1 Hact Hc'|op args ret b c1 c' Hin Hj].
      1,2,3,6,7,8: apply Hkeep;
        [rewrite Hsync; try (rewrite (c_jump_sync _ _ _ Hj)); try subst c'; done
        |rewrite <-Ha in Hfun; intros [(? & ? & ? & H)|? (? & ? & ? & H) _ _ _|H _ _]; by apply Hfun in H].
      + subst c'. rewrite Hsync. cbn. rewrite Hsy. cbn. split.
        * intros [?|[Hj Hne2]]; [by left|]. right. apply sy_join; rewrite ?Ha; [done| |].
          -- apply c_in_state. exact Hj.
          -- unfold terminated. rewrite Hst'. cbn. rewrite list_lookup_fmap, list_lookup_insert; [done|].
             destruct Ht1 as [Ht1 _]. by eapply lookup_lt_Some.
        * intros [?|H]; [by left|]. rewrite <-Ha in Hfun. destruct H as [(? & ? & ? & H)|? (? & ? & ? & H) _ _ _|H Hj _]; [by apply Hfun in H..|].
          right. rewrite Ha in Hj. split; [by apply c_in_state in Hj|]. intros ->. unfold joining in Hj. rewrite Ha in Hen. unfold enabled in Hen. congruence.
      + subst c'. apply Hkeep; [rewrite Hsync; done|].
        rewrite <-Ha in Hfun. intros [(? & ? & ? & H)|? (? & ? & ? & H) _ _ _|H Hj Hter]; [by apply Hfun in H..|].
        unfold terminated in Hter. rewrite Hst', Ha in Hter. destruct Ht1 as [Ht1 Hs1]. cbn in Hter.
        rewrite list_lookup_insert in Hter by (by eapply lookup_lt_Some). cbn in Hter.
        assert (t1 = t) as -> by (destruct Ht as [Ht _]; cbn in *; congruence). congruence.
      + assert (Hsync1 : m_sync m' = c_sync c1) by (rewrite Hsync; by rewrite (c_jump_sync _ _ _ Hj)).
        assert (Hnr : at_terminator m (m_active m') TmReturn -> False) by (rewrite Ha; intros H; by apply Hfun in H).
        assert (Hopf : forall o, at_intrinsic m (m_active m') o -> o = op).
        { rewrite Ha. intros o (? & ? & ? & H). apply Hfun in H. congruence. }
        assert (Hop : at_intrinsic m (m_active m') op) by (rewrite Ha; by exists args, ret, (Some b)).
        assert (Hst1 : forall i, state_of m' i = c_state c1 i).
        { intros k. rewrite Hst'. by eapply c_jump_state. }
        assert (Hlk1 : m_locks m' = c_locks c1) by (rewrite Hlk; by eapply c_jump_locks).
        destruct Hin as [op Hop0|e|s|s|n func ls Hfn|j Hi|j t1 Hi Hni Ht1| |l Hl|l o t1 Hl Ht1|l Hl Hnw|l w Hl Hw].
        1: apply Hkeep; [done|]; intros [H|? H|H]; [apply Hopf in H; by subst op..|done].
        1,2,3,5,6,7,8,9: apply Hkeep; [done|]; intros [H|? H|H]; [apply Hopf in H; by try discriminate..|done].
        * rewrite Hsync1. cbn. rewrite set_add_in. rewrite map_length. split; (intros [?|H]; [by left|right]).
          -- subst i. apply sy_spawn; [done| |].
             ++ intros [s0 H0]. unfold state_of in H0. by rewrite lookup_ge_None_2 in H0.
             ++ exists Enabled. rewrite Hst1. unfold c_state. cbn. by rewrite list_lookup_middle by (by rewrite map_length).
          -- destruct H as [_ H1 [s2 H2]|? H|H]; [|by apply Hopf in H|done].
             rewrite Hst1 in H2. unfold c_state in H2. cbn in H2.
             destruct (decide (i < length (m_threads m))%nat) as [Hlt|Hge].
             ++ destruct H1. apply lookup_lt_is_Some in Hlt as [ti Hti]. exists (t_state ti). unfold state_of. by rewrite Hti.
             ++ destruct (decide (i = length (m_threads m))) as [?|Hne]; [done|].
                rewrite lookup_ge_None_2 in H2; [done|]. rewrite app_length, map_length. cbn. lia.
        * apply Hkeep; [done|]. intros [H|l1 H Hw1 Hnl Hl1|H]; [by apply Hopf in H| |done].
          unfold holds in Hl1. rewrite Hlk1 in Hl1. cbn in Hl1.
          destruct (decide (l1 = l)) as [->|Hne1].
          -- rewrite list_lookup_insert in Hl1 by (by eapply lookup_lt_Some). done.
          -- by rewrite list_lookup_insert_ne in Hl1 by done.
        * rewrite Hsync1. cbn. rewrite set_add_in. split; (intros [?|H]; [by left|right]).
          -- subst i. pose proof (proj1 (c_in_state m (BlockedOnLock l) w) Hw) as Hw'.
             apply (sy_lock _ _ _ l); [done|done| |].
             { unfold holds. cbn in Hl. rewrite Hl. intros [= <-]. rewrite Ha in Hen. unfold enabled in Hen. congruence. }
             unfold holds. rewrite Hlk1. cbn.
             rewrite list_lookup_insert; [done|]. by eapply lookup_lt_Some.
          -- destruct H as [H|l1 H Hw1 Hnl Hl1|H]; [by apply Hopf in H| |done].
             unfold holds in Hl1. rewrite Hlk1 in Hl1. cbn in Hl1.
             destruct (decide (l1 = l)) as [->|Hne1].
             ++ rewrite list_lookup_insert in Hl1 by (by eapply lookup_lt_Some). by injection Hl1 as ->.
             ++ by rewrite list_lookup_insert_ne in Hl1 by done.
  Qed.

  (** in a reachable state the synchronised threads are those with which some earlier step synchronised *)
  Lemma sync_execution prog (m0 m : Mach) ms i : starts T MO prog m0 -> execution T MO m0 ms m ->
    i ∈ m_sync m -> exists m1 m2 ms1 ms2, execution T MO m0 ms1 m1 /\ steps_to T MO m1 m2 /\
      execution T MO m2 ms2 m /\ synchronises m1 m2 i.
  Proof.
    intros H0 He Hi. assert (i ∉ m_sync m0) as Hni.
    { destruct H0 as (cs & rest & H0). apply new_ctl in H0 as (_ & func & ls & _ & E).
      change (i ∉ c_sync (ctl m0)). rewrite E. cbn. apply not_elem_of_nil. }
    clear H0 prog. induction He as [m0|m0 ms m1 m Hs He IH]; [done|].
    destruct (decide (i ∈ m_sync m1)) as [H1|H1].
    - apply (sync_step _ _ _ Hs) in H1 as [H1|H1]; [done|]. exists m0, m1, [], ms. split; [constructor|done].
    - destruct (IH Hi H1) as (m2 & m3 & ms1 & ms2 & E1 & E2 & E3 & E4). exists m2, m3, (m0 :: ms1), ms2.
      split; [by econstructor|done].
  Qed.

  Lemma conflict_races a b : conflict a b -> races b a = true.
  Proof.
    intros ((x & Ha & Hb) & H1 & H2). rewrite races_sym. apply races_exact.
    - destruct Ha. lia.
    - destruct Hb. lia.
    - split; [by exists x|done].
  Qed.

  Lemma conflict_step cs (m m' : Mach) x y :
    step T MO cs (forget_accesses m) = Ret m' -> m_active m' <> m_active m -> m_active m' ∉ m_sync m ->
    x ∈ cm_accesses (m_mem m) -> y ∈ cm_accesses (m_mem m') -> conflict x y ->
    is_ub (step T MO cs m).
  Proof. intros H1 H2 H3 H4 H5 H6. eapply race_step; eauto using conflict_races. Qed.

  (** no step is stopped for a race without one *)
  Lemma check_race (c : ConcMem M) a sync prev t : cm_check_data_races c a sync prev = Stop t ->
    a ∉ sync /\ exists x y, x ∈ prev /\ y ∈ cm_accesses c /\ races x y = true.
  Proof.
    unfold cm_check_data_races. case_bool_decide as Ha; [done|]. intros H. split; [done|].
    induction (cm_accesses c) as [|y l IH]; [done|]. cbn in H. destruct (existsb (races y) prev) eqn:E.
    - apply existsb_exists in E as (x & Hx & Hr). exists x, y. split; [by apply elem_of_list_In|]. split; [by left|].
      by rewrite races_sym.
    - cbn in H. destruct (IH H) as (x & z & H1 & H2 & H3). exists x, z. split; [done|]. split; [by right|done].
  Qed.
End Races.
