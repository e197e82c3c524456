(** Proofs about control and about the separation of threads. *)
From Verif Require Export DataProofs.

Section Flow.
  Context {PE AE F : Type} `{EqDecision (nat * PE)}.
  Variable T : Target.
  Notation P := (nat * PE)%type.
  Notation M := (BMem PE AE).
  Variable MO : MemOps P F M.
  Notation Mach := (Machine P F M).
  Hypothesis BL : bm_like T MO.
  Implicit Types (m : Mach).

  Lemma same_threads (l l' : list (Thread P F)) : List.map tctl l' = List.map tctl l -> Forall2 same_thread_as l l'.
  Proof.
    revert l'. induction l as [|t l IH]; intros [|t' l'] E; [constructor|done..|]. cbn in E.
    assert (tctl t' = tctl t) as Et by congruence. assert (List.map tctl l' = List.map tctl l) by congruence. constructor; [|by apply IH].
    unfold tctl in Et. injection Et as H1 H2 H3. split; [by apply fctl_list|]. done.
  Qed.
  Lemma same_same_control m m' : same m m' -> same_control m m'.
  Proof.
    unfold same, ctl. intros E. injection E as ? ? ? ? ? ? ? ? ? ? ?. repeat (split; [done|]). by apply same_threads.
  Qed.
  Lemma ctl_of m' a tc : c_threads (ctl m') !! a = Some tc -> exists t, m_threads m' !! a = Some t /\ tctl t = tc.
  Proof. rewrite ctl_thread. destruct (_ !! a) as [t|]; [|done]. intros [= <-]. by exists t. Qed.

  (** the top frame *)
  Lemma ctl_top m a t f r : m_threads m !! a = Some t -> t_stack t = f :: r -> forall tc fc rc, c_threads (ctl m) !! a = Some tc ->
    tc_stack tc = fc :: rc -> tctl t = tc /\ fctl f = fc /\ List.map fctl r = rc.
  Proof. intros Ht Hs tc fc rc Hc Hsc. rewrite ctl_thread, Ht in Hc. injection Hc as <-. cbn in Hsc. rewrite Hs in Hsc. by injection Hsc. Qed.

  Lemma jumps m m' t f r t' fc b : m_threads m !! m_active m' = Some t -> t_stack t = f :: r ->
    m_threads m' !! m_active m' = Some t' ->
    tctl t' = mkTCtl (fc :: List.map fctl r) (t_state t') (t_payloads t') -> fc = fc_at (fctl f) b 0 ->
    exists f' r', t_stack t' = f' :: r' /\ jumped b f f' /\ Forall2 same_frame r r'.
  Proof.
    intros Ht Hs Ht' E ->. unfold tctl in E. injection E as E. destruct (t_stack t') as [|f' r']; [done|]. cbn in E. injection E as E1 E2 E3 E4 E5 E.
    exists f', r'. split; [done|]. split; [by repeat split|]. by apply fctl_list.
  Qed.

  Lemma at_terminator_top m a tm t f r : at_terminator m a tm -> m_threads m !! a = Some t -> t_stack t = f :: r ->
    exists b, map_get (fn_blocks (f_func f)) (f_block f) = Some b /\ f_stmt f = length (bb_statements b) /\ bb_terminator b = tm.
  Proof.
    intros (g & b & (t1 & r1 & H1 & H2 & H3) & H4 & H5) Ht Hs. assert (g = f) as -> by congruence. by exists b.
  Qed.
  Lemma ctl_step m m' : steps_to T MO m m' -> c_step (ctl m) (ctl m').
  Proof. intros [cs E]. pose proof (step_ctl T MO cs m) as Hc. by rewrite E in Hc. Qed.
  Lemma c_jump_active (c : Ctl P) b c' : c_jump c b c' -> c_active c' = c_active c.
  Proof. by intros (t & f & r & _ & ->). Qed.
  Lemma c_intr_active (c : Ctl P) op c' : c_intrinsic c op c' -> c_active c' = c_active c.
  Proof. by inversion 1. Qed.
  Lemma c_term_active (c : Ctl P) tm c' : c_term c tm c' -> c_active c' = c_active c.
  Proof.
    inversion 1; subst; try done; try (by eapply c_jump_active).
    etrans; [by eapply c_jump_active|by eapply c_intr_active].
  Qed.
  Lemma ctl_term m m' tm : steps_to T MO m m' -> at_terminator m (m_active m') tm -> c_term (c_with_active (ctl m) (m_active m')) tm (ctl m').
  Proof.
    intros Hs (f & b & (t & r & Ht & Hst & Hb) & Hpc & <-). apply ctl_step in Hs.
    assert (Ea : m_active m' = c_active (ctl m')) by done. revert Hs Ea. generalize (ctl m'). intros c2 Hs Ea.
    destruct Hs as [a tc fc rc blk s c1 t1 f1 r1 Htop He Hblk Hstm Hc1 Htop1|a tc fc rc blk c' Htop He Hblk Hpc' Hc].
    - assert (c_active c1 = a) as Ea1 by (by destruct Hc1). cbn in Ea. rewrite Ea1 in Ea.
      rewrite <-Ea in *. destruct Htop as [Ht1 Hs1]. destruct (ctl_top _ _ _ _ _ Ht Hst _ _ _ Ht1 Hs1) as (<- & <- & <-).
      cbn in Hblk, Hstm. rewrite Hblk in Hb. injection Hb as ->. rewrite Hpc in Hstm. apply lookup_lt_Some in Hstm. lia.
    - apply c_term_active in Hc as Ea1. cbn in Ea1. rewrite Ea1 in Ea. rewrite <-Ea in *. destruct Htop as [Ht1 Hs1].
      destruct (ctl_top _ _ _ _ _ Ht Hst _ _ _ Ht1 Hs1) as (<- & <- & <-). cbn in Hblk. rewrite Hblk in Hb. injection Hb as ->. done.
  Qed.

  (** a thread of the control part *)
  Lemma ctl_put_at (c : Ctl P) m' t : ctl m' = c_put c t -> c_active c = m_active m' -> (m_active m' < length (c_threads c))%nat ->
    exists t', m_threads m' !! m_active m' = Some t' /\ tctl t' = t.
  Proof.
    intros E Ea Hl. apply ctl_of. rewrite E. cbn. rewrite Ea. by apply list_lookup_insert.
  Qed.
  Lemma tctl_stack (t : Thread P F) fc rc s ps : tctl t = mkTCtl (fc :: rc) s ps -> exists f r, t_stack t = f :: r /\ fctl f = fc /\ List.map fctl r = rc /\
    t_payloads t = ps /\ t_state t = s.
  Proof. unfold tctl. intros [= E <- <-]. destruct (t_stack t) as [|f r]; [done|]. cbn in E. injection E as <- <-. by exists f, r. Qed.
  Lemma c_top_of m a tc fc rc : c_threads (ctl m) !! a = Some tc -> tc_stack tc = fc :: rc ->
    exists t f r, m_threads m !! a = Some t /\ t_stack t = f :: r /\ tctl t = tc /\ fctl f = fc /\ List.map fctl r = rc.
  Proof.
    intros Hc Hs. apply ctl_of in Hc as (t & Ht & <-). cbn in Hs. destruct (t_stack t) as [|f r] eqn:Es; [done|]. cbn in Hs. injection Hs as <- <-.
    by exists t, f, r.
  Qed.
  Lemma jumped_at (f g : StackFrame P F) b : fctl g = fc_at (fctl f) b 0 -> jumped b f g.
  Proof. unfold fctl, fc_at. cbn. intros [= H1 H2 H3 H4 H5]. by repeat split. Qed.

  Lemma jump_moves m m' (c : Ctl P) b tc fc rc ps (Q : list (ThinPtr P) -> list (ThinPtr P) -> Prop) :
    c_threads (ctl m) !! m_active m' = Some tc -> tc_stack tc = fc :: rc -> Q (tc_payloads tc) ps ->
    c_active c = m_active m' -> (m_active m' < length (c_threads c))%nat ->
    (exists s, ctl m' = c_put c (mkTCtl (fc_at fc b 0 :: rc) s ps)) -> top_moves m m' (m_active m') (jumped b) Q.
  Proof.
    intros Hc Hs HQ Ea Hl [s E]. destruct (c_top_of _ _ _ _ _ Hc Hs) as (t & f & r & Ht & Hst & <- & <- & <-).
    destruct (ctl_put_at _ _ _ E Ea Hl) as (t' & Ht' & Etc). apply tctl_stack in Etc as (f' & r' & Hs' & Ef & Er & Ep & _).
    exists t, f, r, t', f', r'. do 4 (split; [done|]). split; [by apply jumped_at|]. split; [by apply fctl_list|]. by rewrite Ep.
  Qed.
  Lemma step_goto m m' b : steps_to T MO m m' -> at_terminator m (m_active m') (TmGoto b) ->
    top_moves m m' (m_active m') (jumped b) (fun x y => y = x).
  Proof.
    intros Hs Ha. pose proof (ctl_term _ _ _ Hs Ha) as Hc. inversion Hc as [b0 c' Hj| | | | | | | |]; subst.
    destruct Hj as (tc & fc & rc & [Htc Hfc] & E). eapply (jump_moves m m' _ b tc fc rc (tc_payloads tc)); [exact Htc|exact Hfc|done| | |by exists (tc_state tc)]; [done|].
    cbn in Htc. cbn. by eapply lookup_lt_Some.
  Qed.
  Lemma map_get_selects (cases : list (Z * BbName)) fb i : selects cases fb i (match map_get cases i with Some b => b | None => fb end).
  Proof.
    induction cases as [|[k b] l IH]; [right; split; [by intros []|done]|]. rewrite map_get_cons.
    case_bool_decide as Ek.
    - subst k. left. exists [], l. split; [done|]. by intros [].
    - destruct IH as [(l1 & l2 & E & Hn)|[Hn E]].
      + left. exists ((k, b) :: l1), l2. split; [cbn; by f_equal|]. cbn. intros [?|?]; congruence.
      + right. split; [|done]. cbn. intros [?|?]; congruence.
  Qed.
  Lemma step_switch m m' v cases fb : steps_to T MO m m' -> at_terminator m (m_active m') (TmSwitch v cases fb) ->
    exists i ty m1 b, eval_value T MO v (turn m (m_active m')) = Ret (VInt i, ty, m1) /\ selects cases fb i b /\
      top_moves m m' (m_active m') (jumped b) (fun x y => y = x).
  Proof.
    intros Hs Ha. destruct (step_term T MO _ _ _ Hs Ha) as (cs & cs' & He). cbn [eval_terminator] in He.
    apply obind_ret in He as ([[x ty] m1] & Hv & He). destruct x as [i| | | | |]; try done. apply obind_ret in He as (m2 & Hj & [= -> _]).
    exists i, ty, m1, (match map_get cases i with Some b => b | None => fb end). split; [done|]. split; [apply map_get_selects|].
    pose proof (eval_value_still T MO BL v (turn m (m_active m'))) as S. rewrite Hv in S. destruct S as [S _]. cbn [snd] in S.
    pose proof (jump_ctl m1 (match map_get cases i with Some b => b | None => fb end)) as Hc. rewrite Hj in Hc.
    destruct Hc as (tc & fc & rc & [Htc Hfc] & E). rewrite S in Htc, E.
    eapply (jump_moves m m' _ _ tc fc rc (tc_payloads tc)); [exact Htc|exact Hfc|done| | |by exists (tc_state tc)]; [done|].
    cbn in Htc. cbn. by eapply lookup_lt_Some.
  Qed.
  Lemma step_start_unwind m m' v b : steps_to T MO m m' -> at_terminator m (m_active m') (TmStartUnwind v b) ->
    exists p m1, eval_value T MO v (turn m (m_active m')) = Ret (VPtr p, TPtr (PRaw MKNone), m1) /\
      top_moves m m' (m_active m') (jumped b) (fun x y => y = p_thin p :: x).
  Proof.
    intros Hs Ha. destruct (step_term T MO _ _ _ Hs Ha) as (cs & cs' & He). cbn [eval_terminator] in He.
    apply obind_ret in He as ([[x ty] m1] & Hv & He). destruct x as [| |p| | |]; try done. destruct ty as [| |[| |[]| |]| | | | | |]; try done.
    apply obind_ret in He as (t & Ht & He). unfold active_thread in Ht. apply unwrap_ret in Ht. apply obind_ret in He as (m2 & Hj & [= -> _]).
    exists p, m1. split; [done|].
    pose proof (eval_value_still T MO BL v (turn m (m_active m'))) as S. rewrite Hv in S. destruct S as [S _]. cbn [snd] in S.
    set (m2 := set_active_thread _ _) in *. pose proof (jump_ctl m2 b) as Hc. rewrite Hj in Hc.
    destruct Hc as (tc & fc & rc & [Htc Hfc] & E). unfold m2 in Htc, E. rewrite ctl_put in Htc, E.
    rewrite (same_active _ _ S) in Ht. cbn [m_active turn] in Ht.
    assert (Htc0 : c_threads (ctl m) !! m_active m' = Some (tctl t)).
    { pose proof (ctl_thread m1 (m_active m')) as Hx. rewrite Ht, S in Hx. exact Hx. }
    rewrite S in Htc, E. cbn in Htc. rewrite list_lookup_insert in Htc by (by eapply lookup_lt_Some). injection Htc as <-.
    eapply (jump_moves m m' _ _ (tctl t) fc rc (p_thin p :: t_payloads t)); [exact Htc0|exact Hfc|done| | |exists (t_state t); exact E]; [done|].
    cbn. rewrite insert_length. by eapply lookup_lt_Some.
  Qed.
  Lemma step_stop_unwind m m' b : steps_to T MO m m' -> at_terminator m (m_active m') (TmStopUnwind b) ->
    top_moves m m' (m_active m') (jumped b) (fun x y => exists p, x = p :: y).
  Proof.
    intros Hs Ha. pose proof (ctl_term _ _ _ Hs Ha) as Hc. inversion Hc as [| | | | | |b0 p ps tc fc rc c' [Htc Hfc] Hps E| |]; subst.
    eapply (jump_moves m m' _ b tc fc rc ps); [exact Htc|exact Hfc|by exists p| | |by exists (tc_state tc)]; [done|].
    cbn in Htc. cbn. by eapply lookup_lt_Some.
  Qed.
  Lemma step_resume m m' : steps_to T MO m m' -> at_terminator m (m_active m') TmResumeUnwind ->
    exists t f g r nb b p t' g' r', m_threads m !! m_active m' = Some t /\ t_stack t = f :: g :: r /\ f_action f = BackToCaller nb (Some b) p /\
      m_threads m' !! m_active m' = Some t' /\ t_stack t' = g' :: r' /\ jumped b g g' /\ Forall2 same_frame r r' /\ t_payloads t' = t_payloads t.
  Proof.
    intros Hs Ha. pose proof (ctl_term _ _ _ Hs Ha) as Hc. inversion Hc as [| | | | | | |tc fc gc rc b nb p c' [Htc Hfc] Hact E|]; subst.
    destruct (c_top_of _ _ _ _ _ Htc Hfc) as (t & f & r & Ht & Hst & <- & <- & Er). destruct r as [|g r]; [done|]. cbn in Er. injection Er as <- <-.
    destruct (ctl_put_at _ m' _ E) as (t' & Ht' & Etc); [done|cbn in Htc; cbn; by eapply lookup_lt_Some|].
    apply tctl_stack in Etc as (g' & r' & Hs' & Ef & Er & Ep & _).
    exists t, f, g, r, nb, b, p, t', g', r'. do 5 (split; [done|]). split; [by apply jumped_at|]. split; [by apply fctl_list|]. done.
  Qed.
  Lemma step_intrinsic_jumps m m' op args ret nb : steps_to T MO m m' -> at_terminator m (m_active m') (TmIntrinsic op args ret nb) ->
    exists b, nb = Some b /\ top_moves m m' (m_active m') (jumped b) (fun x y => y = x).
  Proof.
    intros Hs Ha. pose proof (ctl_term _ _ _ Hs Ha) as Hc. inversion Hc as [| | | | | | | |op0 args0 ret0 b c1 c' Hi Hj]; subst. exists b. split; [done|].
    destruct Hj as (tc & fc & rc & [Htc Hfc] & E). set (c := c_with_active (ctl m) (m_active m')) in *.
    assert (Ea : c_active c1 = m_active m') by (by apply c_intr_active in Hi).
    assert (exists tc0, c_threads c !! m_active m' = Some tc0 /\ tc_stack tc0 = tc_stack tc /\ tc_payloads tc0 = tc_payloads tc) as (tc0 & H0 & H1 & H2).
    { assert (Hat : at_terminator m (m_active m') (TmIntrinsic op args ret (Some b))) by done.
      destruct Hat as (f0 & blk & (t0 & r0 & Ht0 & _) & _).
      assert (Hc0 : c_threads c !! m_active m' = Some (tctl t0)). { change (c_threads (ctl m) !! m_active m' = Some (tctl t0)). by rewrite ctl_thread, Ht0. }
      rewrite Ea in Htc. revert Htc. clear E Hc Hs.
      assert (Hput : forall t, c_threads c !! c_active c = Some t -> t = tctl t0). { intros t Ht. change (c_active c) with (m_active m') in Ht. congruence. }
      inversion Hi; subst; cbn; intros Htc; try (by exists tc).
      - rewrite lookup_app_l in Htc by (by eapply lookup_lt_Some). by exists tc.
      - rewrite list_lookup_insert in Htc by (by eapply lookup_lt_Some). injection Htc as <-. exists (tctl t0). rewrite (Hput t); done.
      - rewrite list_lookup_insert in Htc by (by eapply lookup_lt_Some). injection Htc as <-. exists (tctl t0). rewrite (Hput t); done.
      - unfold set_state_at in Htc. destruct (_ !! w) as [tw|] eqn:Ew; [|by exists tc]. destruct (decide (w = m_active m')) as [->|Hn].
        + rewrite list_lookup_insert in Htc by (by eapply lookup_lt_Some). injection Htc as <-. by exists tw.
        + rewrite list_lookup_insert_ne in Htc by done. by exists tc. }
    eapply (jump_moves m m' c1 b tc0 fc rc (tc_payloads tc)); [exact H0|by rewrite H1|by symmetry|exact Ea| |by exists (tc_state tc)].
    rewrite Ea in Htc. by eapply lookup_lt_Some.
  Qed.

  (** ** Statements *)

  Lemma ctl_stmt m m' s : steps_to T MO m m' -> at_statement m (m_active m') s ->
    exists c1 t1 f1 r1, c_stmt (c_with_active (ctl m) (m_active m')) s c1 /\ c_top c1 t1 f1 r1 /\ c_active c1 = m_active m' /\
      ctl m' = c_put c1 (tc_with_stack t1 (fc_at f1 (fc_block f1) (S (fc_stmt f1)) :: r1)).
  Proof.
    intros Hs (f & b & (t & r & Ht & Hst & Hb) & Hpc). apply ctl_step in Hs.
    assert (Ea : m_active m' = c_active (ctl m')) by done. revert Hs Ea. generalize (ctl m'). intros c2 Hs Ea.
    destruct Hs as [a tc fc rc blk s' c1 t1 f1 r1 Htop He Hblk Hstm Hc1 Htop1|a tc fc rc blk c' Htop He Hblk Hpc' Hc].
    - assert (c_active c1 = a) as Ea1 by (by destruct Hc1). cbn in Ea. rewrite Ea1 in Ea.
      rewrite <-Ea in *. destruct Htop as [Ht1 Hs1]. destruct (ctl_top _ _ _ _ _ Ht Hst _ _ _ Ht1 Hs1) as (<- & <- & <-).
      cbn in Hblk, Hstm. rewrite Hblk in Hb. injection Hb as ->. assert (s' = s) as -> by congruence. by exists c1, t1, f1, r1.
    - apply c_term_active in Hc as Ea1. cbn in Ea1. rewrite Ea1 in Ea. rewrite <-Ea in *. destruct Htop as [Ht1 Hs1].
      destruct (ctl_top _ _ _ _ _ Ht Hst _ _ _ Ht1 Hs1) as (<- & <- & <-). cbn in Hblk, Hpc'. rewrite Hblk in Hb. injection Hb as ->.
      rewrite Hpc' in Hpc. apply lookup_lt_Some in Hpc. lia.
  Qed.
  Lemma step_statement m m' s : steps_to T MO m m' -> at_statement m (m_active m') s ->
    match s with SStorageLive _ | SStorageDead _ => False | _ => True end ->
    top_moves m m' (m_active m') (advanced eq) (fun x y => y = x).
  Proof.
    intros Hs Ha Hno. destruct (ctl_stmt _ _ _ Hs Ha) as (c1 & t1 & f1 & r1 & Hc & [Ht1 Hs1] & Ea & E).
    assert (c1 = c_with_active (ctl m) (m_active m')) as -> by (by inversion Hc; subst). cbn in Ht1.
    destruct (c_top_of _ _ _ _ _ Ht1 Hs1) as (t & f & r & Ht & Hst & <- & <- & <-).
    destruct (ctl_put_at _ _ _ E) as (t' & Ht' & Etc); [done|cbn; by eapply lookup_lt_Some|].
    apply tctl_stack in Etc as (f' & r' & Hs' & Ef & Er & Ep & _). exists t, f, r, t', f', r'. do 4 (split; [done|]).
    split; [|split; [by apply fctl_list|done]]. unfold fctl, fc_at in Ef. cbn in Ef. injection Ef as ? ? ? ? ?. by repeat split.
  Qed.
  Lemma frame_steps m m' m1 f r t g mem : m_threads m !! m_active m' = Some t -> t_stack t = f :: r ->
    set_cur_frame (set_mem (turn m (m_active m')) mem) g = Ret m1 -> 
    f_func g = f_func f -> f_action g = f_action f -> f_block g = f_block f -> f_stmt g = f_stmt f ->
    (exists f1, cur_frame m1 = Ret f1 /\ set_cur_frame m1 (with_pc f1 (f_block f1) (S (f_stmt f1))) = Ret m') ->
    exists t', m_threads m' !! m_active m' = Some t' /\ t_stack t' = with_pc g (f_block g) (S (f_stmt g)) :: r /\ t_payloads t' = t_payloads t /\
      m_mem m' = mem.
  Proof.
    intros Ht Hst H1 Ef Eac Eb Es (f1 & Hf1 & H2). unfold set_cur_frame, active_thread in H1. cbn [m_threads m_active turn set_mem] in H1.
    rewrite Ht in H1. cbn [unwrap obind] in H1. rewrite Hst in H1. injection H1 as Em1.
    assert (Ht1 : m_threads m1 !! m_active m' = Some (with_stack t (g :: r))).
    { rewrite <-Em1. cbn. apply list_lookup_insert. by eapply lookup_lt_Some. }
    assert (Ea1 : m_active m1 = m_active m') by (by rewrite <-Em1).
    unfold cur_frame, active_thread in Hf1. rewrite Ea1, Ht1 in Hf1. cbn in Hf1. injection Hf1 as <-.
    unfold set_cur_frame, active_thread in H2. rewrite Ea1, Ht1 in H2. cbn [unwrap obind t_stack with_stack] in H2. injection H2 as Em2.
    exists (with_stack t (with_pc g (f_block g) (S (f_stmt g)) :: r)). split; [|split; [reflexivity|]].
    - assert (E : m_threads m' = <[m_active m' := with_stack t (with_pc g (f_block g) (S (f_stmt g)) :: r)]> (m_threads m1)) by (rewrite <-Ea1, <-Em2; done).
      rewrite E. apply list_lookup_insert. by eapply lookup_lt_Some.
    - split; [done|]. rewrite <-Em2, <-Em1. done.
  Qed.
  Lemma storage_dead_moves (f : StackFrame P F) mem l f' mem' : storage_dead T MO f mem l = Ret (f', mem') ->
    moves_local l None (f_locals f) (f_locals f') /\ f_func f' = f_func f /\ f_action f' = f_action f /\ f_block f' = f_block f /\ f_stmt f' = f_stmt f.
  Proof.
    unfold storage_dead. intros E. do 3 apply obind_ret in E as (? & _ & E). destruct (map_get (f_locals f) l) as [p|] eqn:Eg.
    - apply obind_ret in E as (mem1 & _ & [= <- <-]). cbn [f_locals with_locals f_func f_action f_block f_stmt]. split; [|done].
      split; [apply map_remove_get_eq|]. intros k Hk. by apply map_remove_get_ne.
    - injection E as <- <-. split; [|done]. by split.
  Qed.
  Lemma step_storage_dead m m' l : steps_to T MO m m' -> at_statement m (m_active m') (SStorageDead l) ->
    top_moves m m' (m_active m') (advanced (moves_local l None)) (fun x y => y = x).
  Proof.
    intros Hs Ha. destruct (step_stmt T MO _ _ _ Hs Ha) as (cs & m1 & cs' & f1 & He & Hf1 & Hpc & _). cbn [eval_statement] in He.
    apply obind_ret in He as (f & Hf & He). apply obind_ret in He as ([g mem] & Hsd & He). apply obind_ret in He as (m2 & Hset & [= <- _]).
    unfold cur_frame, active_thread in Hf. cbn [m_threads m_active turn] in Hf. apply obind_ret in Hf as (t & Ht & Hf). apply unwrap_ret in Ht, Hf.
    destruct (t_stack t) as [|f0 r] eqn:Hst; [done|]. injection Hf as ->. apply storage_dead_moves in Hsd as (Hm & E1 & E2 & E3 & E4).
    destruct (frame_steps _ _ _ _ _ _ _ _ Ht Hst Hset E1 E2 E3 E4) as (t' & Ht' & Hst' & Hp & _); [by exists f1|].
    exists t, f, r, t', (with_pc g (f_block g) (S (f_stmt g))), r. do 4 (split; [done|]). split.
    { unfold advanced. cbn. by rewrite E4. }
    split; [|done]. apply fctl_list. done.
  Qed.
  Hypothesis Tok : target_ok T.
  Lemma alloc_object (mem : ConcMem M) k s al ad p mem' : cm_allocate MO mem k s al ad = Ret (p, mem') ->
    forall m', m_mem m' = mem' -> object_at m' p (length (cm_mem mem)) k s al /\ stores_at m' p (repeat Uninit (N.to_nat s)).
  Proof.
    intros Hal m' Em. pose proof (alloc_md T MO BL _ _ _ _ _ _ _ Hal) as Hd.
    apply obind_ret in Hal as ([p1 mem1] & Hal & [= <- <-]). destruct (alloc_mv T MO BL Tok _ _ _ _ _ _ _ Hal) as (Hv & _ & pe & ->).
    set (n := length (cm_mem mem)). assert (Eid : length (mv (cm_mem mem)) = n) by (unfold mv; by rewrite map_length).
    assert (Hlk : cm_mem (m_mem m') = mem1) by (by rewrite Em).
    assert (exists y, mem1 !! n = Some y /\ view y = mkAV ad s al k true /\ al_data y = list_repeat Uninit s) as (y & Hy & Hvy & Hdy).
    { pose proof (f_equal (fun l => l !! n) Hv) as E1. pose proof (f_equal (fun l => l !! n) Hd) as E2. cbn beta in E1, E2. cbn in E2.
      rewrite lookup_app_r, <-Eid, Nat.sub_diag in E1 by (rewrite Eid; done). rewrite lookup_app_r in E2 by (unfold md; rewrite map_length; done).
      unfold md in E2. rewrite map_length in E2. fold n in E2. rewrite Nat.sub_diag in E2. fold (md mem1) in E2. rewrite Eid, mv_lookup in E1. rewrite md_lookup in E2. destruct (mem1 !! _) as [y|]; [|done].
      exists y. cbn in E1, E2. split; [done|]. split; congruence. }
    unfold view in Hvy. injection Hvy as Hy1 Hy2 Hy3 Hy4 Hy5. unfold object_at, stores_at, points_to, cell. rewrite Hlk. split.
    - exists pe, y. cbn [tp_prov tp_addr]. by rewrite Eid.
    - rewrite <-list_repeat_std. destruct (list_repeat Uninit s) as [|b0 l0] eqn:El0; [by left|]. right. exists n, 0%nat. cbn [tp_prov tp_addr]. split.
      { exists pe, y. rewrite Eid. split; [done|]. split; [done|]. split; [done|]. cbn. lia. }
      intros j Hj. rewrite Hy, Hdy. done.
  Qed.
  Lemma step_storage_live m m' l : steps_to T MO m m' -> at_statement m (m_active m') (SStorageLive l) ->
    exists p s al, object_at m' p (length (cm_mem (m_mem m))) AStack s al /\ stores_at m' p (repeat Uninit (N.to_nat s)) /\
      top_moves m m' (m_active m') (fun f g => advanced (moves_local l (Some p)) f g /\
        exists ty, map_get (fn_locals (f_func f)) l = Some ty /\ size_of T ty = Ret s /\ align_of T ty = Ret al) (fun x y => y = x).
  Proof.
    intros Hs Ha. destruct (step_stmt T MO _ _ _ Hs Ha) as (cs & m1 & cs' & f1 & He & Hf1 & Hpc & _). cbn [eval_statement] in He.
    apply obind_ret in He as (f & Hf & He). apply obind_ret in He as ([[g mem] cs1] & Hsd & He). apply obind_ret in He as (m2 & Hset & [= <- _]).
    unfold cur_frame, active_thread in Hf. cbn [m_threads m_active turn] in Hf. apply obind_ret in Hf as (t & Ht & Hf). apply unwrap_ret in Ht, Hf.
    destruct (t_stack t) as [|f0 r] eqn:Hst; [done|]. injection Hf as ->.
    unfold storage_live in Hsd. apply obind_ret in Hsd as ([g1 mem1] & Hsd & Hal). pose proof (storage_dead_md T MO BL _ _ _ _ _ Hsd) as Hmd. cbn in Hmd.
    apply storage_dead_moves in Hsd as (Hm & E1 & E2 & E3 & E4). apply obind_ret in Hal as (ty & Hty & Hal). apply unwrap_ret in Hty.
    apply obind_ret in Hal as (s & Hsz & Hal). apply obind_ret in Hal as (al & Hali & Hal). apply obind_ret in Hal as ([ad cs2] & _ & Hal).
    apply obind_ret in Hal as ([p mem2] & Hal & [= <- <- <-]).
    destruct (frame_steps _ _ _ _ _ _ _ _ Ht Hst Hset E1 E2 E3 E4) as (t' & Ht' & Hst' & Hp & Emem); [by exists f1|].
    destruct (alloc_object _ _ _ _ _ _ _ Hal m' Emem) as [Ho Hst2].
    assert (length (cm_mem mem1) = length (cm_mem (m_mem m))) as El. { apply (f_equal length) in Hmd. unfold md in Hmd. by rewrite !map_length in Hmd. }
    rewrite El in Ho. exists p, s, al. split; [done|]. split; [done|].
    set (g := with_locals g1 _) in *. exists t, f, r, t', (with_pc g (f_block g) (S (f_stmt g))), r. do 4 (split; [done|]). split.
    { split; [|exists ty; by rewrite <-E1]. unfold advanced, moves_local. cbn. rewrite E4. split; [done|]. split; [|done]. split; [apply map_insert_get_eq|].
      intros k Hk. rewrite map_insert_get_ne by done. by apply Hm. }
    split; [|done]. apply fctl_list. done.
  Qed.

  (** ** Other threads *)

  Definition c_woken (a : nat) (t t' : ThreadCtl P) : Prop :=
    tc_stack t' = tc_stack t /\ tc_payloads t' = tc_payloads t /\
    (tc_state t' = tc_state t \/ tc_state t' = Enabled /\ (tc_state t = BlockedOnJoin a \/ exists l, tc_state t = BlockedOnLock l)).
  Lemma c_woken_refl a t : c_woken a t t.
  Proof. split; [done|]. split; [done|by left]. Qed.
  Definition c_others (c c' : Ctl P) : Prop :=
    forall i t, i <> c_active c -> c_threads c !! i = Some t -> exists t', c_threads c' !! i = Some t' /\ c_woken (c_active c) t t'.
  Lemma c_others_same (c c' : Ctl P) : c_threads c' = c_threads c -> c_others c c'.
  Proof. intros E i t _ Ht. exists t. rewrite E. split; [done|apply c_woken_refl]. Qed.
  Lemma c_others_put (c : Ctl P) t : c_others c (c_put c t).
  Proof. intros i t0 Hi Ht. exists t0. cbn. rewrite list_lookup_insert_ne by done. split; [done|apply c_woken_refl]. Qed.
  Lemma c_others_put_l (c c1 : Ctl P) t : c_active c1 = c_active c -> c_others c c1 -> c_others c (c_put c1 t).
  Proof. intros E Hc i t0 Hi Ht. destruct (Hc i t0 Hi Ht) as (t' & Ht' & Hw). exists t'. cbn. rewrite list_lookup_insert_ne by congruence. done. Qed.
  Lemma c_others_intr (c c' : Ctl P) op : c_intrinsic c op c' -> c_others c c'.
  Proof.
    inversion 1; subst; try (by apply c_others_same); try (apply c_others_put).
    - intros i t Hi Ht. exists t. cbn. split; [|apply c_woken_refl]. apply lookup_app_l_Some. done.
    - intros i t Hi Ht. cbn. unfold set_state_at. destruct H1 as (tw & Htw & Hsw). rewrite Htw. destruct (decide (i = w)) as [->|Hn].
      + rewrite list_lookup_insert by (by eapply lookup_lt_Some). exists (tc_with_state tw Enabled). split; [done|]. rewrite Htw in Ht. injection Ht as <-.
        split; [done|]. split; [done|]. right. split; [done|]. right. by exists l.
      + rewrite list_lookup_insert_ne by done. exists t. split; [done|apply c_woken_refl].
  Qed.
  Lemma c_others_jump (c c1 c2 : Ctl P) b : c_active c1 = c_active c -> c_others c c1 -> c_jump c1 b c2 -> c_others c c2.
  Proof. intros E Ho (t & f & r & _ & ->). by apply c_others_put_l. Qed.
  Lemma c_others_term (c c' : Ctl P) tm : c_term c tm c' -> c_others c c'.
  Proof.
    inversion 1; subst; try (apply c_others_put).
    - eapply c_others_jump; [done| |done]. by apply c_others_same.
    - eapply c_others_jump; [done| |done]. by apply c_others_same.
    - intros i t0 Hi Ht0. cbn. exists (if bool_decide (tc_state t0 = BlockedOnJoin (c_active c)) then tc_with_state t0 Enabled else t0). split.
      + match goal with |- List.map ?g ?l !! _ = _ => change (List.map g l) with (g <$> l) end. rewrite list_lookup_fmap, list_lookup_insert_ne by done. by rewrite Ht0.
      + case_bool_decide as Eb; [|apply c_woken_refl]. split; [done|]. split; [done|]. right. split; [done|]. by left.
    - eapply c_others_jump; [by eapply c_intr_active|by eapply c_others_intr|done].
  Qed.
  Lemma step_others m m' i t : steps_to T MO m m' -> i <> m_active m' -> m_threads m !! i = Some t ->
    exists t', m_threads m' !! i = Some t' /\ Forall2 same_frame (t_stack t) (t_stack t') /\ t_payloads t' = t_payloads t /\
      (t_state t' = t_state t \/ t_state t' = Enabled /\ (t_state t = BlockedOnJoin (m_active m') \/ exists l, t_state t = BlockedOnLock l)).
  Proof.
    intros Hs Hi Ht.
    assert (Ho : c_others (c_with_active (ctl m) (m_active m')) (ctl m')).
    { apply ctl_step in Hs. assert (Ea : m_active m' = c_active (ctl m')) by done. revert Hs Ea. generalize (ctl m'). intros c2 Hs Ea.
      destruct Hs as [a tc fc rc blk s c1 t1 f1 r1 Htop He Hblk Hstm Hc1 Htop1|a tc fc rc blk c' Htop He Hblk Hpc' Hc].
      - assert (c_active c1 = a) as Ea1 by (by destruct Hc1). cbn in Ea. rewrite Ea1 in Ea. rewrite Ea.
        apply c_others_put_l; [done|]. inversion Hc1; subst; [by apply c_others_same|apply c_others_put..].
      - apply c_term_active in Hc as Ea1. cbn in Ea1. rewrite Ea1 in Ea. rewrite Ea. by eapply c_others_term. }
    destruct (Ho i (tctl t)) as (tc & Htc & H1 & H2 & H3); [done|cbn; rewrite list_lookup_fmap, Ht; done|].
    apply ctl_of in Htc as (t' & Ht' & <-). exists t'. split; [done|]. split; [by apply fctl_list|]. split; done.
  Qed.
  Lemma c_intr_fixed (c c' : Ctl P) op : c_intrinsic c op c' -> c_prog c' = c_prog c /\ c_globals c' = c_globals c /\ c_fnptrs c' = c_fnptrs c /\ c_vtptrs c' = c_vtptrs c /\
    (op <> InPointerExposeProvenance -> c_exposed c' = c_exposed c) /\ ((forall k, op <> InLock k) -> c_locks c' = c_locks c).
  Proof.
    destruct 1; (split; [reflexivity|]); (split; [reflexivity|]); (split; [reflexivity|]); (split; [reflexivity|]); split; intros Hn; try reflexivity; exfalso; by eapply Hn.
  Qed.
  Lemma c_jump_fixed (c c' : Ctl P) b : c_jump c b c' -> c_prog c' = c_prog c /\ c_globals c' = c_globals c /\ c_fnptrs c' = c_fnptrs c /\ c_vtptrs c' = c_vtptrs c /\
    c_exposed c' = c_exposed c /\ c_locks c' = c_locks c.
  Proof. by intros (t & f & r & _ & ->). Qed.
  Lemma step_fixed m m' : steps_to T MO m m' ->
    m_prog m' = m_prog m /\ m_globals m' = m_globals m /\ m_fnptrs m' = m_fnptrs m /\ m_vtptrs m' = m_vtptrs m /\
    (~ at_intrinsic m (m_active m') InPointerExposeProvenance -> m_exposed m' = m_exposed m) /\
    ((forall k, ~ at_intrinsic m (m_active m') (InLock k)) -> m_locks m' = m_locks m).
  Proof.
    intros Hs. pose proof Hs as Hs'. apply step_at in Hs' as (cs & cs' & [(tm & Htm & _)|(s & m1 & f & Hst & _)]).
    - pose proof (ctl_term _ _ _ Hs Htm) as Hc.
      assert (Hgoal : c_prog (ctl m') = c_prog (ctl m) /\ c_globals (ctl m') = c_globals (ctl m) /\ c_fnptrs (ctl m') = c_fnptrs (ctl m) /\ c_vtptrs (ctl m') = c_vtptrs (ctl m) /\
        (~ at_intrinsic m (m_active m') InPointerExposeProvenance -> c_exposed (ctl m') = c_exposed (ctl m)) /\
        ((forall k, ~ at_intrinsic m (m_active m') (InLock k)) -> c_locks (ctl m') = c_locks (ctl m))); [|exact Hgoal].
      revert Hc. set (c := c_with_active _ _). intros Hc.
      change (c_prog (ctl m)) with (c_prog c). change (c_globals (ctl m)) with (c_globals c). change (c_fnptrs (ctl m)) with (c_fnptrs c).
      change (c_vtptrs (ctl m)) with (c_vtptrs c). change (c_exposed (ctl m)) with (c_exposed c). change (c_locks (ctl m)) with (c_locks c).
      revert Hc Htm. generalize (ctl m'). clear Hs. generalize (m_active m'). intros a c2 Hc Htm.
      destruct Hc as [b c' Hj|v cases fb i b c' Eb Hj| |t f r sync c' Htop Hf Hr Hna Hsync Ec|t f g r b ub p c' Htop Hf Ec|v b p t f r c' Htop Ec|b p ps t f r c' Htop Hps Ec|t f g r b nb p c' Htop Hf Ec|op args ret b c1 c' Hi Hj];
        try (apply c_jump_fixed in Hj as (-> & -> & -> & -> & -> & ->)); try subst c'; try done.
      apply c_intr_fixed in Hi as (H1 & H2 & H3 & H4 & H5 & H6). repeat (split; [done|]). split.
      + intros Hn. apply H5. intros ->. apply Hn. by eexists _, _, _.
      + intros Hn. apply H6. intros k ->. apply (Hn k). by eexists _, _, _.
    - destruct (ctl_stmt _ _ _ Hs Hst) as (c1 & t1 & f1 & r1 & Hc & _ & _ & E).
      assert (Hgoal : c_prog (ctl m') = c_prog (ctl m) /\ c_globals (ctl m') = c_globals (ctl m) /\ c_fnptrs (ctl m') = c_fnptrs (ctl m) /\ c_vtptrs (ctl m') = c_vtptrs (ctl m) /\
        c_exposed (ctl m') = c_exposed (ctl m) /\ c_locks (ctl m') = c_locks (ctl m)).
      { rewrite E. by destruct Hc. }
      destruct Hgoal as (H1 & H2 & H3 & H4 & H5 & H6). do 4 (split; [done|]). by split; intros _.
  Qed.
End Flow.
