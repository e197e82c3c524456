(** Machines run structured programs: proofs. *)
From Verif Require Import MeanProofs UnwindProofs StepAt SchedProofs PropsOwn PropsMach PropsData.
From Verif Require Export BuildTotal PlanSpec.
From Verif Require Import DataSpec ExprSpec.

(** ** Built functions *)

Lemma built_follows func c : built_for func c -> follows func (fn_start func) 0 [c].
Proof.
  intros (name & h & E). pose proof (build_total name h c) as Ht. rewrite E in Ht. by destruct Ht as (_ & ? & _).
Qed.
Lemma built_start func c : built_for func c -> exists b, map_get (fn_blocks func) (fn_start func) = Some b /\ bb_kind b = BkRegular.
Proof.
  intros (name & h & E). destruct (build_parts name h) as (b1 & Hf1 & Hc1 & S1 & B1 & _ & _ & _ & _ & _ & Eb). rewrite Eb in E.
  destruct (emit c b1) as [b2| | |] eqn:E2; try discriminate E. cbn [obind] in E. apply finish_function_ret in E as (Hc2 & Hb & Hs).
  assert (Hf : final func b2) by (split; [by rewrite Hb|by rewrite Hc2]).
  pose proof (emit_backs func c _ _ E2 Hf) as [_ Hf2]. destruct (Hf2 _ Hc1) as (blk & rest & Hblk & _ & Hk). simpl in Hblk, Hk.
  pose proof (proj1 (emit_total c) b1 _ Hf1 Hc1) as Ht. rewrite E2 in Ht. destruct Ht as (_ & _ & (_ & _ & _ & (Hs2 & _) & _) & _).
  exists blk. split; [|done]. by rewrite Hs, Hs2, S1.
Qed.
Lemma built_regular prog : built_program prog -> starts_regular prog.
Proof. intros Hb n f Hn. destruct (Hb n f Hn) as (c & Hc). exact (built_start f c Hc). Qed.

Lemma follows_moves func b i k : follows func b i k -> moves_as func (follows func) b i k.
Proof.
  intros (R & HR & H). apply (moves_mono func R); [|by apply HR]. intros b' i' k' H'. by exists R.
Qed.

(** ** Positions *)

Section Plans.
  Context {PE AE F : Type} `{EqDecision (nat * PE)}.
  Variable T : Target.
  Notation P := (nat * PE)%type.
  Variable MO : MemOps P F (BMem PE AE).
  Notation Mach := (Machine P F (BMem PE AE)).
  Hypothesis Tok : target_ok T.
  Hypothesis MM : memory_model T MO.
  Variable prog : Program.
  Hypothesis Hwf : program_check_wf T prog = Ret tt.
  Hypothesis Hbuilt : built_program prog.

  Definition on_plan (p : Pos (P:=P)) (k : list Cmd) : Prop := follows (po_func p) (po_block p) (po_stmt p) k.
  Definition thread_plan (t : Thread P F) (ks : list (list Cmd)) : Prop := Forall2 on_plan (positions t) ks.

  Lemma same_positions (r r' : list (StackFrame P F)) : Forall2 same_frame r r' -> List.map pos r' = List.map pos r.
  Proof.
    induction 1 as [|f g r r' (H1 & H2 & H3 & H4 & H5) _ IH]; [done|]. simpl. rewrite IH. unfold pos. by rewrite H1, H3, H4, H5.
  Qed.
  Lemma jumped_pos b (f g : StackFrame P F) : jumped b f g -> pos g = mkPos (f_func f) (f_action f) b 0.
  Proof. intros (H1 & H2 & H3 & H4 & H5). unfold pos. by rewrite H1, H3, H4, H5. Qed.

  (** the value of a condition *)
  Lemma test_value (m : Mach) c i ty : value_means T m (b_bool_to_u8 c) (VInt i) ty ->
    exists v vty, value_means T m c v vty /\ (vty = TBool -> v = VBool (bool_decide (i = 1))).
  Proof.
    intros Hv. inversion Hv as [| | | | | | |op e v vty w wty He Hu|]; subst. exists v, vty. split; [done|]. intros ->.
    inversion Hu; subst. destruct v as [ |b| | | | ]; try done. simpl in *.
    match goal with H : Ret [_] = Ret _ |- _ => injection H as <- end. f_equal. 
    match goal with H : decode_int _ _ _ = _ |- _ => rename H into H3 end.
    unfold decode_int, decode_int_opt in H3. simpl in H3. injection H3 as <-.
    generalize (ENDIANNESS T). intros []; destruct b; vm_compute; done.
  Qed.

  Notation a_of m' := (m_active m').

  (** the top frame of a thread that takes a step *)
  Lemma step_top (m m' : Mach) : steps_to T MO m m' -> exists t f r b, m_threads m !! a_of m' = Some t /\ t_stack t = f :: r /\
    map_get (fn_blocks (f_func f)) (f_block f) = Some b /\
    ((exists s, at_statement m (a_of m') s /\ stmt_at (f_func f) (f_block f) (f_stmt f) s) \/
     (exists tm, at_terminator m (a_of m') tm /\ term_at (f_func f) (f_block f) (f_stmt f) tm)).
  Proof.
    intros Hs. destruct (step_at T MO m m' Hs) as (cs & cs' & [(tm & Ht & _)|(s & m1 & f1 & Ht & _)]).
    - pose proof Ht as Ht'. destruct Ht as (f & b & (t & r & H1 & H2 & H3) & H4 & H5). exists t, f, r, b. do 3 (split; [done|]).
      right. exists tm. split; [done|]. by exists b.
    - pose proof Ht as Ht'. destruct Ht as (f & b & (t & r & H1 & H2 & H3) & H4). exists t, f, r, b. do 3 (split; [done|]).
      left. exists s. split; [done|]. by exists b.
  Qed.

  (** statements lead to the next one *)
  Lemma step_advances (m m' : Mach) s : steps_to T MO m m' -> at_statement m (a_of m') s ->
    top_moves m m' (a_of m') (advanced (fun _ _ => True)) (fun _ _ => True).
  Proof.
    intros Hs Ha.
    assert (exists L Q R, top_moves m m' (a_of m') (fun f g => advanced L f g /\ R f g) Q) as (L & Q & R & Hm).
    { assert (G : forall L Q, top_moves m m' (a_of m') (advanced L) Q -> exists L Q R, top_moves m m' (a_of m') (fun f g => advanced L f g /\ R f g) Q).
      { intros L Q (t & f & r & t' & f' & r' & ? & ? & ? & ? & ? & ? & ?). exists L, Q, (fun _ _ => True).
        exists t, f, r, t', f', r'. done. }
      destruct s.
      all: try (refine (G _ _ (step_statement T MO m m' _ Hs Ha _)); done).
      - destruct (step_storage_live T MO (model_like _ _ MM) Tok m m' _ Hs Ha) as (p & sz & al & _ & _ & Hm). eexists _, _, _. exact Hm.
      - exact (G _ _ (step_storage_dead T MO m m' _ Hs Ha)). }
    destruct Hm as (t & f & r & t' & f' & r' & ? & ? & ? & ? & [(? & ? & ? & ? & ?) _] & ? & ?).
    exists t, f, r, t', f', r'. repeat (split; [done|]). done.
  Qed.

  (** the call a frame is waiting for *)
  Lemma call_plan func b i f conv args ret nb ub k : term_at func b i (TmCall f conv args ret nb ub) -> follows func b i k ->
    (forall d, nb = Some d -> exists u k', does k (ACall f conv args ret u) k' /\ follows func d 0 k') /\
    (forall d, ub = Some d -> exists k', does k (AUnwind f conv args ret) k' /\ follows func d 0 k').
  Proof.
    intros Ht Hf. apply follows_moves in Hf.
    inversion Hf as [? ? ? ? Ht'|? ? ? ? ? Hs'|? ? ? ? ? ? ? ? Ht'|? ? ? ? ? ? ? ? ? Ht' Hd Hr|? ? ? ? ? ? ? ? ? ? ? Ht' Hd Hr Hd2 Hr2|
      ? ? ? ? ? ? Ht'|? ? ? ? ? ? Ht'|? ? ? ? ? ? ? ? Ht'|? ? e ? Ht']; subst;
      try (destruct (stmt_term _ _ _ _ _ Hs' Ht)); pose proof (term_term _ _ _ _ _ Ht Ht') as EQ; try discriminate EQ.
    - injection EQ as -> -> -> -> -> ->. split; [|done]. intros d [= <-]. by eexists _, _.
    - injection EQ as -> -> -> -> -> ->. split; intros d [= <-]; [by eexists _, _|by eexists].
    - destruct e; try discriminate EQ. injection EQ as -> -> -> -> -> ->. done.
  Qed.

  Lemma plan_cons (f : StackFrame P F) r ks : Forall2 on_plan (List.map pos (f :: r)) ks ->
    exists k ks', ks = k :: ks' /\ follows (f_func f) (f_block f) (f_stmt f) k /\ Forall2 on_plan (List.map pos r) ks'.
  Proof. simpl. intros Hp. inversion Hp as [|? k ? ks' H1 H2]; subst. by exists k, ks'. Qed.
  Lemma moves_follows func b i k : moves_as func (follows func) b i k -> follows func b i k.
  Proof.
    intros Hm. exists (fun b i k => moves_as func (follows func) b i k). split; [|done]. intros b1 i1 k1 H1.
    apply (moves_mono func (follows func)); [|done]. intros b2 i2 k2 H2. by apply follows_moves.
  Qed.

  (** the top frame moves on inside its function *)
  Lemma plan_top (m m' : Mach) (t : Thread P F) f r R Q k k' ks' : m_threads m !! a_of m' = Some t -> t_stack t = f :: r ->
    top_moves m m' (a_of m') R Q -> (forall g, R f g -> follows (f_func g) (f_block g) (f_stmt g) k') ->
    Forall2 on_plan (List.map pos r) ks' -> plan_step T m m' (a_of m') (k :: ks') (k' :: ks') ->
    exists t' ks1, m_threads m' !! a_of m' = Some t' /\ thread_plan t' ks1 /\ plan_step T m m' (a_of m') (k :: ks') ks1.
  Proof.
    intros Ht Hst (t0 & f0 & r0 & t' & g & r' & Ht0 & Hst0 & Ht' & Hst' & HR & Hr & _) Hg Hks Hp.
    assert (t0 = t) as -> by congruence. rewrite Hst in Hst0. injection Hst0 as <- <-.
    exists t', (k' :: ks'). split; [done|]. split; [|done]. unfold thread_plan, positions. rewrite Hst'. simpl.
    constructor; [apply Hg, HR|]. by rewrite (same_positions _ _ Hr).
  Qed.
  Lemma jumped_follows b (f g : StackFrame P F) k : jumped b f g -> follows (f_func f) b 0 k -> follows (f_func g) (f_block g) (f_stmt g) k.
  Proof. intros (H1 & H2 & H3 & H4 & H5) Hk. by rewrite H1, H4, H5. Qed.

  (** functions that are called have a plan *)
  Lemma called_plan (m m' : Mach) st callee conv args ret nb ub : reachable T MO prog m -> steps_to T MO m m' ->
    at_terminator m (a_of m') (TmCall callee conv args ret nb ub) -> stack_of m (a_of m') st ->
    exists t' f st' c, m_threads m' !! a_of m' = Some t' /\ t_stack t' = f :: st' /\ List.map pos st' = List.map pos st /\
      enters m' (a_of m') (f_func f) /\ built_for (f_func f) c /\ on_plan (pos f) [c].
  Proof.
    intros Hr Hs Ha Hst.
    destruct (mean_call T MO (model_like _ _ MM) Tok (model_retag _ _ MM) prog m m' callee conv args ret nb ub (reach_minv T MO (model_like _ _ MM) Tok prog m Hr) Hs Ha)
      as (rptr & al & rty & rs & m1 & fv & fty & func & vals & moved & f & st0 & st' & _ & _ & _ & _ & _ & _ & H1 & H2 & H3 & H4 & H5 & H6 & _).
    assert (st0 = st) as -> by (destruct H1 as (? & ? & ?), Hst as (? & ? & ?); congruence).
    assert (Hr' : reachable T MO prog m') by (by eapply reach_step).
    pose proof H2 as Hst'. destruct H2 as (t' & Ht' & Es).
    destruct (reach_stack T MO prog (program_wf_blocks T prog Hwf) (built_regular _ Hbuilt) m' _ t' Hr' Ht') as (Hterm & Hok & _).
    assert (Hok' : stack_ok prog (positions t')) by (apply Hok; intros E; rewrite (Hterm E) in Es; done).
    unfold positions in Hok'. rewrite Es in Hok'.
    assert (frame_ok prog (pos f)) as [(n & Hn) _] by (by inversion Hok').
    destruct (Hbuilt n _ Hn) as (c & Hc). exists t', f, st', c. split; [done|]. split; [done|]. split; [by apply same_positions|].
    simpl in Hc. subst func. split; [by exists f, st'|]. split; [done|]. unfold on_plan, pos. simpl. rewrite H5, H6. by apply built_follows.
  Qed.

  Lemma plan_main (m m' : Mach) t ks : reachable T MO prog m -> steps_to T MO m m' -> m_threads m !! a_of m' = Some t -> thread_plan t ks ->
    exists t' ks', m_threads m' !! a_of m' = Some t' /\ thread_plan t' ks' /\ plan_step T m m' (a_of m') ks ks'.
  Proof.
    intros Hr Hs Ht Hp. destruct (step_top m m' Hs) as (t0 & f & r & blk & Ht0 & Hst & Hblk & Hat).
    assert (t0 = t) as -> by congruence. unfold thread_plan, positions in Hp. rewrite Hst in Hp.
    destruct (plan_cons _ _ _ Hp) as (k & ks1 & -> & Hk & Hks).
    destruct (reach_stack T MO prog (program_wf_blocks T prog Hwf) (built_regular _ Hbuilt) m _ t Hr Ht) as (Hterm & Hok & _).
    assert (Hok' : stack_ok prog (positions t)) by (apply Hok; intros E; rewrite (Hterm E) in Hst; done).
    unfold positions in Hok'. rewrite Hst in Hok'. clear Hterm Hok.
    pose proof (follows_moves _ _ _ _ Hk) as Hm.
    destruct Hat as [(s & Ha & Hat)|(tm & Ha & Hat)].
    { inversion Hm as [? ? ? ? Ht'|? ? s' ? k' Hs' Hd HR|? ? ? ? ? ? ? ? Ht'|? ? ? ? ? ? ? ? ? Ht'|? ? ? ? ? ? ? ? ? ? ? Ht'|
        ? ? ? ? ? ? Ht'|? ? ? ? ? ? Ht'|? ? ? ? ? ? ? ? Ht'|? ? e ? Ht']; subst; try (destruct (stmt_term _ _ _ _ _ Hat Ht')).
      pose proof (stmt_stmt _ _ _ _ _ Hat Hs') as <-.
      refine (plan_top m m' t f r _ _ k k' ks1 Ht Hst (step_advances m m' s Hs Ha) _ Hks _); [|by apply (ps_stmt _ _ _ _ s)].
      intros g (H1 & _ & _ & H4 & H5). by rewrite H1, H4, H5. }
    inversion Hm as [? ? b' ? Ht' Hm'|? ? ? ? ? Hs'|? ? op args ret nb ? k' Ht' Hd HR|? ? callee conv args ret nb ? k' Ht' Hd HR|
      ? ? callee conv args ret nb ub ? k' kh Ht' Hd HR Hdh HRh|? ? v ub ? kh Ht' Hd HR|? ? v cases fb ? Ht' HR|
      ? ? c bt be ? kt ke Ht' Hdt HRt Hde HRe|? ? e ? Ht' Hd]; subst;
      try (destruct (stmt_term _ _ _ _ _ Hs' Hat)); pose proof (term_term _ _ _ _ _ Hat Ht') as ->.
    - refine (plan_top m m' t f r _ _ k k ks1 Ht Hst (step_goto T MO m m' _ Hs Ha) _ Hks _); [|by apply (ps_goto _ _ _ _ b')].
      intros g Hg. eapply jumped_follows; [exact Hg|]. by apply moves_follows.
    - destruct (step_intrinsic_jumps T MO m m' _ _ _ _ Hs Ha) as (b & [= <-] & Htop).
      refine (plan_top m m' t f r _ _ k k' ks1 Ht Hst Htop _ Hks _); [|by eapply ps_intr].
      intros g Hg. eapply jumped_follows; [exact Hg|done].
    - destruct (called_plan m m' (f :: r) _ _ _ _ _ _ Hr Hs Ha) as (t' & g & st' & c & Ht'' & Es & Ep & He & Hb & Hg); [by exists t|].
      exists t', ([c] :: k :: ks1). split; [done|]. split; [|by eapply ps_call].
      unfold thread_plan, positions. rewrite Es. simpl. rewrite Ep. constructor; [exact Hg|]. exact Hp.
    - destruct (called_plan m m' (f :: r) _ _ _ _ _ _ Hr Hs Ha) as (t' & g & st' & c & Ht'' & Es & Ep & He & Hb & Hg); [by exists t|].
      exists t', ([c] :: k :: ks1). split; [done|]. split; [|by eapply ps_call].
      unfold thread_plan, positions. rewrite Es. simpl. rewrite Ep. constructor; [exact Hg|]. exact Hp.
    - destruct (mean_start_unwind T MO (model_like _ _ MM) Tok (model_retag _ _ MM) m m' _ _ Hs Ha) as (p & _ & Htop).
      refine (plan_top m m' t f r _ _ k kh ks1 Ht Hst Htop _ Hks _); [|by eapply ps_throw].
      intros g Hg. eapply jumped_follows; [exact Hg|done].
    - destruct (mean_switch T MO (model_like _ _ MM) Tok (model_retag _ _ MM) m m' _ _ _ Hs Ha) as (i & ty & b & Hv & Hsel & Htop).
      destruct (HR i b Hsel) as (k' & Hd & Hk').
      refine (plan_top m m' t f r _ _ k k' ks1 Ht Hst Htop _ Hks _); [|by eapply ps_branch].
      intros g Hg. eapply jumped_follows; [exact Hg|done].
    - destruct (mean_switch T MO (model_like _ _ MM) Tok (model_retag _ _ MM) m m' _ _ _ Hs Ha) as (i & ty & b & Hv & Hsel & Htop).
      destruct (test_value _ _ _ _ Hv) as (v & vty & Hv' & Hb).
      destruct (decide (i = 1)) as [->|Hi].
      + assert (b = bt) as ->.
        { destruct Hsel as [(l1 & l2 & E & _)|[Hno _]]; [|destruct Hno; by left]. destruct l1 as [|x [|y l1]]; by injection E. }
        refine (plan_top m m' t f r _ _ k kt ks1 Ht Hst Htop _ Hks _); [|by eapply (ps_test _ _ _ _ c v vty true)].
        intros g Hg. eapply jumped_follows; [exact Hg|done].
      + assert (b = be) as ->.
        { destruct Hsel as [(l1 & l2 & E & _)|[_ ->]]; [|done]. destruct l1 as [|x [|y l1]]; injection E; congruence. }
        refine (plan_top m m' t f r _ _ k ke ks1 Ht Hst Htop _ Hks _); [|eapply (ps_test _ _ _ _ c v vty false); [done| |done]].
        * intros g Hg. eapply jumped_follows; [exact Hg|done].
        * intros E. rewrite (Hb E). by rewrite bool_decide_eq_false_2.
    - destruct e as [| | | | |callee args ret]; simpl in Ha.
      + destruct (step_intrinsic_jumps T MO m m' _ _ _ _ Hs Ha) as (b & E & _). discriminate E.
      + destruct (step_intrinsic_jumps T MO m m' _ _ _ _ Hs Ha) as (b & E & _). discriminate E.
      + pose proof (ctl_term T MO _ _ _ Hs Ha) as Hc. inversion Hc.
      + destruct (step_return_data T MO (model_like _ _ MM) m m' Hs Ha) as (f0 & r0 & rty & p & v & (t0 & Ht1 & Es0) & _ & _ & _ & Hact).
        assert (t0 = t) as -> by congruence. rewrite Hst in Es0. injection Es0 as <- <-.
        destruct (f_action f) as [|nb ub rp] eqn:Eact.
        * destruct Hact as [_ (t' & Ht1' & Es)]. inversion Hok' as [? ? Hb E|? ? ? ? ? ? ? ? ? ? ? ? Hb E]; subst; [|simpl in Hb; congruence].
          destruct r; [|done]. inversion Hks; subst. exists t', []. split; [done|]. split; [|by apply ps_return_end].
          unfold thread_plan, positions. rewrite Es. constructor.
        * destruct Hact as (b & g & r1 & g' & r1' & bs & -> & -> & (t' & Ht1' & Es) & Hj & Hsame & _).
          inversion Hok' as [|? ? ? blk1 callee conv args ret nb ub' p' ? Hb Hbg Hsg Htg Hrest]; subst. simpl in Hb. rewrite Eact in Hb. injection Hb as <- <- <-.
          destruct (plan_cons _ _ _ Hks) as (k1 & ks2 & -> & Hk1 & Hks2).
          assert (Htm : term_at (f_func g) (f_block g) (f_stmt g) (TmCall callee conv args ret (Some b) ub)) by (by exists blk1).
          destruct (call_plan _ _ _ _ _ _ _ _ _ _ Htm Hk1) as [Hn _]. destruct (Hn b eq_refl) as (u & k1' & Hd1 & Hf1).
          exists t', (k1' :: ks2). split; [done|]. split; [|by eapply ps_return].
          unfold thread_plan, positions. rewrite Es. simpl. rewrite (same_positions _ _ Hsame). constructor; [|done].
          eapply jumped_follows; [exact Hj|done].
      + destruct (step_resume T MO m m' Hs Ha) as (t0 & f0 & g & r1 & nb & b & p & t' & g' & r1' & Ht1 & Es0 & Eact & Ht1' & Es & Hj & Hsame & _).
        assert (t0 = t) as -> by congruence. rewrite Hst in Es0. injection Es0 as <- ->.
        inversion Hok' as [|? ? ? blk1 callee conv args ret nb0 ub' p' ? Hb Hbg Hsg Htg Hrest]; subst. simpl in Hb. rewrite Eact in Hb. injection Hb as <- <- <-.
        destruct (plan_cons _ _ _ Hks) as (k1 & ks2 & -> & Hk1 & Hks2).
        assert (Htm : term_at (f_func g) (f_block g) (f_stmt g) (TmCall callee conv args ret nb (Some b))) by (by exists blk1).
        destruct (call_plan _ _ _ _ _ _ _ _ _ _ Htm Hk1) as [_ Hn]. destruct (Hn b eq_refl) as (k1' & Hd1 & Hf1).
        exists t', (k1' :: ks2). split; [done|]. split; [|by eapply ps_resume].
        unfold thread_plan, positions. rewrite Es. simpl. rewrite (same_positions _ _ Hsame). constructor; [|done].
        eapply jumped_follows; [exact Hj|done].
      + destruct (called_plan m m' (f :: r) _ _ _ _ _ _ Hr Hs Ha) as (t' & g & st' & c & Ht'' & Es & Ep & He & Hb & Hg); [by exists t|].
        exists t', ([c] :: k :: ks1). split; [done|]. split; [|by eapply ps_call_end].
        unfold thread_plan, positions. rewrite Es. simpl. rewrite Ep. constructor; [exact Hg|]. exact Hp.
  Qed.

  Lemma states_length (m m' : Mach) : (forall k, is_Some (state_of m' k) <-> is_Some (state_of m k)) -> length (m_threads m') = length (m_threads m).
  Proof.
    intros Hk. assert (H1 : forall k, is_Some (m_threads m' !! k) <-> is_Some (m_threads m !! k)).
    { intros k. specialize (Hk k). unfold state_of in Hk. destruct (m_threads m' !! k), (m_threads m !! k); [by split; eauto| | |by split; eauto].
      - destruct Hk as [Hk _]. destruct (Hk (ex_intro _ _ eq_refl)) as [? E]. done.
      - destruct Hk as [_ Hk]. destruct (Hk (ex_intro _ _ eq_refl)) as [? E]. done. }
    assert (forall n, (n < length (m_threads m') <-> n < length (m_threads m))%nat) as Hl by (intros n; rewrite <- !lookup_lt_is_Some; apply H1).
    pose proof (Hl (length (m_threads m'))). pose proof (Hl (length (m_threads m))). lia.
  Qed.
  Lemma step_threads (m m' : Mach) : steps_to T MO m m' ->
    length (m_threads m') = length (m_threads m) \/
    at_intrinsic m (a_of m') InSpawn /\ length (m_threads m') = S (length (m_threads m)).
  Proof.
    intros Hs. destruct (step_top m m' Hs) as (t & _ & _ & _ & Ht & _).
    assert (Hset : forall i s, (i < length (m_threads m))%nat -> state_set m m' i s -> length (m_threads m') = length (m_threads m)).
    { intros i s Hi Hset. apply states_length. intros k. rewrite Hset. destruct (decide (k = i)) as [->|]; [|done].
      unfold state_of. destruct (lookup_lt_is_Some_2 _ _ Hi) as [x ->]. by split; eauto. }
    assert (Ha : (a_of m' < length (m_threads m))%nat) by (by eapply lookup_lt_Some).
    destruct (step_sched T MO m m' Hs) as [_ [H1 _|H1 H2 _|j _ _ _ H1 _|_ H1 _|l _ _ H1 _|l o _ _ H1 _|l _ _ _ H1 _|l w _ _ Hw H1 _|_ _ H1 _]].
    - left. apply states_length. intros k. by rewrite H1.
    - right. split; [done|]. assert (forall k, is_Some (m_threads m' !! k) <-> (k <= length (m_threads m))%nat) as Hk.
      { intros k. specialize (H2 k). unfold state_of in H2. destruct (decide (k = length (m_threads m))) as [->|Hne].
        - destruct (m_threads m' !! _); [|done]. split; [lia|by eauto].
        - destruct (m_threads m' !! k) eqn:E1, (m_threads m !! k) eqn:E2; try done.
          + apply lookup_lt_Some in E2. split; [lia|by eauto].
          + apply lookup_ge_None in E2. split; [intros [? [=]]|lia]. }
      assert (forall n, (n < length (m_threads m') <-> n <= length (m_threads m))%nat) as Hl by (intros n; by rewrite <- lookup_lt_is_Some).
      pose proof (Hl (S (length (m_threads m)))). pose proof (Hl (length (m_threads m))). lia.
    - left. by eapply Hset.
    - left. apply states_length. intros k. by rewrite H1.
    - left. apply states_length. intros k. by rewrite H1.
    - left. by eapply Hset.
    - left. apply states_length. intros k. by rewrite H1.
    - left. eapply (Hset w); [|done]. unfold waits_for_lock, state_of in Hw. destruct (m_threads m !! w) eqn:E; [|done]. by eapply lookup_lt_Some.
    - left. apply states_length. intros k. rewrite H1. destruct (decide (k = a_of m')) as [->|].
      + unfold state_of. rewrite Ht. by split; eauto.
      + destruct (decide _) as [E|]; [|done]. rewrite E. by split; eauto.
  Qed.

  Lemma plan_all (m m' : Mach) ps : reachable T MO prog m -> steps_to T MO m m' -> Forall2 thread_plan (m_threads m) ps ->
    exists ks ks' new, ps !! a_of m' = Some ks /\ plan_step T m m' (a_of m') ks ks' /\
      (new = [] \/ at_intrinsic m (a_of m') InSpawn /\ exists func c, built_for func c /\ enters m' (length ps) func /\ new = [[[c]]]) /\
      Forall2 thread_plan (m_threads m') (<[a_of m' := ks']> ps ++ new).
  Proof.
    intros Hr Hs Hps. destruct (step_top m m' Hs) as (t & _ & _ & _ & Ht & _).
    assert (Hl : length (m_threads m) = length ps) by (by eapply Forall2_length).
    assert (Ha : (a_of m' < length (m_threads m))%nat) by (by eapply lookup_lt_Some).
    destruct (lookup_lt_is_Some_2 ps (a_of m')) as [ks Hks]; [lia|].
    assert (Hall : forall i t k, m_threads m !! i = Some t -> ps !! i = Some k -> thread_plan t k) by (intros i x k E1 E2; by eapply (Forall2_lookup_lr _ _ _ _ _ _ Hps E1 E2)).
    destruct (plan_main m m' t ks Hr Hs Ht (Hall _ _ _ Ht Hks)) as (t' & ks' & Ht' & Hp' & Hstep).
    destruct (reach_moves T MO prog (program_wf_blocks T prog Hwf) (built_regular _ Hbuilt) m m' Hr Hs) as [_ Hothers].
    assert (Hold : forall i x k, (i < length (m_threads m))%nat -> m_threads m' !! i = Some x -> <[a_of m' := ks']> ps !! i = Some k -> thread_plan x k).
    { intros i x k Hi Hx Hk. destruct (decide (i = a_of m')) as [->|Hne].
      - rewrite list_lookup_insert in Hk by lia. injection Hk as <-. by assert (x = t') as -> by congruence.
      - rewrite list_lookup_insert_ne in Hk by done. destruct (Hothers i x Hne Hx) as [(y & Hy & Ep & _)|[Hno _]].
        + unfold thread_plan. rewrite Ep. exact (Hall i y k Hy Hk).
        + apply lookup_ge_None in Hno. lia. }
    destruct (step_threads m m' Hs) as [El|[Hsp El]].
    - exists ks, ks', []. do 2 (split; [done|]). split; [by left|]. rewrite app_nil_r. apply Forall2_same_length_lookup_2.
      + rewrite insert_length. congruence.
      + intros i x k Hx Hk. apply (Hold i x k); [|done|done]. rewrite <- El. by eapply lookup_lt_Some.
    - destruct (lookup_lt_is_Some_2 (m_threads m') (length (m_threads m))) as [x Hx]; [lia|].
      destruct (Hothers (length (m_threads m)) x) as [(y & Hy & _)|(_ & n & func & Hn & Ep)]; [lia|done| |].
      { apply lookup_lt_Some in Hy. lia. }
      destruct (Hbuilt n func Hn) as (c & Hc). exists ks, ks', [[[c]]]. do 2 (split; [done|]). split.
      + right. split; [done|]. exists func, c. split; [done|]. split; [|done]. rewrite <- Hl. unfold positions in Ep.
        destruct (t_stack x) as [|f [|? ?]] eqn:Es; try done. injection Ep as <- _ ? ?. exists f, []. split; [by exists x|]. by subst.
      + apply Forall2_same_length_lookup_2.
        * rewrite app_length, insert_length. simpl. lia.
        * intros i y k Hy Hk. destruct (decide (i = length (m_threads m))) as [->|Hne].
          -- assert (y = x) as -> by congruence. rewrite lookup_app_r in Hk by (rewrite insert_length; lia).
             rewrite insert_length, Hl, Nat.sub_diag in Hk. injection Hk as <-. unfold thread_plan. rewrite Ep.
             constructor; [|constructor]. by apply built_follows.
          -- assert (i < length (m_threads m))%nat as Hi by (apply lookup_lt_Some in Hy; lia). apply (Hold i y k); [done|done|].
             rewrite lookup_app_l in Hk by (rewrite insert_length; lia). done.
  Qed.
End Plans.

Lemma reach_wf {PE AE F} `{EqDecision (nat * PE)} T (MO : MemOps (nat * PE) F (BMem PE AE)) prog m : reachable T MO prog m -> program_check_wf T prog = Ret tt.
Proof. induction 1 as [m (cs & rest & E)|]; [|done]. by apply new_ctl in E as [? _]. Qed.

Lemma runs_plan {PE AE F} `{EqDecision (nat * PE)} T (MO : MemOps (nat * PE) F (BMem PE AE)) prog (m : Machine (nat * PE) F (BMem PE AE)) :
  target_ok T -> memory_model T MO -> built_program prog -> reachable T MO prog m ->
  exists ps, runs_as T MO prog m ps /\ Forall2 thread_plan (m_threads m) ps.
Proof.
  intros Tok MM Hb Hr. pose proof (reach_wf _ _ _ _ Hr) as Hwf. induction Hr as [m Hst|m m' Hr IH Hs].
  - pose proof Hst as (cs & rest & E). apply new_ctl in E as (_ & func & ls & Hf & Ec). destruct (Hb _ _ Hf) as (c & Hc).
    exists [[[c]]]. split; [by eapply ra_start|].
    assert (Et : List.map tctl (m_threads m) = [mkTCtl [mkFCtl func ls BottomOfStack (fn_start func) 0] Enabled []]).
    { change (c_threads (ctl m) = [mkTCtl [mkFCtl func ls BottomOfStack (fn_start func) 0] Enabled []]). by rewrite Ec. }
    destruct (m_threads m) as [|t [|? ?]]; try done. injection Et as Et. destruct t as [st ? ?]. simpl in Et.
    constructor; [|constructor]. unfold thread_plan, positions. simpl. destruct st as [|f [|? ?]]; try done. injection Et as Ef _ _ H3 H4.
    constructor; [|constructor]. unfold on_plan, pos. simpl. rewrite H3, H4, Ef. by apply built_follows.
  - destruct IH as (ps & Hra & Hps). destruct (plan_all T MO Tok MM prog Hwf Hb m m' ps Hr Hs Hps) as (ks & ks' & new & H1 & H2 & H3 & H4).
    eexists. split; [|exact H4]. by eapply ra_step.
Qed.
