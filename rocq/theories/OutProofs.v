(** What programs print, and steps at a given terminator. *)
From Verif Require Export EndProofs UnwindProofs OutSpec.
From Coq Require Import DecimalString Decimal DecimalFacts DecimalZ DecimalPos DecimalN.

Lemma string_app_empty (s : string) : (s ++ "")%string = s.
Proof. induction s as [|c s IH]; [done|]. cbn. by rewrite IH. Qed.
Lemma string_app_assoc (a b c : string) : ((a ++ b) ++ c)%string = (a ++ (b ++ c))%string.
Proof. induction a as [|x a IH]; [done|]. cbn. by rewrite IH. Qed.

Lemma numeral_uint_acc d : forall acc, numeral (Npos acc) (NilEmpty.string_of_uint d) = Some (Npos (Pos.of_uint_acc d acc)).
Proof.
  induction d; intros acc; [done|..]; cbn [NilEmpty.string_of_uint numeral];
    match goal with |- context[digit_value ?c] => let x := eval vm_compute in (digit_value c) in change (digit_value c) with x end; cbn [Pos.of_uint_acc];
    rewrite <-IHd; f_equal; lia.
Qed.
Lemma numeral_uint d : numeral 0 (NilEmpty.string_of_uint d) = Some (Pos.of_uint d).
Proof.
  induction d; [done|..]; cbn [NilEmpty.string_of_uint numeral];
    match goal with |- context[digit_value ?c] => let x := eval vm_compute in (digit_value c) in change (digit_value c) with x end;
    [exact IHd|..]; cbn [Pos.of_uint]; rewrite <-numeral_uint_acc; f_equal.
Qed.

Lemma pos_decimal p : decimal_nat (Npos p) (NilZero.string_of_uint (Pos.to_uint p)).
Proof.
  assert (Hd : NilZero.string_of_uint (Pos.to_uint p) = NilEmpty.string_of_uint (Pos.to_uint p)).
  { pose proof (DecimalPos.Unsigned.to_uint_nonnil p). by destruct (Pos.to_uint p). }
  rewrite Hd. split; [|split].
  - rewrite numeral_uint. by rewrite DecimalPos.Unsigned.of_to.
  - pose proof (DecimalPos.Unsigned.to_uint_nonnil p). by destruct (Pos.to_uint p).
  - right. intros r Hr.
    pose proof (DecimalN.Unsigned.to_of (Pos.to_uint p)) as H. unfold N.of_uint in H.
    rewrite DecimalPos.Unsigned.of_to in H. cbn in H.
    destruct (Pos.to_uint p) as [|u|u|u|u|u|u|u|u|u|u] eqn:E; cbn in Hr; try discriminate Hr.
    unfold unorm in H. cbn [nzhead] in H. pose proof (nzhead_nonzero u) as Hn.
    destruct (nzhead u) as [|v|v|v|v|v|v|v|v|v|v]; try discriminate H; [|by destruct (Hn v)].
    injection H as ->. pose proof (DecimalPos.Unsigned.of_to p) as H. rewrite E in H. done.
Qed.

Lemma int_decimal i : decimal_int i (NilZero.string_of_int (Z.to_int i)).
Proof.
  destruct i as [|p|p].
  - left. split; [done|]. split; [done|]. split; [done|]. by left.
  - left. split; [lia|]. apply pos_decimal.
  - right. split; [lia|]. eexists. split; [done|]. apply pos_decimal.
Qed.

Lemma print_lines {P} (vs : list (Value P * Ty)) s0 s :
  fold_m (fun s (arg : Value P * Ty) =>
              match fst arg with
              | VInt i => Ret (s ++ print_int i)%string
              | VBool b => Ret (s ++ print_bool b)%string
              | _ => throw_ub "unsupported value for printing"
              end) vs s0 = Ret s ->
  exists r, s = (s0 ++ r)%string /\ lines vs r.
Proof.
  revert s0. induction vs as [|[v ty] vs IH]; intros s0 H.
  - injection H as <-. exists EmptyString. split; [by rewrite string_app_empty|constructor].
  - cbn [fold_m] in H. apply obind_ret in H as (s1 & H1 & H). apply IH in H as (r & -> & Hr). cbn [fst] in H1.
    assert (exists l, s1 = (s0 ++ l)%string /\ line v l) as (l & -> & Hl).
    { destruct v as [i|b| | | |]; try done; injection H1 as <-; eexists; (split; [done|]).
      - constructor. apply int_decimal.
      - destruct b; constructor. }
    exists (l ++ r)%string. split; [by rewrite string_app_assoc|by constructor].
Qed.

Section Steps.
  Context {P F M : Type} `{EqDecision P}.
  Variable T : Target.
  Variable MO : MemOps P F M.
  Notation Mach := (Machine P F M).

  Lemma in_block_fun (m : Mach) a f b f' b' : in_block m a f b -> in_block m a f' b' -> f' = f /\ b' = b.
  Proof.
    intros (t & r & H1 & H2 & H3) (t' & r' & H1' & H2' & H3'). assert (t' = t) as -> by congruence.
    assert (f' = f) as -> by congruence. split; congruence.
  Qed.
  Lemma at_terminator_fun (m : Mach) a tm tm' : at_terminator m a tm -> at_terminator m a tm' -> tm' = tm.
  Proof.
    intros (f & b & H1 & _ & <-) (f' & b' & H1' & _ & <-). by destruct (in_block_fun _ _ _ _ _ _ H1 H1') as [_ ->].
  Qed.
  Lemma at_terminator_statement (m : Mach) a tm s : at_terminator m a tm -> at_statement m a s -> False.
  Proof.
    intros (f & b & H1 & H2 & _) (f' & b' & H1' & H2'). destruct (in_block_fun _ _ _ _ _ _ H1 H1') as [-> ->].
    apply lookup_lt_Some in H2'. lia.
  Qed.

  Lemma exec_terminator (m : Mach) a tm cs : at_terminator m a tm ->
    exec T MO (begins m a) cs = eval_terminator T MO tm (begins m a) cs.
  Proof.
    intros (f & b & (t & r & Ht & Hs & Hb) & Hst & <-). unfold exec, cur_frame, active_thread. cbn. rewrite Ht. cbn.
    rewrite Hs. cbn. rewrite Hb. cbn. by rewrite Hst, Nat.eqb_refl.
  Qed.

  Lemma step_terminator cs (m m' : Mach) tm : step T MO cs m = Ret m' -> at_terminator m (m_active m') tm ->
    exists rest rest', cs = ChThread (m_active m') :: rest /\
      eval_terminator T MO tm (begins m (m_active m')) rest = Ret (m', rest').
  Proof.
    intros H Hat. pose proof (step_picks T MO _ _ _ H) as [rest ->]. exists rest. rewrite step_eq in H.
    destruct (negb _); [done|]. cbn [pick_thread] in H. destruct (thread_in _ _ _); [|done]. cbn [obind] in H.
    rewrite (exec_terminator _ _ _ _ Hat) in H. apply obind_ret in H as ([m1 r1] & He & H).
    apply obind_ret in H as (? & _ & H). injection H as <-. eauto.
  Qed.

  (** ** Output *)

  Lemma step_out (m m' : Mach) : steps_to T MO m m' ->
    exists s1 s2, m_stdout m' = (m_stdout m ++ s1)%string /\ m_stderr m' = (m_stderr m ++ s2)%string /\
      (s1 <> EmptyString -> at_intrinsic m (m_active m') InPrintStdout) /\
      (s2 <> EmptyString -> at_intrinsic m (m_active m') InPrintStderr).
  Proof.
    intros [cs Hs]. pose proof (step_ctl T MO cs m) as Hc. rewrite Hs in Hc. cbn in Hc.
    assert (same : c_stdout (ctl m') = c_stdout (ctl m) -> c_stderr (ctl m') = c_stderr (ctl m) ->
      exists s1 s2, m_stdout m' = (m_stdout m ++ s1)%string /\ m_stderr m' = (m_stderr m ++ s2)%string /\
      (s1 <> EmptyString -> at_intrinsic m (m_active m') InPrintStdout) /\
      (s2 <> EmptyString -> at_intrinsic m (m_active m') InPrintStderr)).
    { cbn. intros E1 E2. exists EmptyString, EmptyString. by rewrite E1, E2, !string_app_empty. }
    remember (ctl m') as c' eqn:Ec. destruct Hc as [a t f r block s c1 t1 f1 r1 Ht He Hb Hst Hc Ht1|a t f r block c' Ht He Hb Hst Hc].
    - destruct Hc; apply same; done.
    - assert (Ha : m_active m' = a).
      { change (c_active (ctl m') = a). rewrite <-Ec. by rewrite (c_term_active _ _ _ Hc). }
      destruct (c_top_in_block m a t f r block Ht Hb) as (f0 & Hin & Hf0).
      assert (Hat : at_terminator m (m_active m') (bb_terminator block)).
      { rewrite Ha. exists f0, block. split; [done|]. by rewrite <-Hf0 in Hst. }
      assert (Hjump : forall (c : Ctl P) b c', c_jump c b c' -> c_stdout c' = c_stdout c /\ c_stderr c' = c_stderr c).
      { intros c b c2 (? & ? & ? & _ & ->). done. }
      inversion Hc as [b c2 Hj|v cases fb i b c2 Hbb Hj|callee conv args ret nb ub t2 n func ls p Ht2 Hn
        |t2 f2 r2 sync c2 Ht2 Hact Hr Ha0 Hsync Hc2|t2 f2 g r2 b ub p c2 Ht2 Hact Hc2|v b p t2 f2 r2 c2 Ht2 Hc2
        |b p ps t2 f2 r2 c2 Ht2 Hpl Hc2|t2 f2 g r2 b nb p c2 Ht2 Hact Hc2|op args ret b c2 c3 Hci Hj];
        try (destruct (Hjump _ _ _ Hj) as [E1 E2]); try (apply same; clear Ec same Hc; subst; done).
      assert (Hop : at_intrinsic m (m_active m') op) by (exists args, ret, (Some b); by rewrite <-H in Hat).
      subst c3. destruct Hci; try (apply same; rewrite ?E1, ?E2; done).
      + exists s, EmptyString. change (m_stdout m') with (c_stdout (ctl m')). change (m_stderr m') with (c_stderr (ctl m')).
        rewrite <-Ec, E1, E2. cbn. by rewrite string_app_empty.
      + exists EmptyString, s. change (m_stdout m') with (c_stdout (ctl m')). change (m_stderr m') with (c_stderr (ctl m')).
        rewrite <-Ec, E1, E2. cbn. by rewrite string_app_empty.
  Qed.

  (** the operands of an intrinsic, as thread [a] evaluates them *)
  Definition operands (m : Mach) (a : nat) (args : list ValueExpr) (ret : PlaceExpr) (vs : list (Value P * Ty)) : Prop :=
    exists pl ty m1 m2, eval_place T MO ret (begins m a) = Ret (pl, ty, m1) /\
      map_st (fun m e => eval_value T MO e m) args m1 = Ret (vs, m2).

  Lemma store_out (m m' : Mach) pl v ty : place_store T MO m pl v ty = Ret m' ->
    m_stdout m' = m_stdout m /\ m_stderr m' = m_stderr m.
  Proof.
    intros H. pose proof (place_store_same T MO m pl v ty) as Hs. rewrite H in Hs. cbn in Hs. unfold same, ctl in Hs.
    split; congruence.
  Qed.
  Lemma jump_out (m m' : Mach) b : jump_to_block m b = Ret m' -> m_stdout m' = m_stdout m /\ m_stderr m' = m_stderr m.
  Proof.
    intros H. pose proof (jump_ctl (M:=M) m b) as Hs. rewrite H in Hs. cbn in Hs.
    destruct Hs as (t & f & r & _ & E). unfold c_put, c_with_threads, ctl in E. cbn in E. split; congruence.
  Qed.
  Lemma operands_out (m : Mach) a args ret pl ty m1 vs m2 :
    eval_place T MO ret (begins m a) = Ret (pl, ty, m1) ->
    map_st (fun m e => eval_value T MO e m) args m1 = Ret (vs, m2) -> same (begins m a) m2.
  Proof.
    intros H1 H2. eapply same_trans.
    - pose proof (eval_place_same T MO ret (begins m a)) as H. rewrite H1 in H. exact H.
    - assert (post (map_st (fun m e => eval_value T MO e m) args m1) (fun r => same m1 (snd r))) as H.
      { apply map_st_same. apply Forall_true. intros e m'. apply eval_value_same. }
      rewrite H2 in H. exact H.
  Qed.

  Lemma print_step cs (m m' : Mach) op args ret nb : step T MO cs m = Ret m' ->
    at_terminator m (m_active m') (TmIntrinsic op args ret nb) -> op = InPrintStdout \/ op = InPrintStderr ->
    exists vs s, operands m (m_active m') args ret vs /\ lines vs s /\
      (op = InPrintStdout -> m_stdout m' = (m_stdout m ++ s)%string) /\
      (op = InPrintStderr -> m_stderr m' = (m_stderr m ++ s)%string).
  Proof.
    intros H Hat Hop. destruct (step_terminator _ _ _ _ H Hat) as (rest & rest' & _ & He). cbn [eval_terminator] in He.
    apply obind_ret in He as ([[pl ty] m1] & H1 & He). apply obind_ret in He as ([vs m2] & H2 & He).
    apply obind_ret in He as ([[v m3] cs3] & H3 & He). apply obind_ret in He as (m4 & H4 & He).
    destruct nb as [b|]; [|done]. apply obind_ret in He as (m5 & H5 & He). injection He as <- <-.
    apply store_out in H4 as [E1 E2]. apply jump_out in H5 as [E3 E4]. rewrite E1 in E3. rewrite E2 in E4.
    pose proof (operands_out _ _ _ _ _ _ _ _ _ H1 H2) as Hs. unfold same, ctl in Hs. cbn in Hs.
    exists vs. destruct Hop as [-> | ->]; cbn [eval_intrinsic] in H3;
      apply obind_ret in H3 as (? & _ & H3); apply obind_ret in H3 as (s & Hp & H3); injection H3 as <- <- <-;
      apply print_lines in Hp as (r & -> & Hr); exists r; (split; [by exists pl, ty, m1, m2|]); (split; [done|]);
      split; try done; intros _; cbn in *; [rewrite E3|rewrite E4]; f_equal; congruence.
  Qed.

  Lemma execution_out (m : Mach) ms m' : execution T MO m ms m' ->
    begins_with (m_stdout m) (m_stdout m') /\ begins_with (m_stderr m) (m_stderr m').
  Proof.
    induction 1 as [m|m ms m1 m' Hs _ [[r1 IH1] [r2 IH2]]].
    - split; exists EmptyString; by rewrite string_app_empty.
    - destruct (step_out _ _ Hs) as (s1 & s2 & E1 & E2 & _). rewrite E1 in IH1. rewrite E2 in IH2.
      split; [exists (s1 ++ r1)%string|exists (s2 ++ r2)%string]; by rewrite <-string_app_assoc.
  Qed.

  (** ** Stopping unwinding *)

  Lemma no_races (c : ConcMem M) a sync prev : cm_accesses c = [] -> cm_check_data_races c a sync prev = Ret tt.
  Proof. intros E. unfold cm_check_data_races. rewrite E. by destruct (bool_decide _). Qed.

  Lemma stop_unwind_step (m : Mach) a t p ps b cs :
    enabled m a -> m_threads m !! a = Some t -> t_payloads t = p :: ps ->
    at_terminator m a (TmStopUnwind b) ->
    exists m' t', step T MO (ChThread a :: cs) m = Ret m' /\ m_active m' = a /\ m_threads m' !! a = Some t' /\
      t_payloads t' = ps /\
      exists f r, t_stack t = f :: r /\ positions t' = mkPos (f_func f) (f_action f) b 0 :: List.map pos r.
  Proof.
    intros He Ht Hp Hat. pose proof (exec_terminator _ _ _ cs Hat) as Hx. destruct Hat as (f & blk & (t0 & r & Ht0 & Hs & Hb) & _).
    assert (t0 = t) as -> by congruence. clear Ht0.
    rewrite step_eq. rewrite (proj2 (some_enabled m)) by eauto. cbn [negb pick_thread].
    rewrite (proj2 (thread_enabled m a)) by done. cbn [obind]. rewrite Hx.
    cbn [eval_terminator]. unfold active_thread. change (m_threads (begins m a)) with (m_threads m).
    change (m_active (begins m a)) with a. rewrite Ht. cbn [unwrap obind]. rewrite Hp.
    unfold jump_to_block, cur_frame, set_cur_frame, active_thread.
    assert (Hl : forall t', m_threads (set_active_thread (begins m a) t') !! m_active (set_active_thread (begins m a) t') = Some t').
    { intros t'. cbn. apply list_lookup_insert. by eapply lookup_lt_Some. }
    rewrite Hl. cbn [unwrap obind]. cbn [with_payloads t_stack]. rewrite Hs. cbn [head unwrap obind].
    match goal with |- context[Ret ?x] => set (m' := x) end.
    assert (E : cm_accesses (m_mem m') = []) by done.
    exists m'. eexists. split; [|split; [done|split]].
    - cbn [obind]. rewrite no_races by exact E. done.
    - subst m'. cbn. rewrite list_insert_insert. apply list_lookup_insert. by eapply lookup_lt_Some.
    - split; [done|]. exists f, r. done.
  Qed.
  (** ** The end of an execution *)

  Lemma exit_no_step cs (m m' : Mach) op : op = InExit \/ op = InAbort ->
    at_intrinsic m (m_active m') op -> step T MO cs m <> Ret m'.
  Proof.
    intros Hop (args & ret & nb & Hat) H. destruct (step_terminator _ _ _ _ H Hat) as (rest & rest' & _ & He).
    pose proof (terminator_ctl T MO (TmIntrinsic op args ret nb) (begins m (m_active m')) rest) as Hc.
    rewrite He in Hc. cbn in Hc. inversion Hc as [| | | | | | | |? ? ? ? ? ? Hi]; subst.
    destruct Hop as [->| ->]; by inversion Hi.
  Qed.

  Lemma step_at_intrinsic (m : Mach) a op args ret nb cs t :
    enabled m a -> at_terminator m a (TmIntrinsic op args ret nb) ->
    forall pl rty m1 vs m2, eval_place T MO ret (begins m a) = Ret (pl, rty, m1) ->
    map_st (fun m e => eval_value T MO e m) args m1 = Ret (vs, m2) ->
    eval_intrinsic T MO m2 op vs rty cs = Stop t -> step T MO (ChThread a :: cs) m = Stop t.
  Proof.
    intros He Hat pl rty m1 vs m2 H1 H2 H3. rewrite step_eq.
    assert (some_thread_in m Enabled = true) as -> by (apply some_enabled; eauto). cbn [negb pick_thread].
    assert (thread_in m Enabled a = true) as -> by (by apply thread_enabled).
    cbn [obind]. rewrite (exec_terminator _ _ _ _ Hat). cbn [eval_terminator]. rewrite H1. cbn [obind].
    rewrite H2. cbn [obind]. rewrite H3. done.
  Qed.
End Steps.

(** The result of the exit intrinsic. *)
Section Exit.
  Context {PE AE F : Type} `{EqDecision PE}.
  Variable T : Target.
  Variable MO : MemOps (nat * PE) F (BMem PE AE).
  Hypothesis BL : bm_like T MO.

  Lemma exit_result (m : Machine (nat * PE) F (BMem PE AE)) a args ret nb vs cs :
    enabled m a -> at_terminator m a (TmIntrinsic InExit args ret nb) -> operands T MO m a args ret vs ->
    (heap_live (cm_mem (m_mem m)) -> step T MO (ChThread a :: cs) m = Stop TMemoryLeak) /\
    (~ heap_live (cm_mem (m_mem m)) -> step T MO (ChThread a :: cs) m = Stop TMachineStop).
  Proof.
    intros He Hat (pl & ty & m1 & m2 & H1 & H2).
    pose proof (operands_mem T MO BL _ _ _ _ _ _ _ _ _ H1 H2) as Hh.
    pose proof (leak_exact T MO (cm_mem (m_mem m2)) BL) as [L1 L2].
    change (exists i a, cm_mem (m_mem m2) !! i = Some a /\ al_live a = true /\ al_kind a = AHeap)
      with (heap_live (cm_mem (m_mem m2))) in L1, L2. rewrite Hh in L1, L2.
    split; intros Hl; eapply (step_at_intrinsic T MO); try eassumption; cbn; unfold cm_leak_check.
    - apply L1 in Hl. by rewrite Hl.
    - apply L2 in Hl. by rewrite Hl.
  Qed.
End Exit.

(** The first thread never terminates. *)
Lemma main_running {P F M} `{EqDecision P} T (MO : MemOps P F M) prog (m : Machine P F M) :
  reachable T MO prog m -> ~ terminated m 0%nat.
Proof.
  induction 1 as [m H0|m m' Hr IH Hs].
  - intros Ht. destruct (new_states T MO prog m H0) as [_ Hn]. apply Hn in Ht as [_ Ht]. done.
  - intros Ht. destruct (terminates_step T MO m m' 0%nat Hs Ht IH) as (_ & Hn & _). done.
Qed.
