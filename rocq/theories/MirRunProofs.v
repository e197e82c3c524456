(** Machines that run translated programs execute MIR: proofs. *)
From Verif Require Import MeanProofs UnwindProofs StepAt SchedProofs PropsOwn PropsMach PropsData PlanProofs.
From Verif Require Export MirBodyProofs MirRunSpec.
From Verif Require Import DataSpec ExprSpec.

(** ** Names *)

Lemma run_nodup fuel R s s' : rtc (mono fuel R T) s s' -> NoDup (List.map fst (snd s)) -> NoDup (List.map fst (snd s')).
Proof. induction 1 as [|s1 s2 s3 H _ IH]; [done|]. intros Hd. apply IH. destruct H. cbn [snd] in *. by apply map_insert_NoDup. Qed.
Lemma translated_unique (R : Rustc) (fuel : nat) (Hmir : mir_ok T R) (Hcov : mir_covered T R) (Hfuel : enough R fuel) entry P :
  translated fuel R T entry P -> names_unique P.
Proof.
  intros (c & fns & Hrun & Hall & HP). destruct Hmir as [HR HB], Hcov as [HC Hvts].
  pose proof (run_pinv R HR fuel Hfuel (fun i b H => conj (HB i b H) (HC i b H)) _ _ Hrun) as [Hc He Hf]. cbn [fst snd] in *.
  cbn zeta in HP. subst P. split; [|split]; cbn [pr_globals pr_functions pr_vtables].
  - apply (ck_global_nodup _ _ _ Hc).
  - apply map_insert_NoDup. by apply (run_nodup _ _ _ _ Hrun), NoDup_nil_2.
  - apply (ck_vt_nodup _ _ _ Hc).
Qed.

Section Pre.
  Context {PE AE FX : Type} {D : EqDecision (nat * PE)}.
  Notation P := (nat * PE)%type.
  Variable MO : MemOps P FX (BMem PE AE).
  Notation Mach := (Machine P FX (BMem PE AE)).
  Hypothesis MM : memory_model T MO.
  Notation a_of m' := (m_active m').

  Lemma mean_mention (m m' : Mach) p : steps_to T MO m m' -> at_statement m (m_active m') (SPlaceMention p) ->
    exists ptr b t, place_means T (turn m (m_active m')) p ptr b t.
  Proof.
    intros Hs Ha. destruct (step_stmt T MO _ _ _ Hs Ha) as (cs & m1 & cs' & f & He & _ & _ & Hal). cbn [eval_statement] in He.
    apply obind_ret in He as ([[pl ty] m2] & Hp & [= <- <-]). apply C67_places in Hp as [Hp _]; [|exact x86_64_ok|done]. by eexists _, _, _.
  Qed.

  (** ** Intrinsics *)
  Lemma op_does_weak (m m' : Mach) a (K K' : Pointer P -> Ty -> Prop) op vals : (forall ptr t, K ptr t -> K' ptr t) ->
    op_does T m m' a K op vals -> op_does T m m' a K' op vals.
  Proof.
    intros HK H. destruct H as [? ? ? ? ? ? ? HD|? ? ? ? ? ? HD|? ? ? ? ? ? ? HD|? ? ? ? ? ? ? ? ? HD|? ? ? ? ? ? ? ? ? ? ? HD|? ? ? ? ? ? ? ? ? ? ? ? HD H1 H2 H3 H4 H5 H6 H7 H8 H9]; apply HK in HD.
    - by eapply od_result. - by eapply od_load. - by eapply od_store. - by eapply od_exchange. - by eapply od_fetch. - exact (od_raw_eq T m m' a K' _ _ _ _ _ _ _ _ _ _ _ _ HD H1 H2 H3 H4 H5 H6 H7 H8 H9).
  Qed.
  Lemma step_op prog (m m' : Mach) op args ret nb : reachable T MO prog m -> steps_to T MO m m' ->
    at_terminator m (a_of m') (TmIntrinsic op args ret nb) ->
    exists vals, all_mean T (turn m (a_of m')) args vals /\
      op_does T m m' (a_of m') (fun ptr t => place_means T (turn m (a_of m')) ret ptr true t) op vals.
  Proof.
    intros Hr Hs Ha. pose proof x86_64_ok as Tok.
    assert (G : match op with InRawEq | InAtomicStore | InAtomicLoad | InAtomicCompareExchange | InAtomicFetchAndOp _ => False | _ => True end ->
      exists vals, all_mean T (turn m (a_of m')) args vals /\
        op_does T m m' (a_of m') (fun ptr t => place_means T (turn m (a_of m')) ret ptr true t) op vals).
    { intros Hop. destruct (C68_results T MO prog m m' op args ret nb Tok MM Hr Hs Ha Hop) as (rptr & rty & vals & v & mid & bs & H1 & H2 & H3 & H4 & H5 & H6).
      exists vals. split; [done|]. by eapply od_result. }
    destruct op; try (by apply G).
    - destruct (C69_raw_eq T MO prog m m' args ret nb Tok MM Hr Hs Ha) as (rptr & p & q & mu & pi & n & al & bs1 & d1 & bs2 & d2 & bs & H1 & H2 & H3 & H4 & H5 & H6 & H7 & H8 & H9 & H10 & H11).
      eexists. split; [exact H2|]. exact (od_raw_eq T m m' (a_of m') (fun ptr t => place_means T (turn m (a_of m')) ret ptr true t) _ _ _ _ _ _ _ _ _ _ _ _ H1 H3 H4 H5 H6 H7 H8 H9 H10 H11).
    - destruct (C68_atomic_store T MO prog m m' args ret nb Tok MM Hr Hs Ha) as (rptr & rty & p & pty & v & ty & bs & H1 & H2 & H3 & H4).
      eexists. split; [exact H2|]. by eapply od_store.
    - destruct (C68_atomic_load T MO prog m m' args ret nb Tok MM Hr Hs Ha) as (rptr & rty & p & pty & v & bs & H1 & H2 & H3 & H4 & H5).
      eexists. split; [exact H2|]. by eapply od_load.
    - destruct (C68_compare_exchange T MO prog m m' args ret nb Tok MM Hr Hs Ha) as (rptr & it & p & pty & cur & next & old & bs & mid & H1 & H2 & H3 & H4 & H5 & H6 & H7).
      eexists. split; [exact H2|]. by eapply od_exchange.
    - destruct (C68_fetch_and_op T MO prog m m' _ args ret nb Tok MM Hr Hs Ha) as (rptr & it & p & pty & x & old & new & bs & bs' & mid & H1 & H2 & H3 & H4 & H5 & H6 & H7 & H8).
      eexists. split; [exact H2|]. by eapply od_fetch.
  Qed.
  Lemma writes_nothing (m m' : Mach) p : writes m m' p [] -> keeps_all m m'.
  Proof. intros [_ H] id j Hc _. apply H; [done|]. intros (i & _ & Hi). simpl in Hi. lia. Qed.
  Lemma keeps_all_trans (m1 m2 m3 : Mach) : keeps_all m1 m2 -> keeps_all m2 m3 -> keeps_all m1 m3.
  Proof. intros H1 H2 id j Hc Hn. rewrite <- (H1 id j Hc Hn). apply H2; [|done]. by rewrite (H1 id j Hc Hn). Qed.
  Lemma nowhere_unit (s : Mach) ptr b t : place_means T s nowhere ptr b t -> t = unit_ty.
  Proof. unfold nowhere. inversion 1; by subst. Qed.
  Lemma assume_silent (m m' : Mach) a vals : op_does T m m' a (fun ptr t => place_means T (turn m a) nowhere ptr true t) InAssume vals ->
    exists t, vals = [(VBool true, t)] /\ keeps_all m m'.
  Proof.
    intros H. inversion H as [? ? ptr t v mid bs HD Hg Hk He Hw| | | | |]; subst. inversion Hg; subst. eexists. split; [done|].
    apply nowhere_unit in HD as ->. injection He as <-. apply writes_nothing in Hw. by eapply keeps_all_trans.
  Qed.

  (** ** Control *)
  Lemma stack_threads (m : Mach) a f r : stack_of m a (f :: r) -> top_frame (turn m a) f.
  Proof. intros (t & Ht & Hs). by exists t, r. Qed.
  Lemma stack_eq (m : Mach) a st st' : stack_of m a st -> stack_of m a st' -> st = st'.
  Proof. intros (t & Ht & <-) (t' & Ht' & <-). congruence. Qed.
  Lemma top_stack (m m' : Mach) a Rl Q f r : stack_of m a (f :: r) -> top_moves m m' a Rl Q -> exists f' r', stack_of m' a (f' :: r') /\ Rl f f' /\
    List.map pos r' = List.map pos r /\ Q (payloads a m) (payloads a m').
  Proof.
    intros (t & Ht & Hst) (t0 & f0 & r0 & t' & f' & r' & Ht0 & Hst0 & Ht' & Hst' & HR & Hr & HQ). assert (t0 = t) as -> by congruence.
    rewrite Hst in Hst0. injection Hst0 as <- <-. exists f', r'. split; [by exists t'|]. split; [done|]. split; [by apply same_positions|].
    unfold payloads. by rewrite Ht, Ht'.
  Qed.
  Definition code_at (F : Function) (b : BbName) (i : nat) (ys : list Statement) (t : Terminator) : Prop :=
    exists blk, map_get (fn_blocks F) b = Some blk /\ bb_terminator blk = t /\ drop i (bb_statements blk) = ys /\ (i <= length (bb_statements blk))%nat.
  Lemma block_code F n ys t k : block_at F n ys t k -> code_at F n 0 ys t.
  Proof. intros H. eexists. split; [exact H|]. split; [done|]. split; [done|]. apply Nat.le_0_l. Qed.
  Lemma code_stmt (m : Mach) a f r y ys t : stack_of m a (f :: r) -> code_at (f_func f) (f_block f) (f_stmt f) (y :: ys) t -> at_statement m a y.
  Proof.
    intros (th & Ht & Hst) (blk & Hb & _ & Hd & _). exists f, blk. split; [by exists th, r|].
    rewrite <- (Nat.add_0_r (f_stmt f)), <- lookup_drop, Hd. done.
  Qed.
  Lemma code_term (m : Mach) a f r t : stack_of m a (f :: r) -> code_at (f_func f) (f_block f) (f_stmt f) [] t -> at_terminator m a t.
  Proof.
    intros (th & Ht & Hst) (blk & Hb & Hbt & Hd & Hl). exists f, blk. split; [by exists th, r|]. split; [|done].
    apply (f_equal length) in Hd. rewrite drop_length in Hd. simpl in Hd. lia.
  Qed.
  Lemma code_next F b i y ys t : code_at F b i (y :: ys) t -> code_at F b (S i) ys t.
  Proof.
    intros (blk & Hb & Hbt & Hd & Hl). exists blk. split; [done|]. split; [done|]. split.
    - rewrite <- Nat.add_1_r, <- drop_drop, Hd. done.
    - apply (f_equal length) in Hd. rewrite drop_length in Hd. simpl in Hd. lia.
  Qed.
End Pre.

Section Run.
  Context {PE AE FX : Type} {D : EqDecision (nat * PE)}.
  Notation P := (nat * PE)%type.
  Variable MO : MemOps P FX (BMem PE AE).
  Notation Mach := (Machine P FX (BMem PE AE)).
  Hypothesis MM : memory_model T MO.
  Variables (R : Rustc) (N : Naming) (entry : Inst) (n0 : FnName) (prog : Program).
  Hypothesis HB : forall i B, rc_body R i = Some B -> body_ok T R B.
  Hypothesis HDi : discr_ok R.
  Hypothesis Hinj : distinct (nm_fn N).
  Hypothesis Hin : forall i n, nm_fn N i = Some n -> n <> pr_start prog /\ is_Some (map_get (pr_functions prog) n).
  Hypothesis Hcode : forall n F, map_get (pr_functions prog) n = Some F -> n <> pr_start prog ->
    exists i B, nm_fn N i = Some n /\ rc_body R i = Some B /\ function_is T R B F N.
  Hypothesis Hentry : nm_fn N entry = Some n0.
  Hypothesis Hstart : map_get (pr_functions prog) (pr_start prog) = Some (mk_start_fn n0).
  Hypothesis Hwf : program_check_wf T prog = Ret tt.
  Hypothesis Hu : names_unique prog.
  Notation bb := (nm_bb N).
  Notation loc := (nm_loc N).
  Notation a_of m' := (m_active m').

  Lemma run_regular : starts_regular prog.
  Proof.
    intros n F Hn. destruct (decide (n = pr_start prog)) as [->|Hne].
    - rewrite Hstart in Hn. injection Hn as <-. by eexists.
    - destruct (Hcode n F Hn Hne) as (i & B & _ & _ & Hf). destruct (fu_start _ _ _ _ _ Hf) as (sts & _ & Hb). by eexists.
  Qed.

  (** ** Tasks of frames *)
  Definition fn_is (i : Inst) (n : FnName) (B : RBody) (F : Function) : Prop :=
    nm_fn N i = Some n /\ map_get (pr_functions prog) n = Some F /\ rc_body R i = Some B /\ function_is T R B F N.
  Notation has B b := (is_Some (ro_blocks B !! b)).
  Definition uw (B : RBody) (u : RUnwind) : Prop := forall b, u = UwCleanup b -> has B b.
  Definition goes (B : RBody) (tm : RTerm) : Prop :=
    match tm with
    | MtGoto b => has B b
    | MtSwitch _ ts b => (forall x b', In (x, b') ts -> has B b') /\ has B b
    | MtAssert _ _ b u => has B b /\ uw B u
    | MtDrop _ _ b _ => has B b
    | MtCall f _ _ b u =>
        match f with
        | CePtr _ _ | CeFn _ _ _ | CeVirtual _ _ _ => (forall b', b = Some b' -> has B b') /\ uw B u
        | CePanic => uw B u
        | CeMini _ => forall b', b = Some b' -> has B b'
        | CeIntrinsic RiAbort | CeIntrinsic RiOther => True
        | CeIntrinsic _ => forall b', b = Some b' -> has B b'
        | _ => True
        end
    | _ => True
    end.
  Lemma block_has B c b : block_ok B c b -> has B b.
  Proof. intros (blk & Hb & _). by eexists. Qed.
  Lemma next_has B c b : next_ok B c b -> forall b', b = Some b' -> has B b'.
  Proof. intros H b' ->. by eapply block_has. Qed.
  Lemma unwind_uw B c u : unwind_ok B c u -> uw B u.
  Proof. intros H b ->. destruct H as [_ H]. by eapply block_has. Qed.
  Lemma term_goes B c tm : MirSpec.term_ok T R B c tm -> goes B tm.
  Proof.
    intros H. destruct H as [| | f args d b u Hc| | | | | |]; try done; simpl; eauto using block_has, next_has, unwind_uw.
    - destruct Hc as [|i args d b u Hi| | | | |]; simpl; eauto using block_has, next_has, unwind_uw.
      destruct Hi; simpl; try done; try (intros b' [= <-]; by eapply block_has). by eapply next_has.
    - split; [|by eapply block_has]. intros x b' Hx. apply (proj1 (List.Forall_forall _ _) H0) in Hx. by eapply block_has.
  Qed.

  Definition catch_term (x : Catch) (b : RBb) (n2 n3 n4 n5 : BbName) (ph : Phase) : Terminator :=
    match ph with
    | PhTry => TmCall (ELoad (PLocal (ca_l2 x))) CcRust [ByValue (ELoad (PLocal (ca_l3 x)))] nowhere (Some n2) (Some n3)
    | PhOk => TmGoto (bb b)
    | PhUnwound => TmIntrinsic InGetUnwindPayload [] (PLocal (ca_l5 x)) (Some n4)
    | PhCatch => TmCall (ELoad (PLocal (ca_l4 x))) CcRust [ByValue (ELoad (PLocal (ca_l3 x))); ByValue (ELoad (PLocal (ca_l5 x)))] nowhere (Some n5) None
    | PhDone => TmStopUnwind (bb b)
    end.
  Definition catch_blocks (F : Function) (x : Catch) (b : RBb) (n2 n3 n4 n5 : BbName) : Prop :=
    code_at F n2 0 (catch_result x 0 :: catch_clean x) (catch_term x b n2 n3 n4 n5 PhOk) /\
    code_at F n3 0 [SStorageLive (ca_l5 x)] (catch_term x b n2 n3 n4 n5 PhUnwound) /\
    code_at F n4 0 [catch_result x 1] (catch_term x b n2 n3 n4 n5 PhCatch) /\
    code_at F n5 0 (catch_clean x) (catch_term x b n2 n3 n4 n5 PhDone).

  Definition code_of (p : Pos (P:=P)) (ys : list Statement) (t : Terminator) : Prop := code_at (po_func p) (po_block p) (po_stmt p) ys t.
  Inductive task_at (p : Pos (P:=P)) : Task -> Prop :=
  | ta_body i c xs tm n B ys t : fn_is i n B (po_func p) -> code_of p ys t -> does T R B (po_func p) N c xs tm ys t ->
      Forall (MirSpec.stmt_ok T R B) xs -> goes B tm -> task_at p (KBody i c xs tm)
  | ta_enter i n B ys : fn_is i n B (po_func p) -> code_of p ys (TmGoto (bb 0)) -> task_at p (KEnter i ys)
  | ta_catch i x b ph ys n B n2 n3 n4 n5 : fn_is i n B (po_func p) -> catch_blocks (po_func p) x b n2 n3 n4 n5 -> has B b ->
      code_of p ys (catch_term x b n2 n3 n4 n5 ph) -> task_at p (KCatch i x b ph ys)
  | ta_start k : po_func p = mk_start_fn n0 -> po_block p = N.of_nat k -> po_stmt p = 0%nat -> (k <= 2)%nat -> task_at p (KStart k).
  Definition at_block (F : Function) (b : BbName) (p : Pos (P:=P)) : Prop := po_func p = F /\ po_block p = b /\ po_stmt p = 0%nat.

  Lemma block_tasks i n B F b : fn_is i n B F -> has B b -> exists k, block_task R i b k /\ forall p, at_block F (bb b) p -> task_at p k.
  Proof.
    intros Hf [blk Hb]. pose proof Hf as (_ & _ & HBi & Hfu). eexists. split; [by exists B, blk|]. intros p (<- & Hpb & Hps).
    destruct (fu_blocks _ _ _ _ _ Hfu _ _ Hb) as (sts & tm & Hblk & Hdo). destruct (bo_blocks _ _ _ (HB _ _ HBi) blk) as [Hs Ht]; [by eapply elem_of_list_lookup_2|].
    eapply ta_body; [done| |done|done|by eapply term_goes]. unfold code_of. rewrite Hpb, Hps. by eapply block_code.
  Qed.
  Lemma unwind_tasks i n B F c u nb : fn_is i n B F -> unwind_is F N c u nb -> uw B u ->
    exists k, unwind_task R i c u k /\ forall p, at_block F nb p -> task_at p k.
  Proof.
    intros Hf Hui Huw. destruct Hui as [n1 Hc Hb|n1 Hb|n1 Hb|b].
    - eexists. split; [by constructor|]. intros p (<- & Hpb & Hps). eapply ta_body; [done| |apply do_term, ti_resume|done|done].
      unfold code_of. rewrite Hpb, Hps. by eapply block_code.
    - eexists. split; [by constructor|]. intros p (<- & Hpb & Hps). eapply ta_body; [done| |apply do_term, ti_unreachable|done|done].
      unfold code_of. rewrite Hpb, Hps. by eapply block_code.
    - eexists. split; [by constructor|]. intros p (<- & Hpb & Hps). eapply ta_body; [done| |apply do_term, ti_call, ci_intrinsic, ii_abort|done|done].
      unfold code_of. rewrite Hpb, Hps. by eapply block_code.
    - destruct (block_tasks i n B F b Hf (Huw _ eq_refl)) as (k & Hk & Hp). exists k. split; [by constructor|done].
  Qed.
  Lemma enter_tasks n F : map_get (pr_functions prog) n = Some F -> exists k, entered R N prog n k /\ forall p, at_block F (fn_start F) p -> task_at p k.
  Proof.
    intros Hn. destruct (decide (n = pr_start prog)) as [->|Hne].
    - rewrite Hstart in Hn. injection Hn as <-. exists (KStart 0). split; [by constructor|]. intros p (H1 & H2 & H3). apply ta_start; [done..|lia].
    - destruct (Hcode n F Hn Hne) as (i & B & Hi & HBi & Hf). destruct (fu_start _ _ _ _ _ Hf) as (sts & Hpar & Hb).
      eexists. split; [by eapply en_fn|]. intros p (<- & Hpb & Hps). eapply ta_enter; [by split|]. unfold code_of. rewrite Hpb, Hps. by eapply block_code.
  Qed.

  (** ** Meanings *)
  Definition in_env (s : Mach) (F : Function) (env : Env P) : Prop := exists f, top_frame s f /\ f_func f = F /\ env_of N s f = env.
  Lemma env_writes s s1 F env p bs : in_env s F env -> only_writes s s1 p bs -> in_env s1 F env.
  Proof.
    intros (f & (t & r & Ht & Hst) & HF & He) (_ & (E1 & E2 & E3 & E4 & E5 & E6 & E7 & E8 & E9 & E10 & Eth) & _).
    destruct (Forall2_lookup_l _ _ _ _ _ Eth Ht) as (t1 & Ht1 & (Hfr & _)). rewrite Hst in Hfr.
    inversion Hfr as [|? f1 ? r1 (F1 & F2 & _) ? Eq1 Eq2]; subst. exists f1. split; [exists t1, r1; split; [by rewrite E3|done]|]. split; [done|].
    unfold env_of. by rewrite F2, E6, E7, E8.
  Qed.
  Lemma env_here (m : Mach) a f r : stack_of m a (f :: r) -> in_env (turn m a) (f_func f) (env_of N m f).
  Proof. intros H. exists f. split; [by eapply stack_threads|]. done. Qed.
  Lemma value_env s F env e (K : Meaning) v t : value_is T F N e K -> in_env s F env -> value_means T s e v t -> K PE AE FX D s env v t.
  Proof. intros H (f & Ht & HF & <-) Hv. by apply (H PE AE FX D s f Ht HF). Qed.
  Lemma place_env s F env B e p ptr b t : place_is T R B F N e p -> in_env s F env -> place_means T s e ptr b t -> exists r, rplace_means T s R B env p ptr b r t.
  Proof. intros H (f & Ht & HF & <-) Hv. by apply (H PE AE FX D s f Ht HF). Qed.
  Lemma args_env F env B os es : Forall2 (arg_is T R B F N) os es -> forall s vals moved, in_env s F env ->
    args_mean T s es vals moved -> passes T R B env s os vals moved.
  Proof.
    induction 1 as [|o e os es Ha _ IH]; intros s vals moved He Hm; [inversion Hm; subst; constructor|].
    destruct Ha as [p e Hp|o e Hno Ho]; inversion Hm; subst.
    - match goal with H : place_means _ _ _ _ _ _ |- _ => eapply place_env in H as (r & H); [|done..] end.
      eapply pa_move; [done..|]. apply IH; [|done]. by eapply env_writes.
    - apply pa_value; [done| |by apply IH]. by eapply (value_env _ _ _ _ (fun _ _ _ _ m env => operand_means T m R B env o)).
  Qed.
  Lemma all_env s F env B os es vals : Forall2 (fun o e => operand_is T R B F N e o) os es -> in_env s F env -> all_mean T s es vals ->
    Forall2 (fun o v => operand_means T s R B env o (fst v) (snd v)) os vals.
  Proof.
    intros Hes He. revert vals. induction Hes as [|o e os es Ho _ IH]; intros vals Hv; inversion Hv; subst; constructor; [|by apply IH].
    by eapply (value_env _ _ _ _ (fun _ _ _ _ m env => operand_means T m R B env o)).
  Qed.
  Lemma all_env1 s F env B o e vals : operand_is T R B F N e o -> in_env s F env -> all_mean T s [e] vals ->
    Forall2 (fun o v => operand_means T s R B env o (fst v) (snd v)) [o] vals.
  Proof. intros Ho He Hv. eapply all_env; [|exact He|exact Hv]. constructor; [exact Ho|constructor]. Qed.
  Lemma spread_args B F spread os es : args_are T R B F N spread os es -> exists os', spreads R B spread os os' /\ Forall2 (arg_is T R B F N) os' es.
  Proof.
    intros H. destruct H as [os es H| |os o p r t tys es fs Ho Hp Hf Hes Hfs].
    - exists os. split; [constructor|done].
    - exists []. split; constructor.
    - eexists. split; [by eapply sp_fields|]. apply Forall2_app; [done|]. clear - Hfs. induction Hfs as [|f a fs' as' (e & -> & He) _ IH]; simpl; constructor; [|done].
      by constructor.
  Qed.

  (** ** Calls *)
  Lemma reach_prog m : reachable T MO prog m -> m_prog m = prog.
  Proof. intros Hr. by apply (reach_minv T MO (model_like _ _ MM) x86_64_ok) in Hr as [Hp _ _]. Qed.
  Lemma fn_unique m n n' p : reachable T MO prog m -> In (n, p) (m_fnptrs m) -> map_get (m_fnptrs m) n' = Some p -> n' = n.
  Proof.
    intros Hr Hn Hn'. pose proof (reach_keys T MO (model_like _ _ MM) x86_64_ok _ _ Hr) as [Hk _].
    apply (map_get_nodup _ _ _ Hk) in Hn. destruct (decide (n' = n)) as [|Hne]; [done|].
    destruct (reach_distinct T MO (model_like _ _ MM) x86_64_ok prog m (OFn n) (OFn n') p p Hu Hr Hn Hn') as [[] _]; [congruence|done].
  Qed.
  Lemma step_calls (m m' : Mach) f r callee conv args ret nb ub : reachable T MO prog m -> steps_to T MO m m' ->
    at_terminator m (a_of m') (TmCall callee conv args ret nb ub) -> stack_of m (a_of m') (f :: r) ->
    exists k g st', stack_of m' (a_of m') (g :: st') /\ List.map pos st' = List.map pos (f :: r) /\ task_at (pos g) k /\
      (exists n p s1 t, In (n, p) (m_fnptrs m) /\ entered R N prog n k /\ in_env s1 (f_func f) (env_of N m f) /\ value_means T s1 callee (VPtr (mkPtr p None)) t) /\
      forall (K : Mach -> Pointer P -> Ty -> Prop) (C : Mach -> Value P -> Prop) (A : Mach -> list (Value P * Ty) -> list (ThinPtr P * Size) -> Prop),
        (forall ptr b t, place_means T (turn m (a_of m')) ret ptr b t -> K (turn m (a_of m')) ptr t) ->
        (forall s v t, in_env s (f_func f) (env_of N m f) -> value_means T s callee v t -> C s v) ->
        (forall s vals moved, in_env s (f_func f) (env_of N m f) -> args_mean T s args vals moved -> A s vals moved) ->
        calls T R N prog m m' (a_of m') K C A k.
  Proof.
    intros Hr Hs Ha Hst.
    destruct (C63_call T MO prog m m' callee conv args ret nb ub x86_64_ok MM Hr Hs Ha)
      as (rptr & al & rty & rs & m1 & fv & fty & func & vals & moved & g & st0 & st' & H1 & H2 & H3 & H4 & H5 & H6 & H7 & H8 & H9 & H10 & H11 & H12 & H13 & H14 & H15 & _).
    pose proof (stack_eq _ _ _ _ Hst H7) as <-. destruct H5 as (n & p & -> & Hnp & Hn). rewrite (reach_prog _ Hr) in Hn.
    destruct (enter_tasks n func Hn) as (k & Hk & Hp).
    assert (He : in_env m1 (f_func f) (env_of N m f)) by (eapply env_writes; [by eapply env_here|exact H3]).
    exists k, g, st'. split; [done|]. split; [by apply same_positions|]. split; [by apply Hp|]. split; [by exists n, p, m1, fty|].
    intros K C A HK HC HA. exists rptr, rty, rs, m1, n, p, func, vals, moved, g, (f :: r), st', nb, ub.
    split; [by eapply HK|]. split; [done|]. split; [done|]. split; [by eapply HC|]. do 3 (split; [done|]). split; [by eapply HA|]. by repeat (split; [done|]).
  Qed.
  (** direct calls enter the function that is meant *)
  Lemma direct_call m n p k j : reachable T MO prog m -> In (n, p) (m_fnptrs m) -> entered R N prog n k ->
    (exists nj, nm_fn N j = Some nj /\ map_get (m_fnptrs m) nj = Some p) -> exists ys, k = KEnter j ys.
  Proof.
    intros Hr Hnp He (nj & Hj & Hp). pose proof (fn_unique _ _ _ _ Hr Hnp Hp) as ->. destruct (Hin _ _ Hj) as [Hne _].
    destruct He as [|i B F sts Hi _ _ _]; [done|]. pose proof (Hinj _ _ _ Hi Hj) as ->. by eexists.
  Qed.

  (** ** Steps *)
  Definition stack_tasks (m : Mach) (a : nat) (ks : list Task) : Prop := exists st, stack_of m a st /\ Forall2 task_at (List.map pos st) ks.
  Notation mstep := (mir_step T R N entry prog).

  Lemma fin_top (m m' : Mach) a f r Rl Q k' ks : stack_of m a (f :: r) -> top_moves m m' a Rl Q -> Forall2 task_at (List.map pos r) ks ->
    (forall g, Rl f g -> task_at (pos g) k') -> stack_tasks m' a (k' :: ks).
  Proof.
    intros Hst Htop Hks Hk. destruct (top_stack _ _ _ _ _ _ _ Hst Htop) as (g & r' & Hst' & HR & Hr & _).
    exists (g :: r'). split; [done|]. simpl. rewrite Hr. constructor; [by apply Hk|done].
  Qed.
  Lemma vars_top (m m' : Mach) a f r Rl Q : stack_of m a (f :: r) -> top_moves m m' a Rl Q -> (forall g, Rl f g -> f_locals g = f_locals f) -> same_vars N m m' a.
  Proof.
    intros Hst Htop Hl l. destruct (top_stack _ _ _ _ _ _ _ Hst Htop) as (g & r' & (t' & Ht' & Hs') & HR & _). destruct Hst as (t & Ht & Hs).
    unfold var_at. rewrite Ht, Ht', Hs, Hs'. by rewrite (Hl g HR).
  Qed.
  Lemma jumped_vars b (f g : StackFrame P FX) : jumped b f g -> f_locals g = f_locals f.
  Proof. by intros (_ & ? & _). Qed.
  Lemma advanced_vars (f g : StackFrame P FX) : advanced eq f g -> f_locals g = f_locals f.
  Proof. by intros (_ & ? & _). Qed.
  Lemma jumped_block F b (f g : StackFrame P FX) : f_func f = F -> jumped b f g -> at_block F b (pos g).
  Proof. intros HF (H1 & _ & _ & H2 & H3). split; [|done]. simpl. congruence. Qed.
  Lemma silent_top (m m' : Mach) a f r b : stack_of m a (f :: r) -> top_moves m m' a (jumped b) (fun x y => y = x) -> keeps_all m m' -> silent N m m' a.
  Proof.
    intros Hst Htop Hk. split; [done|]. split; [eapply vars_top; [done..|apply jumped_vars]|].
    by destruct (top_stack _ _ _ _ _ _ _ Hst Htop) as (g & r' & _ & _ & _ & ?).
  Qed.
  Lemma advanced_code L (f g : StackFrame P FX) y ys t : advanced L f g -> code_of (pos f) (y :: ys) t -> code_of (pos g) ys t /\ f_func g = f_func f.
  Proof.
    intros (H1 & _ & _ & H2 & H3) Hc. unfold code_of in *. simpl in *. rewrite H1, H2, H3. split; [|done]. by apply code_next with (y := y).
  Qed.

  (** ** Callers *)
  Lemma code_unique p ys t ys' t' : code_of p ys t -> code_of p ys' t' -> ys = ys' /\ t = t'.
  Proof.
    intros (b & Hb & Ht & Hd & _) (b' & Hb' & Ht' & Hd' & _). rewrite Hb in Hb'. injection Hb' as <-. by subst.
  Qed.
  Definition continues (p : Pos (P:=P)) (k : Task) (b : BbName) (Q : Task -> Task -> Prop) : Prop :=
    exists k', Q k k' /\ forall q, at_block (po_func p) b q -> task_at q k'.
  Lemma body_calls i n B F c tm callee conv args ret nb ub : fn_is i n B F -> goes B tm -> term_is T R B F N c tm [] (TmCall callee conv args ret nb ub) ->
    (forall b, nb = Some b -> exists k', returned R (KBody i c [] tm) k' /\ forall q, at_block F b q -> task_at q k') /\
    (forall b, ub = Some b -> exists k', unwound R (KBody i c [] tm) k' /\ forall q, at_block F b q -> task_at q k').
  Proof.
    intros Hf Hg Ht.
    assert (Hcall : forall g os d (b : option RBb) u un, (forall b', b = Some b' -> has B b') -> uw B u -> unwind_is F N c u un ->
      (forall b', option_map bb b = Some b' -> exists k', returned R (KBody i c [] (MtCall g os d b u)) k' /\ forall q, at_block F b' q -> task_at q k') /\
      (forall b', Some un = Some b' -> exists k', unwound R (KBody i c [] (MtCall g os d b u)) k' /\ forall q, at_block F b' q -> task_at q k')).
    { intros g os d b u un Hb Hun Hui. split.
      - intros b' Eb. destruct b as [b|]; [|done]. injection Eb as <-. destruct (block_tasks _ _ _ _ _ Hf (Hb _ eq_refl)) as (k & Hk & Hp).
        exists k. split; [by constructor|done].
      - intros b' [= <-]. destruct (unwind_tasks _ _ _ _ _ _ _ Hf Hui Hun) as (k & Hk & Hp). exists k. split; [by constructor|done]. }
    assert (Hdrop : forall p j b u, has B b ->
      (forall b', Some (bb b) = Some b' -> exists k', returned R (KBody i c [] (MtDrop p j b u)) k' /\ forall q, at_block F b' q -> task_at q k') /\
      (forall b', None = Some b' -> exists k', unwound R (KBody i c [] (MtDrop p j b u)) k' /\ forall q, at_block F b' q -> task_at q k')).
    { intros p j b u Hb. split; [|done]. intros b' [= <-]. destruct (block_tasks _ _ _ _ _ Hf Hb) as (k & Hk & Hp). exists k. split; [by constructor|done]. }
    inversion Ht as [| |g os d b u sts tm' Hci| | | |p j b u| p j b u|]; subst; try (by apply Hdrop).
    inversion Hci as [? ? ? ? ? ? ? ? ? ? ? ? ? Hui|? ? ? ? ? ? ? Hii| |? ? ? ? ? Hpi|? ? ? ? ? ? ? ? ? ? ? ? ? ? Hui|? ? ? ? ? ? ? ? ? ? ? ? ? ? ? ? ? ? Hui]; subst.
    - destruct Hg as [Hg1 Hg2]. by apply Hcall.
    - inversion Hii as [| | | | |? ? ? ? ? ? (? & ? & ? & ? & ? & ? & ? & ? & ? & ? & ? & ? & ? & ? & E & _)|]; subst. done.
    - inversion Hpi.
    - destruct Hg as [Hg1 Hg2]. by apply Hcall.
    - destruct Hg as [Hg1 Hg2]. by apply Hcall.
  Qed.
  Lemma caller_tasks p k callee conv args ret nb ub : task_at p k -> code_of p [] (TmCall callee conv args ret nb ub) ->
    (forall b, nb = Some b -> continues p k b (returned R)) /\ (forall b, ub = Some b -> continues p k b (unwound R)).
  Proof.
    intros Hk Hc. destruct Hk as [i c xs tm n B ys t Hf Hc' Hd Hxs Hg|i n B ys Hf Hc'|i x b ph ys n B n2 n3 n4 n5 Hf Hblk Hb Hc'|k HF Hpb Hps Hk].
    - destruct (code_unique _ _ _ _ _ Hc Hc') as [<- <-]. inversion Hd as [| |? ? ? Ht]; subst. by eapply body_calls.
    - by destruct (code_unique _ _ _ _ _ Hc Hc').
    - destruct (code_unique _ _ _ _ _ Hc Hc') as [<- Ht]. destruct Hblk as (H2 & H3 & H4 & H5). destruct ph; try done; injection Ht as -> -> -> -> -> ->.
      + split; intros b' [= <-].
        * eexists. split; [constructor|]. intros q (E1 & E2 & E3). eapply (ta_catch _ _ _ _ PhOk); rewrite ?E1; [done..|]. unfold code_of. by rewrite E1, E2, E3.
        * eexists. split; [constructor|]. intros q (E1 & E2 & E3). eapply (ta_catch _ _ _ _ PhUnwound); rewrite ?E1; [done..|]. unfold code_of. by rewrite E1, E2, E3.
      + split; intros b' E; [|done]. injection E as <-.
        eexists. split; [constructor|]. intros q (E1 & E2 & E3). eapply (ta_catch _ _ _ _ PhDone); rewrite ?E1; [done..|]. unfold code_of. by rewrite E1, E2, E3.
    - destruct Hc as (blk & Hblk & Ht & _). rewrite HF, Hpb in Hblk. destruct k as [|[|[|k]]]; [|by injection Hblk as <-|by injection Hblk as <-|lia].
      injection Hblk as <-. injection Ht as <- <- <- <- <- <-. split; intros b [= <-].
      + exists (KStart 1). split; [constructor|]. intros q (E1 & E2 & E3). apply ta_start; [congruence|done..|lia].
      + exists (KStart 2). split; [constructor|]. intros q (E1 & E2 & E3). apply ta_start; [congruence|done..|lia].
  Qed.

  Section Step.
    Variables (m m' : Mach) (f : StackFrame P FX) (r : list (StackFrame P FX)) (ks : list Task).
    Hypothesis Hr : reachable T MO prog m.
    Hypothesis Hs : steps_to T MO m m'.
    Hypothesis Hst : stack_of m (a_of m') (f :: r).
    Hypothesis Hks : Forall2 task_at (List.map pos r) ks.
    Notation a := (a_of m').
    Notation env := (env_of N m f).
    Notation goal k := (exists ks', stack_tasks m' a ks' /\ mstep m m' a (k :: ks) ks').
    Let Tok := x86_64_ok.

    Lemma here_is i n B : fn_is i n B (f_func f) -> here R N m a i B env.
    Proof. intros (_ & _ & HBi & _). split; [done|]. by exists f, r. Qed.
    Lemma goto_top t : code_of (pos f) [] t -> at_terminator m a t.
    Proof. intros Hc. eapply code_term; [done|exact Hc]. Qed.

    (** statements *)
    Lemma body_stmt i n B c x y xs tm ys t : fn_is i n B (f_func f) -> code_of (pos f) (y :: ys) t -> stmt_is T R B (f_func f) N x y ->
      does T R B (f_func f) N c xs tm ys t -> MirSpec.stmt_ok T R B x -> Forall (MirSpec.stmt_ok T R B) xs -> goes B tm -> goal (KBody i c (x :: xs) tm).
    Proof.
      intros Hf Hc Hx Hd Hok Hxs Hg. pose proof (code_stmt _ _ _ _ _ _ _ Hst Hc) as Ha. pose proof (here_is _ _ _ Hf) as Hh.
      pose proof (env_here _ _ _ _ Hst) as He. pose proof Hf as (_ & _ & HBi & Hfu).
      assert (Hnext : forall L Q, top_moves m m' a (advanced L) Q -> stack_tasks m' a (KBody i c xs tm :: ks)).
      { intros L Q Htop. eapply fin_top; [exact Hst|exact Htop|done|]. intros g Hg'. destruct (advanced_code _ _ _ _ _ _ Hg' Hc) as [Hc' HF].
        eapply ta_body; simpl; rewrite ?HF; done. }
      assert (Hplain : match y with SStorageLive _ | SStorageDead _ => False | _ => True end ->
        top_moves m m' a (advanced eq) (fun x y => y = x) /\ same_vars N m m' a).
      { intros Hy. pose proof (C65_statement T MO prog m m' y Tok MM Hr Hs Ha Hy) as Htop. split; [done|]. eapply vars_top; [done..|apply advanced_vars]. }
      destruct Hx as [p rv d e Hp Hrv|l|l|fe p d Hp|p v d rt t0 bits it x Hp Hpo Hdi Hw|p d Hp].
      - destruct (Hplain I) as [Htop Hv]. exists (KBody i c xs tm :: ks). split; [by eapply Hnext|].
        destruct (C62_assign T MO prog m m' d e Tok MM Hr Hs Ha) as (ptr & ty & v & vt & bs & H1 & H2 & H3 & H4).
        destruct (place_env _ _ _ _ _ _ _ _ _ Hp He H1) as (rt & Hpl).
        pose proof (value_env _ _ _ _ _ _ _ Hrv He H2) as Hval. cbn beta in Hval. eapply ms_assign; [exact Hh|exact Hpl|exact Hval|exact H3|exact H4|exact Hv].
      - destruct (C65_storage_live T MO prog m m' _ Tok MM Hr Hs Ha) as (q & n1 & al & Hob & Hsto & Htop). exists (KBody i c xs tm :: ks).
        assert (l < length (ro_locals B))%nat as Hl by (by inversion Hok). destruct (lookup_lt_is_Some_2 _ _ Hl) as [rt Hrt].
        destruct (fu_locals _ _ _ _ _ Hfu _ _ Hrt) as (ty & Hty & Hlo).
        destruct (top_stack _ _ _ _ _ _ _ Hst Htop) as (g & r' & (t' & Ht' & Hs') & (Hadv & ty' & Hty' & Hsz & Hal) & Hpr & _).
        assert (ty' = ty) as -> by congruence. split.
        { apply (Hnext (moves_local (loc l) (Some q)) (fun x y => y = x)).
          destruct Htop as (t0 & f0 & r0 & t1 & f1 & r1 & ? & ? & ? & ? & [? _] & ? & ?). by exists t0, f0, r0, t1, f1, r1. }
        destruct Hst as (t0 & Ht0 & Hs0). pose proof Hadv as (_ & (Hml & Hmo) & _).
        eapply (ms_live _ _ _ _ _ m m' a i B env c l); [done..| | |].
        + unfold var_at. by rewrite Ht', Hs'.
        + intros l' Hne. unfold var_at. rewrite Ht', Hs', Ht0, Hs0. apply Hmo. intros E. by apply (fu_loc _ _ _ _ _ Hfu) in E.
        + by eapply (C62_silent_statements T MO prog m m' _ Tok MM Hr Hs Ha).
      - pose proof (C65_storage_dead T MO prog m m' _ Tok MM Hr Hs Ha) as Htop. exists (KBody i c xs tm :: ks).
        split; [by eapply Hnext|]. destruct (top_stack _ _ _ _ _ _ _ Hst Htop) as (g & r' & (t' & Ht' & Hs') & Hadv & Hpr & _).
        destruct Hst as (t0 & Ht0 & Hs0). pose proof Hadv as (_ & (Hml & Hmo) & _). apply ms_dead.
        + unfold var_at. by rewrite Ht', Hs'.
        + intros l' Hne. unfold var_at. rewrite Ht', Hs', Ht0, Hs0. apply Hmo. intros E. by apply (fu_loc _ _ _ _ _ Hfu) in E.
        + by eapply (C62_silent_statements T MO prog m m' _ Tok MM Hr Hs Ha).
      - destruct (Hplain I) as [Htop Hv]. exists (KBody i c xs tm :: ks). split; [by eapply Hnext|].
        destruct (C62_validate T MO prog m m' d fe Tok MM Hr Hs Ha) as (ptr & ty & v & w & bs & H1 & H2 & H3 & H4 & H5 & H6).
        destruct (place_env _ _ _ _ _ _ _ _ _ Hp He H1) as (rt & Hpl). by eapply ms_retag.
      - destruct (Hplain I) as [Htop Hv]. exists (KBody i c xs tm :: ks). split; [by eapply Hnext|].
        destruct (C62_set_discriminant T MO prog m m' d x Tok MM Hr Hs Ha) as (ptr & vs & dty & dd & sz & al & vty & tags & H1 & H2 & H3 & H4).
        destruct (place_env _ _ _ _ _ _ _ _ _ Hp He H1) as (rt' & Hpl).
        pose proof (place_typed _ R HDi _ _ _ _ _ _ _ _ _ Hpl Hpo) as [-> <-].
        by eapply ms_discr.
      - destruct (Hplain I) as [Htop Hv]. exists (KBody i c xs tm :: ks). split; [by eapply Hnext|].
        destruct (mean_mention MO MM m m' d Hs Ha) as (ptr & b & ty & H1). destruct (place_env _ _ _ _ _ _ _ _ _ Hp He H1) as (rt' & Hpl).
        eapply ms_mention; [done|done|]. split; [by eapply (C62_silent_statements T MO prog m m' _ Tok MM Hr Hs Ha)|]. split; [done|].
        by destruct (top_stack _ _ _ _ _ _ _ Hst Htop) as (g & r' & _ & _ & _ & ?).
    Qed.

    (** statements that are intrinsics *)
    Lemma body_op i n B c x op d es nb xs tm ys t : fn_is i n B (f_func f) -> code_of (pos f) [] (TmIntrinsic op es d (Some nb)) ->
      stmt_op T R B (f_func f) N x op d es -> block_at (f_func f) nb ys t (MirCode.kind_of c) ->
      does T R B (f_func f) N c xs tm ys t -> Forall (MirSpec.stmt_ok T R B) xs -> goes B tm -> goal (KBody i c (x :: xs) tm).
    Proof.
      intros Hf Hc Hx Hb Hd Hxs Hg. pose proof (code_term _ _ _ _ _ Hst Hc) as Ha. pose proof (here_is _ _ _ Hf) as Hh.
      pose proof (env_here _ _ _ _ Hst) as He. destruct (C65_intrinsic T MO prog m m' _ _ _ _ Tok MM Hr Hs Ha) as (b & [= <-] & Htop).
      assert (Hnext : stack_tasks m' a (KBody i c xs tm :: ks)).
      { eapply fin_top; [exact Hst|exact Htop|done|]. intros g (H1 & _ & _ & H2 & H3). eapply ta_body; simpl; rewrite ?H1; try done.
        unfold code_of. simpl. rewrite H1, H2, H3. by eapply block_code. }
      assert (Hv : same_vars N m m' a) by (eapply vars_top; [done..|apply jumped_vars]).
      destruct (step_op MO MM prog m m' _ _ _ _ Hr Hs Ha) as (vals & Hvals & Hdo). exists (KBody i c xs tm :: ks). split; [done|].
      destruct Hx as [p o rt d e Hp Ho|p o rt d e Hp Ho|o e Ho].
      - pose proof (all_env1 _ _ _ _ _ _ _ Ho He Hvals) as Hm. inversion Hm as [|? [v ty] ? vs Hm1 Hm2]; subst.
        inversion Hm2; subst. eapply ms_expose; [done..|]. eapply op_does_weak; [|exact Hdo]. intros ptr ty'. by eapply place_env.
      - pose proof (all_env1 _ _ _ _ _ _ _ Ho He Hvals) as Hm. inversion Hm as [|? [v ty] ? vs Hm1 Hm2]; subst.
        inversion Hm2; subst. eapply ms_with_exposed; [done..|]. eapply op_does_weak; [|exact Hdo]. intros ptr ty'. by eapply place_env.
      - pose proof (all_env1 _ _ _ _ _ _ _ Ho He Hvals) as Hm. apply assume_silent in Hdo as (ty & -> & Hk).
        inversion Hm as [|? ? ? ? Hm1 Hm2]; subst. eapply ms_assume; [done|exact Hm1|]. by eapply silent_top.
    Qed.

    (** jumps *)
    Lemma jump_to i n B b k0 : fn_is i n B (f_func f) -> has B b -> code_of (pos f) [] (TmGoto (bb b)) ->
      (forall k, block_task R i b k -> silent N m m' a -> mstep m m' a (k0 :: ks) (k :: ks)) -> goal k0.
    Proof.
      intros Hf Hb Hc H. pose proof (code_term _ _ _ _ _ Hst Hc) as Ha. pose proof (C65_goto T MO prog m m' _ Tok MM Hr Hs Ha) as Htop.
      destruct (block_tasks _ _ _ _ _ Hf Hb) as (k & Hk & Hp). exists (k :: ks). split.
      - eapply fin_top; [done..|]. intros g Hg. apply Hp. by eapply jumped_block.
      - apply H; [done|]. eapply silent_top; [done..|]. by eapply (C62_silent_terminators T MO prog m m' _ Tok MM Hr Hs Ha).
    Qed.
    Lemma intrinsic_to i n B b op es d k0 : fn_is i n B (f_func f) -> (forall b', b = Some b' -> has B b') ->
      code_of (pos f) [] (TmIntrinsic op es d (option_map bb b)) ->
      (forall b' k vals, b = Some b' -> block_task R i b' k -> same_vars N m m' a -> all_mean T (turn m a) es vals ->
        op_does T m m' a (fun ptr t => place_means T (turn m a) d ptr true t) op vals -> mstep m m' a (k0 :: ks) (k :: ks)) -> goal k0.
    Proof.
      intros Hf Hb Hc H. pose proof (code_term _ _ _ _ _ Hst Hc) as Ha. destruct (C65_intrinsic T MO prog m m' _ _ _ _ Tok MM Hr Hs Ha) as (nb & Hnb & Htop).
      destruct b as [b|]; [|done]. injection Hnb as <-. destruct (block_tasks _ _ _ _ _ Hf (Hb _ eq_refl)) as (k & Hk & Hp). exists (k :: ks). split.
      - eapply fin_top; [done..|]. intros g Hg. apply Hp. by eapply jumped_block.
      - destruct (step_op MO MM prog m m' _ _ _ _ Hr Hs Ha) as (vals & Hvals & Hdo). eapply H; [done..| |done|done]. eapply vars_top; [done..|apply jumped_vars].
    Qed.
    Lemma no_intrinsic op es d k0 : code_of (pos f) [] (TmIntrinsic op es d None) -> goal k0.
    Proof.
      intros Hc. pose proof (code_term _ _ _ _ _ Hst Hc) as Ha. by destruct (C65_intrinsic T MO prog m m' _ _ _ _ Tok MM Hr Hs Ha) as (nb & Hnb & Htop).
    Qed.
    Lemma panic_to i n B c u tm k0 : fn_is i n B (f_func f) -> uw B u -> panic_is R (f_func f) N c u tm -> code_of (pos f) [] tm ->
      (forall k, rc_unwinds R = true -> unwind_task R i c u k -> keeps_all m m' -> same_vars N m m' a -> payloads a m' = mkThin 1 None :: payloads a m ->
        mstep m m' a (k0 :: ks) (k :: ks)) -> goal k0.
    Proof.
      intros Hf Huw Hp Hc H. destruct Hp as [nb Hun Hui|Hun]; [|by eapply no_intrinsic].
      pose proof (code_term _ _ _ _ _ Hst Hc) as Ha. destruct (C65_start_unwind T MO prog m m' _ _ Tok MM Hr Hs Ha) as (q & Hq & Htop).
      destruct (unwind_tasks _ _ _ _ _ _ _ Hf Hui Huw) as (k & Hk & Hpk). exists (k :: ks). split.
      - eapply fin_top; [done..|]. intros g Hg. apply Hpk. by eapply jumped_block.
      - apply H; [done|done| | |].
        + by eapply (C62_silent_terminators T MO prog m m' _ Tok MM Hr Hs Ha).
        + eapply vars_top; [done..|apply jumped_vars].
        + destruct (top_stack _ _ _ _ _ _ _ Hst Htop) as (g & r' & _ & _ & _ & ->). f_equal. inversion Hq as [? ? ? Hq1| | | | | | | |]; subst. by inversion Hq1.
    Qed.
    Lemma switch_to e cases fb k0 : code_of (pos f) [] (TmSwitch e cases fb) ->
      (forall x ty b, value_means T (turn m a) e (VInt x) ty -> selects cases fb x b -> exists k, (forall p, at_block (f_func f) b p -> task_at p k) /\
        (silent N m m' a -> mstep m m' a (k0 :: ks) (k :: ks))) -> goal k0.
    Proof.
      intros Hc H. pose proof (code_term _ _ _ _ _ Hst Hc) as Ha. destruct (C65_switch T MO prog m m' _ _ _ Tok MM Hr Hs Ha) as (x & ty & b & Hx & Hsel & Htop).
      destruct (H _ _ _ Hx Hsel) as (k & Hk & Hm). exists (k :: ks). split.
      - eapply fin_top; [done..|]. intros g Hg. apply Hk. by eapply jumped_block.
      - apply Hm. eapply silent_top; [done..|]. by eapply (C62_silent_terminators T MO prog m m' _ Tok MM Hr Hs Ha).
    Qed.
    Lemma call_to callee conv args ret nb ub k0 : task_at (pos f) k0 -> code_of (pos f) [] (TmCall callee conv args ret nb ub) ->
      (forall k, (exists n p s1 t, In (n, p) (m_fnptrs m) /\ entered R N prog n k /\ in_env s1 (f_func f) env /\ value_means T s1 callee (VPtr (mkPtr p None)) t) ->
        (forall (K : Mach -> Pointer P -> Ty -> Prop) (C : Mach -> Value P -> Prop) (A : Mach -> list (Value P * Ty) -> list (ThinPtr P * Size) -> Prop),
          (forall ptr b t, place_means T (turn m a) ret ptr b t -> K (turn m a) ptr t) ->
          (forall s v t, in_env s (f_func f) env -> value_means T s callee v t -> C s v) ->
          (forall s vals moved, in_env s (f_func f) env -> args_mean T s args vals moved -> A s vals moved) ->
          calls T R N prog m m' a K C A k) ->
        mstep m m' a (k0 :: ks) (k :: k0 :: ks)) -> goal k0.
    Proof.
      intros Hk0 Hc H. pose proof (code_term _ _ _ _ _ Hst Hc) as Ha.
      destruct (step_calls m m' f r _ _ _ _ _ _ Hr Hs Ha Hst) as (k & g & st' & Hst' & Hp & Hk & Hn & Hall).
      exists (k :: k0 :: ks). split; [|by apply H]. exists (g :: st'). split; [done|]. simpl. rewrite Hp. constructor; [done|]. simpl. by constructor.
    Qed.

    (** calls of known functions *)
    Lemma ev_fn_name (g : StackFrame P FX) j p : ev_fn (env_of N m g) j = Some p -> exists nj, nm_fn N j = Some nj /\ map_get (m_fnptrs m) nj = Some p.
    Proof. intros E. apply bind_Some in E as (nj & Hj & E). by exists nj. Qed.
    Lemma nowhere_dest (s : Mach) ptr b t : place_means T s nowhere ptr b t -> no_dest s ptr t.
    Proof. intros H. by inversion H. Qed.
    Lemma value_args B F (K : Meaning) e : value_is T F N e K -> forall s vals moved, in_env s F B -> args_mean T s [ByValue e] vals moved ->
      exists v t, K PE AE FX D s B v t /\ vals = [(v, t)] /\ moved = [].
    Proof.
      intros He s vals moved Hin' Hm. inversion Hm as [|? ? v ty vs mv Hv Hm1|]; subst. inversion Hm1; subst.
      exists v, ty. split; [|done]. by eapply (value_env _ _ _ _ K).
    Qed.

    (** the stack below *)
    Lemma below : stack_ok prog (List.map pos (f :: r)).
    Proof.
      destruct Hst as (t & Ht & Es). destruct (reach_stack T MO prog (program_wf_blocks T prog Hwf) run_regular m _ t Hr Ht) as (Hterm & Hok & _).
      assert (Hok' : stack_ok prog (positions t)) by (apply Hok; intros E; rewrite (Hterm E) in Es; done).
      unfold positions in Hok'. by rewrite Es in Hok'.
    Qed.

    Lemma body_return i n B c tm : fn_is i n B (f_func f) -> code_of (pos f) [] tm -> tm = TmReturn -> goal (KBody i c [] MtReturn).
    Proof.
      intros Hf Hc ->. pose proof (code_term _ _ _ _ _ Hst Hc) as Ha. pose proof (here_is _ _ _ Hf) as Hh. pose proof Hf as (_ & _ & HBi & Hfu).
      destruct (C64_return T MO prog m m' Tok MM Hr Hs Ha) as (f0 & r0 & rty & p & v & Hst0 & Hrty & Hp & Hv & Hact).
      pose proof (stack_eq _ _ _ _ Hst Hst0) as [= <- <-]. rewrite (fu_ret _ _ _ _ _ Hfu) in Hrty, Hp.
      destruct (lookup_lt_is_Some_2 (ro_locals B) 0%nat) as [rt Hrt]; [pose proof (bo_args _ _ _ (HB _ _ HBi)); lia|].
      destruct (fu_locals _ _ _ _ _ Hfu _ _ Hrt) as (t & Hty & Hlo). assert (t = rty) as -> by congruence.
      pose proof below as Hok. destruct (f_action f) as [|nb ub rp] eqn:Eact.
      - destruct Hact as [Hk Hst']. inversion Hok as [? ? Hb E|? ? ? ? ? ? ? ? ? ? ? ? Hb E]; subst; [|simpl in Hb; congruence].
        destruct r; [|done]. inversion Hks; subst. exists []. split; [exists []; split; [done|constructor]|]. by eapply ms_return_end.
      - destruct Hact as (b & g & r1 & g' & r1' & bs & -> & Er & Hst' & Hj & Hsame & Hbs & Hw). rewrite Er in Hok, Hks.
        inversion Hok as [|? ? ? blk1 callee conv args ret nb ub' p' ? Hb Hbg Hsg Htg Hrest]; subst. simpl in Hb. rewrite Eact in Hb. injection Hb as <- <- <-.
        inversion Hks as [|? k1 ? ks1 Hk1 Hks1 E1 E2]; subst.
        destruct (caller_tasks (pos g) k1 callee conv args ret (Some b) ub Hk1) as [Hn _].
        { exists blk1. split; [exact Hbg|]. split; [done|]. split; [|simpl in Hsg |- *; lia]. apply drop_ge. simpl in Hsg |- *. lia. }
        destruct (Hn b eq_refl) as (k1' & Hd1 & Hf1). exists (k1' :: ks1). split.
        + exists (g' :: r1'). split; [done|]. simpl. rewrite (same_positions _ _ Hsame). constructor; [|done]. apply Hf1. by eapply jumped_block.
        + by eapply ms_return.
    Qed.
    Lemma body_resume i n B c : fn_is i n B (f_func f) -> code_of (pos f) [] TmResumeUnwind -> goal (KBody i c [] MtResume).
    Proof.
      intros Hf Hc. pose proof (code_term _ _ _ _ _ Hst Hc) as Ha. pose proof below as Hok. pose proof Hst as (t0 & Ht0 & Es0).
      destruct (C65_resume_unwind T MO prog m m' Tok MM Hr Hs Ha) as (t & f0 & g & r1 & nb & b & p & t' & g' & r1' & Ht1 & Es & Eact & Ht1' & Es' & Hj & Hsame & Hpay).
      assert (t0 = t) as -> by congruence. rewrite Es0 in Es. injection Es as <- Er. rewrite Er in Hok, Hks.
      inversion Hok as [|? ? ? blk1 callee conv args ret nb0 ub' p' ? Hb Hbg Hsg Htg Hrest]; subst. simpl in Hb. rewrite Eact in Hb. injection Hb as <- <- <-.
      inversion Hks as [|? k1 ? ks1 Hk1 Hks1 E1 E2]; subst.
      destruct (caller_tasks (pos g) k1 callee conv args ret nb (Some b) Hk1) as [_ Hn].
      { exists blk1. split; [exact Hbg|]. split; [done|]. split; [|simpl in Hsg |- *; lia]. apply drop_ge. simpl in Hsg |- *. lia. }
      destruct (Hn b eq_refl) as (k1' & Hd1 & Hf1). exists (k1' :: ks1). split.
      - exists (g' :: r1'). split; [by exists t'|]. simpl. rewrite (same_positions _ _ Hsame). constructor; [|done]. apply Hf1. by eapply jumped_block.
      - apply ms_resume; [done| |].
        + by eapply (C62_silent_terminators T MO prog m m' _ Tok MM Hr Hs Ha).
        + unfold payloads. by rewrite Ht1, Ht1'.
    Qed.

    (** calls *)
    Lemma dest_env B e d : place_is T R B (f_func f) N e d ->
      forall ptr b t, place_means T (turn m a) e ptr b t -> exists al r, rplace_means T (turn m a) R B env d ptr al r t.
    Proof. intros Hp ptr b t H. destruct (place_env _ _ _ _ _ _ _ _ _ Hp (env_here _ _ _ _ Hst) H) as (rt & Hpl). by exists b, rt. Qed.
    Lemma dest_env1 B e d : place_is T R B (f_func f) N e d ->
      forall ptr t, place_means T (turn m a) e ptr true t -> exists r, rplace_means T (turn m a) R B env d ptr true r t.
    Proof. intros Hp ptr t H. by destruct (place_env _ _ _ _ _ _ _ _ _ Hp (env_here _ _ _ _ Hst) H) as (rt & Hpl); exists rt. Qed.
    Lemma body_intrinsic i n B c op args d b u ys t : fn_is i n B (f_func f) -> code_of (pos f) ys t -> intrinsic_is T R B (f_func f) N op args d b ys t ->
      goes B (MtCall (CeIntrinsic op) args d b u) -> goal (KBody i c [] (MtCall (CeIntrinsic op) args d b u)).
    Proof.
      intros Hf Hc Hi Hg. pose proof (here_is _ _ _ Hf) as Hh. pose proof (env_here _ _ _ _ Hst) as He.
      destruct Hi as [args d b|args d b|args d b es dest Hes Hd|op args d b dest e Hop Hd He'|args d b|fo data g d b tm Hcatch|args d b].
      - eapply jump_to; [done|by apply Hg|done|]. intros k Hk Hsi. by apply ms_intr_assert.
      - by eapply no_intrinsic.
      - eapply intrinsic_to; [done|exact Hg|done|]. intros b' k vals -> Hk Hv Hvals Hdo. eapply ms_intr_raw_eq; [done|by eapply all_env| |done|done].
        eapply op_does_weak; [|exact Hdo]. by apply dest_env1.
      - pose proof (code_stmt _ _ _ _ _ _ _ Hst Hc) as Ha.
        pose proof (C65_statement T MO prog m m' _ Tok MM Hr Hs Ha I) as Htop.
        assert (Hb : has B b). { destruct Hop as [Hop|[[rr ->]|[rr ->]]]; [|by apply Hg..]. rewrite !elem_of_cons in Hop. destruct Hop as [->|[->|[->|[->|[->|Hop]]]]]; [by apply Hg..|by apply elem_of_nil in Hop]. }
        exists (KBody i c [] (MtGoto b) :: ks). split.
        + eapply fin_top; [exact Hst|exact Htop|done|]. intros g' Hg'. destruct (advanced_code _ _ _ _ _ _ Hg' Hc) as [Hc' HF].
          eapply ta_body; simpl; rewrite ?HF; [done|done|apply do_term, ti_goto|done|done].
        + destruct (C62_assign T MO prog m m' _ _ Tok MM Hr Hs Ha) as (ptr & ty & v & vt & bs & H1 & H2 & H3 & H4).
          destruct (dest_env1 _ _ _ Hd _ _ H1) as (rt & Hpl). pose proof (value_env _ _ _ _ _ _ _ He' He H2) as Hval. cbn beta in Hval.
          eapply ms_intr_value; [exact Hh|exact Hpl|exact Hval|exact H3|exact H4|]. eapply vars_top; [done..|apply advanced_vars].
      - eapply jump_to; [done|by apply Hg|done|]. intros k Hk Hsi. by apply ms_intr_cold.
      - destruct Hcatch as (dest & try_fn & arg & catch_fn & n1 & n2 & n3 & n4 & n5 & l1 & l2 & l3 & l4 & l5 & -> & Hd & Hf1 & Hf2 & Hf3 & Hnd & Hfresh & _ & H1 & H2 & H3 & H4 & H5).
        pose proof (code_term _ _ _ _ _ Hst Hc) as Ha. pose proof (C65_goto T MO prog m m' _ Tok MM Hr Hs Ha) as Htop.
        set (x := mkCatch dest try_fn arg catch_fn l1 l2 l3 l4 l5). exists (KCatch i x b PhTry (catch_prepare x) :: ks). split.
        + eapply fin_top; [exact Hst|exact Htop|done|]. intros g' Hg'. destruct (jumped_block _ _ _ _ eq_refl Hg') as (E1 & E2 & E3).
          eapply (ta_catch _ _ x b PhTry _ n B n2 n3 n4 n5); rewrite ?E1; [done| |by apply Hg|].
          * split; [|split; [|split]]; by eapply block_code.
          * unfold code_of. rewrite E1, E2, E3. by eapply block_code.
        + pose proof Hf as (Hfn & HF & HBi & _). eapply (ms_catch _ _ _ _ _ _ _ _ i B (f_func f) n c fo data g d b u ks x); try done.
          eapply silent_top; [done..|]. by eapply (C62_silent_terminators T MO prog m m' _ Tok MM Hr Hs Ha).
      - by eapply no_intrinsic.
    Qed.
    Lemma body_call i n B c g args d b u ys t : fn_is i n B (f_func f) -> code_of (pos f) ys t -> call_is T R B (f_func f) N c g args d b u ys t ->
      goes B (MtCall g args d b u) -> goal (KBody i c [] (MtCall g args d b u)).
    Proof.
      intros Hf Hc Hi Hg. pose proof (here_is _ _ _ Hf) as Hh. pose proof (env_here _ _ _ _ Hst) as He.
      assert (Htask : task_at (pos f) (KBody i c [] (MtCall g args d b u))).
      { eapply ta_body; [done|done|by apply do_term, ti_call|done|done]. }
      destruct Hi as [fo conv args d b u e es dest un Hfo Hargs Hd Hui|op args d b u sts tm Hi|name op args d b u es dest Hname Hes Hd|args d b u tm Hp|
        conv spread j args d b u e es dest un Hfn Hargs Hd Hui|conv spread method o args d b u e ar es e0 dest un Hme He0 Hargs Hd Hui].
      - destruct (spread_args _ _ _ _ _ Hargs) as (os' & Hsp & Hos). inversion Hsp; subst.
        eapply call_to; [done|done|]. intros k Hen Hk. eapply ms_call_ptr; [done|]. apply Hk.
        + by apply dest_env.
        + intros s v t Hin' Hv. exists t. by eapply (value_env _ _ _ _ (fun _ _ _ _ m env => operand_means T m R B env fo)).
        + intros s vals moved Hin' Hm. by eapply args_env.
      - by eapply body_intrinsic.
      - eapply intrinsic_to; [done|exact Hg|done|]. intros b' k vals -> Hk Hv Hvals Hdo. eapply ms_mini; [done|by apply elem_of_list_In|by eapply all_env| |done|done].
        eapply op_does_weak; [|exact Hdo]. by apply dest_env1.
      - eapply panic_to; [done|exact Hg|done|done|]. intros k Hun Hk Hka Hv Hpay. by apply ms_panic.
      - destruct (spread_args _ _ _ _ _ Hargs) as (os' & Hsp & Hos).
        eapply call_to; [done|done|]. intros k (nn & p & s1 & t & Hnp & Hen & Hin1 & Hv) Hk.
        destruct (value_env _ _ _ _ _ _ _ Hfn Hin1 Hv) as (p1 & Hp1 & E1 & _). injection E1 as <-.
        destruct (direct_call _ _ _ _ _ Hr Hnp Hen (ev_fn_name _ _ _ Hp1)) as (ys' & ->). eapply ms_call; [done|done|]. apply Hk.
        + by apply dest_env.
        + intros s v t' Hin' Hv'. destruct (value_env _ _ _ _ _ _ _ Hfn Hin' Hv') as (p2 & Hp2 & E2 & _). by exists p2.
        + intros s vals moved Hin' Hm. by eapply args_env.
      - destruct (spread_args _ _ _ _ _ Hargs) as (os' & Hsp & Hos). inversion Hos as [|o1 ? args' ? Ho1 Hos']; subst.
        eapply call_to; [done|done|]. intros k _ Hk. eapply ms_call_virtual; [done|done|]. apply Hk.
        + by apply dest_env.
        + intros s v t Hin' Hv. destruct (value_env _ _ _ _ _ _ _ Hme Hin' Hv) as (p & pt & H1 & H2). by exists p, pt, t.
        + intros s vals moved Hin' Hm. inversion Hm as [|? ? v ty vs mv Hv Hm1|]; subst.
          destruct (value_env _ _ _ _ _ _ _ He0 Hin' Hv) as (p & pt & H1 & -> & ->). exists p, pt, vs. split; [done|]. split; [done|]. by eapply args_env.
    Qed.

    (** terminators *)
    Lemma body_term i n B c tm ys t : fn_is i n B (f_func f) -> code_of (pos f) ys t -> term_is T R B (f_func f) N c tm ys t -> goes B tm -> goal (KBody i c [] tm).
    Proof.
      intros Hf Hc Hi Hg. pose proof (here_is _ _ _ Hf) as Hh. pose proof (env_here _ _ _ _ Hst) as He.
      assert (Htask : task_at (pos f) (KBody i c [] tm)).
      { eapply ta_body; [done|done|by apply do_term|done|done]. }
      destruct Hi as [|b|g args d b u sts tm Hci|o ts b e it cases Hsv Hca| |o expected b u e nb tm Hv Hb Hp|p j b u rt t e ar Hpo Hdyn Hfn Har|
        p j b u rt t tn e ar Hpo Hdyn Hme Har|].
      - by eapply body_return.
      - eapply jump_to; [done|exact Hg|done|]. intros k Hk Hsi. by apply ms_goto.
      - by eapply body_call.
      - eapply switch_to; [done|]. intros x ty b' Hx Hsel.
        assert (Hso : switch_on T R m a B env o x it).
        { destruct Hsv as [e it Hty Ho|e Hty Ho].
          - pose proof (value_env _ _ _ _ _ _ _ Ho He Hx) as Hm. cbn beta in Hm.
            pose proof (operand_typed_ty _ R HDi _ _ _ _ _ _ Hm Hty) as ->. by apply so_int.
          - destruct (value_env _ _ _ _ _ _ _ Ho He Hx) as (y & Hm & E & _). injection E as ->. by apply so_bool. }
        assert (exists b0, b' = bb b0 /\ has B b0 /\ picks it ts b x b0) as (b0 & -> & Hb0 & Hpick).
        { destruct Hca as [Hc1 Hc2]. destruct Hg as [Hg1 Hg2]. destruct Hsel as [(l1 & l2 & E & Hno)|[Hno ->]].
          - destruct (Hc1 x b') as (bits & b0 & Hin' & Hw & ->).
            { rewrite E. clear -Hno. induction l1 as [|[y c'] l1 IH]; simpl in *; rewrite map_get_cons.
              - by rewrite bool_decide_eq_true_2.
              - rewrite bool_decide_eq_false_2; [|naive_solver]. apply IH. naive_solver. }
            exists b0. split; [done|]. split; [by eapply Hg1|]. by eapply pk_case.
          - exists b. split; [done|]. split; [done|]. apply pk_other. intros bits b0 Hin' Hw. destruct (Hc2 _ _ _ Hin' Hw) as [n' Hn'].
            apply Hno. apply map_get_in in Hn'. by apply (in_map fst) in Hn'. }
        destruct (block_tasks _ _ _ _ _ Hf Hb0) as (k & Hk & Hpk). exists k. split; [done|]. intros Hsi. by eapply ms_switch.
      - pose proof (code_term _ _ _ _ _ Hst Hc) as Ha. pose proof (ctl_term T MO _ _ _ Hs Ha) as Hctl. inversion Hctl.
      - destruct Hg as [Hg1 Hg2]. eapply switch_to; [done|]. intros x ty b' Hx Hsel.
        destruct (value_env _ _ _ _ _ _ _ Hv He Hx) as (y & Hm & E & _). injection E as ->.
        destruct (Bool.eqb y expected) eqn:Ey.
        + apply eqb_prop in Ey as ->. assert (b' = bb b) as ->.
          { destruct Hsel as [(l1 & l2 & E & _)|[Hno _]]; [|destruct Hno; by left]. destruct l1 as [|? [|? l1]]; by injection E. }
          destruct (block_tasks _ _ _ _ _ Hf Hg1) as (k & Hk & Hpk). exists k. split; [done|]. intros Hsi. by eapply ms_assert.
        + apply eqb_false_iff in Ey. assert (b' = nb) as ->.
          { destruct Hsel as [(l1 & l2 & E & _)|[_ ->]]; [|done]. destruct l1 as [|? [|? l1]]; injection E; congruence. }
          exists (KBody i c [] (MtCall CePanic [] somewhere None u)). split.
          * intros q (E1 & E2 & E3). eapply ta_body; rewrite ?E1; [done| |by apply do_term, ti_call, ci_panic|done|exact Hg2]. unfold code_of. rewrite E1, E2, E3. by eapply block_code.
          * intros Hsi. eapply ms_assert_fails; [done| |done]. destruct y, expected; done.
      - eapply call_to; [done|done|]. intros k (nn & q & s1 & t' & Hnp & Hen & Hin1 & Hv) Hk.
        destruct (value_env _ _ _ _ _ _ _ Hfn Hin1 Hv) as (p1 & Hp1 & E1 & _). injection E1 as <-.
        destruct (direct_call _ _ _ _ _ Hr Hnp Hen (ev_fn_name _ _ _ Hp1)) as (ys' & ->). eapply ms_drop; [done..|]. apply Hk.
        + intros ptr bo t0. apply nowhere_dest.
        + intros s v t0 Hin' Hv'. destruct (value_env _ _ _ _ _ _ _ Hfn Hin' Hv') as (p2 & Hp2 & E2 & _). by exists p2.
        + intros s vals moved Hin' Hm. destruct (value_args _ _ _ _ Har _ _ _ Hin' Hm) as (v & t0 & (q' & H1 & -> & ->) & -> & ->). by exists q'.
      - eapply call_to; [done|done|]. intros k _ Hk. eapply ms_drop_dyn; [done..|]. apply Hk.
        + intros ptr bo t0. apply nowhere_dest.
        + intros s v t0 Hin' Hv'. destruct (value_env _ _ _ _ _ _ _ Hme Hin' Hv') as (q & H1 & H2). by exists q, t0.
        + intros s vals moved Hin' Hm. destruct (value_args _ _ _ _ Har _ _ _ Hin' Hm) as (v & t0 & (q' & H1 & -> & ->) & -> & ->). by exists q'.
      - by eapply body_resume.
    Qed.

    (** the start of a function *)
    Lemma enter_step i n B ys : fn_is i n B (f_func f) -> code_of (pos f) ys (TmGoto (bb 0)) -> goal (KEnter i ys).
    Proof.
      intros Hf Hc. destruct ys as [|y ys].
      - pose proof Hf as (_ & _ & HBi & _). eapply jump_to; [done|eapply block_has, (bo_entry _ _ _ (HB _ _ HBi))|done|]. intros k Hk Hsi. by apply ms_entered.
      - pose proof (code_stmt _ _ _ _ _ _ _ Hst Hc) as Ha. pose proof (step_advances T MO Tok MM m m' y Hs Ha) as Htop. exists (KEnter i ys :: ks). split.
        + eapply fin_top; [exact Hst|exact Htop|done|]. intros g Hg. destruct (advanced_code _ _ _ _ _ _ Hg Hc) as [Hc' HF]. eapply ta_enter; simpl; rewrite ?HF; done.
        + by apply ms_enter.
    Qed.

    (** catch_unwind *)
    Lemma catch_step i n B x b ph ys n2 n3 n4 n5 : fn_is i n B (f_func f) -> catch_blocks (f_func f) x b n2 n3 n4 n5 -> has B b ->
      code_of (pos f) ys (catch_term x b n2 n3 n4 n5 ph) -> goal (KCatch i x b ph ys).
    Proof.
      intros Hf Hblk Hb Hc. assert (Htask : task_at (pos f) (KCatch i x b ph ys)) by (by eapply ta_catch). destruct ys as [|y ys].
      2:{ pose proof (code_stmt _ _ _ _ _ _ _ Hst Hc) as Ha. pose proof (step_advances T MO Tok MM m m' y Hs Ha) as Htop. exists (KCatch i x b ph ys :: ks). split.
          - eapply fin_top; [exact Hst|exact Htop|done|]. intros g Hg. destruct (advanced_code _ _ _ _ _ _ Hg Hc) as [Hc' HF]. eapply ta_catch; simpl; rewrite ?HF; done.
          - by apply ms_catch_stmt. }
      destruct ph; simpl in Hc.
      - eapply call_to; [done|done|]. intros k _ Hk. apply ms_catch_try. apply Hk.
        + intros ptr bo t0. apply nowhere_dest.
        + intros s v t _ Hv. by exists t.
        + done.
      - eapply jump_to; [done|done|done|]. intros k Hk Hsi. by apply ms_catch_ok.
      - pose proof (code_term _ _ _ _ _ Hst Hc) as Ha. destruct (C65_intrinsic T MO prog m m' _ _ _ _ Tok MM Hr Hs Ha) as (b' & [= <-] & Htop).
        exists (KCatch i x b PhCatch [catch_result x 1] :: ks). split.
        + eapply fin_top; [exact Hst|exact Htop|done|]. intros g Hg. destruct (jumped_block _ _ _ _ eq_refl Hg) as (E1 & E2 & E3).
          eapply (ta_catch _ _ x b PhCatch _ n B n2 n3 n4 n5); rewrite ?E1; [done..|]. unfold code_of. rewrite E1, E2, E3. by destruct Hblk as (_ & _ & ? & _).
        + destruct (step_op MO MM prog m m' _ _ _ _ Hr Hs Ha) as (vals & Hvals & Hdo). inversion Hvals; subst.
          apply ms_catch_payload; [done|]. eapply vars_top; [done..|apply jumped_vars].
      - eapply call_to; [done|done|]. intros k _ Hk. apply ms_catch_call. apply Hk.
        + intros ptr bo t0. apply nowhere_dest.
        + intros s v t _ Hv. by exists t.
        + done.
      - pose proof (code_term _ _ _ _ _ Hst Hc) as Ha. pose proof (C65_stop_unwind T MO prog m m' _ Tok MM Hr Hs Ha) as Htop.
        destruct (block_tasks _ _ _ _ _ Hf Hb) as (k & Hk & Hp). exists (k :: ks). split.
        + eapply fin_top; [done..|]. intros g Hg. apply Hp. by eapply jumped_block.
        + destruct (top_stack _ _ _ _ _ _ _ Hst Htop) as (g & r' & _ & _ & _ & (q & Hq)). apply (ms_catch_done _ _ _ _ _ _ _ _ i x b ks k q); [done| | |done].
          * by eapply (C62_silent_terminators T MO prog m m' _ Tok MM Hr Hs Ha).
          * eapply vars_top; [done..|apply jumped_vars].
    Qed.

    (** the start function *)
    Lemma start_step k : f_func f = mk_start_fn n0 -> f_block f = N.of_nat k -> f_stmt f = 0%nat -> (k <= 2)%nat -> goal (KStart k).
    Proof.
      intros HF Hb Hi Hk. assert (Htask : task_at (pos f) (KStart k)) by (by apply ta_start).
      assert (Hcode' : forall tm kd, map_get (fn_blocks (mk_start_fn n0)) (N.of_nat k) = Some (mkBlock [] tm kd) -> code_of (pos f) [] tm).
      { intros tm kd E. unfold code_of. simpl. rewrite HF, Hb, Hi. by eapply block_code. }
      destruct k as [|[|[|k]]]; [| | |lia].
      - specialize (Hcode' _ _ eq_refl). eapply call_to; [done|done|]. intros k (nn & q & s1 & t & Hnp & Hen & (f1 & Hf1 & HF1 & Henv) & Hv) Hcall.
        assert (Hptr : forall s v t, in_env s (f_func f) env -> value_means T s (b_fn_ptr n0) v t ->
          exists n p, nm_fn N entry = Some n /\ map_get (m_fnptrs m) n = Some p /\ v = VPtr (mkPtr p None)).
        { intros s v t' (f2 & _ & _ & E) Hv'. inversion Hv' as [? ? ? Hc| | | | | | | |]; subst. inversion Hc as [| | |? p Hp| |]; subst. exists n0, p.
          split; [done|]. split; [|done]. apply (f_equal (fun e => ev_fn e entry)) in E. simpl in E. rewrite Hentry in E. simpl in E. by rewrite <- E. }
        destruct (Hptr s1 (VPtr (mkPtr q None)) t) as (nj & p & Hj & Hp & [= ->]); [by exists f1|done|].
        destruct (direct_call _ _ _ _ entry Hr Hnp Hen) as (ys & ->); [by exists nj|]. apply ms_start. apply Hcall.
        + intros ptr bo t0 H. by inversion H.
        + exact Hptr.
        + intros s vals moved _ Hm. by inversion Hm.
      - specialize (Hcode' _ _ eq_refl). by eapply no_intrinsic.
      - specialize (Hcode' _ _ eq_refl). by eapply no_intrinsic.
    Qed.

    Lemma task_step k : task_at (pos f) k -> goal k.
    Proof.
      intros Hk. destruct Hk as [i c xs tm n B ys t Hf Hc Hd Hxs Hg|i n B ys Hf Hc|i x b ph ys n B n2 n3 n4 n5 Hf Hblk Hb Hc|k HF Hpb Hps Hk].
      - simpl in Hf. destruct Hd as [x y xs tm ys t Hx Hd|x op d es nb xs tm ys t Hx Hb Hd|tm ys t Ht].
        + apply Forall_cons in Hxs as [Hok Hxs]. by eapply body_stmt.
        + apply Forall_cons in Hxs as [Hok Hxs]. by eapply body_op.
        + by eapply body_term.
      - by eapply enter_step.
      - by eapply catch_step.
      - by apply start_step.
    Qed.
  End Step.

  Definition thread_tasks (t : Thread P FX) (ks : list Task) : Prop := Forall2 task_at (positions t) ks.
  Lemma mir_main (m m' : Mach) t ks : reachable T MO prog m -> steps_to T MO m m' -> m_threads m !! a_of m' = Some t -> thread_tasks t ks ->
    exists t' ks', m_threads m' !! a_of m' = Some t' /\ thread_tasks t' ks' /\ mstep m m' (a_of m') ks ks'.
  Proof.
    intros Hr Hs Ht Hp. destruct (step_top T MO m m' Hs) as (t0 & f & r & blk & Ht0 & Hst & _).
    assert (t0 = t) as -> by congruence. unfold thread_tasks, positions in Hp. rewrite Hst in Hp. inversion Hp as [|? k ? ks1 Hk Hks E1 E2]; subst.
    destruct (task_step m m' f r ks1 Hr Hs ltac:(by exists t) Hks k Hk) as (ks' & (st' & (t' & Ht' & Est) & Hks') & Hstep).
    exists t', ks'. split; [done|]. split; [|done]. unfold thread_tasks, positions. by rewrite Est.
  Qed.

  Lemma mir_all (m m' : Mach) ps : reachable T MO prog m -> steps_to T MO m m' -> Forall2 thread_tasks (m_threads m) ps ->
    exists ks ks' new, ps !! a_of m' = Some ks /\ mstep m m' (a_of m') ks ks' /\
      (new = [] \/ at_intrinsic m (a_of m') InSpawn /\ exists n k, entered R N prog n k /\ new = [[k]]) /\
      Forall2 thread_tasks (m_threads m') (<[a_of m' := ks']> ps ++ new).
  Proof.
    intros Hr Hs Hps. destruct (step_top T MO m m' Hs) as (t & _ & _ & _ & Ht & _).
    assert (Hl : length (m_threads m) = length ps) by (by eapply Forall2_length).
    assert (Ha : (a_of m' < length (m_threads m))%nat) by (by eapply lookup_lt_Some).
    destruct (lookup_lt_is_Some_2 ps (a_of m')) as [ks Hks]; [lia|].
    assert (Hall : forall i t k, m_threads m !! i = Some t -> ps !! i = Some k -> thread_tasks t k) by (intros i x k E1 E2; by eapply (Forall2_lookup_lr _ _ _ _ _ _ Hps E1 E2)).
    destruct (mir_main m m' t ks Hr Hs Ht (Hall _ _ _ Ht Hks)) as (t' & ks' & Ht' & Hp' & Hstep).
    destruct (reach_moves T MO prog (program_wf_blocks T prog Hwf) run_regular m m' Hr Hs) as [_ Hothers].
    assert (Hold : forall i x k, (i < length (m_threads m))%nat -> m_threads m' !! i = Some x -> <[a_of m' := ks']> ps !! i = Some k -> thread_tasks x k).
    { intros i x k Hi Hx Hk. destruct (decide (i = a_of m')) as [->|Hne].
      - rewrite list_lookup_insert in Hk by lia. injection Hk as <-. by assert (x = t') as -> by congruence.
      - rewrite list_lookup_insert_ne in Hk by done. destruct (Hothers i x Hne Hx) as [(y & Hy & Ep & _)|[Hno _]].
        + unfold thread_tasks. rewrite Ep. exact (Hall i y k Hy Hk).
        + apply lookup_ge_None in Hno. lia. }
    destruct (step_threads T MO m m' Hs) as [El|[Hsp El]].
    - exists ks, ks', []. do 2 (split; [done|]). split; [by left|]. rewrite app_nil_r. apply Forall2_same_length_lookup_2.
      + rewrite insert_length. congruence.
      + intros i x k Hx Hk. apply (Hold i x k); [|done|done]. rewrite <- El. by eapply lookup_lt_Some.
    - destruct (lookup_lt_is_Some_2 (m_threads m') (length (m_threads m))) as [x Hx]; [lia|].
      destruct (Hothers (length (m_threads m)) x) as [(y & Hy & _)|(_ & n & func & Hn & Ep)]; [lia|done| |].
      { apply lookup_lt_Some in Hy. lia. }
      destruct (enter_tasks n func Hn) as (k0 & Hk0 & Hp0). exists ks, ks', [[k0]]. do 2 (split; [done|]). split.
      + right. split; [done|]. by exists n, k0.
      + apply Forall2_same_length_lookup_2.
        * rewrite app_length, insert_length. simpl. lia.
        * intros i y k Hy Hk. destruct (decide (i = length (m_threads m))) as [->|Hne].
          -- assert (y = x) as -> by congruence. rewrite lookup_app_r in Hk by (rewrite insert_length; lia).
             rewrite insert_length, Hl, Nat.sub_diag in Hk. injection Hk as <-. unfold thread_tasks. rewrite Ep.
             constructor; [|constructor]. by apply Hp0.
          -- assert (i < length (m_threads m))%nat as Hi by (apply lookup_lt_Some in Hy; lia). apply (Hold i y k); [done|done|].
             rewrite lookup_app_l in Hk by (rewrite insert_length; lia). done.
  Qed.
  Lemma mir_runs (m : Mach) : reachable T MO prog m -> exists ps, runs_mir T MO R N entry prog m ps /\ Forall2 thread_tasks (m_threads m) ps.
  Proof.
    induction 1 as [m Hm|m m' Hr IH Hs].
    - pose proof Hm as (cs & rest & E). apply new_ctl in E as (_ & func & ls & Hf & Ec).
      exists [[KStart 0]]. split; [by apply rm_start|].
      assert (Et : List.map tctl (m_threads m) = [mkTCtl [mkFCtl func ls BottomOfStack (fn_start func) 0] Enabled []]).
      { change (c_threads (ctl m) = [mkTCtl [mkFCtl func ls BottomOfStack (fn_start func) 0] Enabled []]). by rewrite Ec. }
      destruct (m_threads m) as [|t [|? ?]]; try done. injection Et as Et. destruct t as [st ? ?]. simpl in Et.
      constructor; [|constructor]. unfold thread_tasks, positions. simpl. destruct st as [|f [|? ?]]; try done. injection Et as Ef _ _ H3 H4.
      rewrite Hstart in Hf. injection Hf as <-.
      constructor; [|constructor]. apply ta_start; simpl; [done..|lia].
    - destruct IH as (ps & Hra & Hps). destruct (mir_all m m' ps Hr Hs Hps) as (ks & ks' & new & H1 & H2 & H3 & H4).
      eexists. split; [|exact H4]. by eapply rm_step.
  Qed.

  Lemma tasks_stop (m : Mach) ps : Forall2 thread_tasks (m_threads m) ps -> stops_right R m ps.
  Proof.
    intros H. assert (Htop : forall a k ks, ps !! a = Some (k :: ks) -> exists f r, stack_of m a (f :: r) /\ task_at (pos f) k).
    { intros a k ks Hk. destruct (Forall2_lookup_r _ _ _ _ _ H Hk) as (t & Ht & Hp). unfold thread_tasks, positions in Hp.
      destruct (t_stack t) as [|f r] eqn:E; [by inversion Hp|]. inversion Hp; subst. exists f, r. split; [by exists t|done]. }
    assert (Hbody : forall a i c tm ks, ps !! a = Some (KBody i c [] tm :: ks) -> exists F B ys t, term_is T R B F N c tm ys t /\ (ys = [] -> at_terminator m a t)).
    { intros a i c tm ks Hk. destruct (Htop _ _ _ Hk) as (f & r & Hst & Hta). inversion Hta as [? ? ? ? n B ys t Hf Hc Hd| | |]; subst. inversion Hd; subst.
      exists (f_func f), B, ys, t. split; [done|]. intros ->. by eapply code_term. }
    split.
    - intros a k ks op Hk Hs. destruct Hs as [| |i c args d b u|i c args d b u|i c args d b u Hnu|i c args d b u|i c args d b u].
      + destruct (Htop _ _ _ Hk) as (f & r & Hst & Hta). inversion Hta as [| | |? HF Hb Hi]; subst. simpl in *. eexists _, _, _. eapply code_term; [exact Hst|].
        rewrite HF, Hb, Hi. eapply block_code. reflexivity.
      + destruct (Htop _ _ _ Hk) as (f & r & Hst & Hta). inversion Hta as [| | |? HF Hb Hi]; subst. simpl in *. eexists _, _, _. eapply code_term; [exact Hst|].
        rewrite HF, Hb, Hi. eapply block_code. reflexivity.
      + destruct (Hbody _ _ _ _ _ Hk) as (F & B & ys & t & Ht & Hat). inversion Ht as [| |? ? ? ? ? ? ? Hc| | | | | |]; subst. inversion Hc as [|? ? ? ? ? ? ? Hi| | | |]; subst. inversion Hi; subst.
        * match goal with H : _ \/ _ |- _ => destruct H as [H|[[? H]|[? H]]]; [|done|done]; by repeat (apply elem_of_cons in H as [H|H]; [done|]); apply elem_of_nil in H end.
        * eexists _, _, _. by apply Hat.
      + destruct (Hbody _ _ _ _ _ Hk) as (F & B & ys & t & Ht & Hat). inversion Ht as [| |? ? ? ? ? ? ? Hc| | | | | |]; subst. inversion Hc as [|? ? ? ? ? ? ? Hi| | | |]; subst. inversion Hi; subst.
        * eexists _, _, _. by apply Hat.
        * match goal with H : _ \/ _ |- _ => destruct H as [H|[[? H]|[? H]]]; [|done|done]; by repeat (apply elem_of_cons in H as [H|H]; [done|]); apply elem_of_nil in H end.
      + destruct (Hbody _ _ _ _ _ Hk) as (F & B & ys & t & Ht & Hat). inversion Ht as [| |? ? ? ? ? ? ? Hc| | | | | |]; subst. inversion Hc as [| | |? ? ? ? ? Hp| |]; subst. inversion Hp; subst; [congruence|].
        eexists _, _, _. by apply Hat.
      + destruct (Hbody _ _ _ _ _ Hk) as (F & B & ys & t & Ht & Hat). inversion Ht as [| |? ? ? ? ? ? ? Hc| | | | | |]; subst. inversion Hc as [| |? op ? ? ? ? ? ? Hin'| | |]; subst.
        assert (op = InExit) as -> by (unfold mini_names in Hin'; repeat (apply elem_of_cons in Hin' as [E|Hin']; [first [discriminate E|by injection E]|]); by apply elem_of_nil in Hin'). eexists _, _, _. by apply Hat.
      + destruct (Hbody _ _ _ _ _ Hk) as (F & B & ys & t & Ht & Hat). inversion Ht as [| |? ? ? ? ? ? ? Hc| | | | | |]; subst. inversion Hc as [| |? op ? ? ? ? ? ? Hin'| | |]; subst.
        assert (op = InAbort) as -> by (unfold mini_names in Hin'; repeat (apply elem_of_cons in Hin' as [E|Hin']; [first [discriminate E|by injection E]|]); by apply elem_of_nil in Hin'). eexists _, _, _. by apply Hat.
    - intros a i c ks Hk. destruct (Hbody _ _ _ _ _ Hk) as (F & B & ys & t & Ht & Hat). inversion Ht; subst. by apply Hat.
  Qed.
End Run.
