(** The relation of SimSpec is kept by calls, intrinsics, terminators, steps, and holds between the
    initial states of a program. *)
From Verif Require Export SimStep.
From Verif Require Import Wp BaseProofs StopProofs EndProofs OutProofs.
From Coq Require Import ZifyBool ZifyN ZifyNat.

Section Mach.
  Context {P1 F1 M1 P2 F2 M2 : Type} `{EqDecision P1} `{EqDecision P2}.
  Variable T : Target.
  Variables (MO1 : MemOps P1 F1 M1) (MO2 : MemOps P2 F2 M2).
  Variables (h : P1 -> P2) (MR : M1 -> M2 -> Prop) (root : P1 -> Prop).
  Hypothesis MS : mem_sim MO1 MO2 h MR root.

  Notation Mach1 := (Machine P1 F1 M1).
  Notation Mach2 := (Machine P2 F2 M2).
  Notation msim := (mach_sim (F1 := F1) (F2 := F2) h MR root).
  Notation csim := (cmem_sim MR).
  Notation bytes_sim := (bytes_sim h).
  Notation value_sim := (value_sim h).
  Notation thin_sim := (thin_sim h).
  Notation ptr_sim := (ptr_sim h).
  Notation meta_sim := (meta_sim h).
  Notation place_sim := (place_sim h).
  Notation frame_sim := (frame_sim (F1 := F1) (F2 := F2) h).
  Notation thread_sim := (thread_sim (F1 := F1) (F2 := F2) h).
  Notation action_sim := (action_sim h).
  Notation chs := (List.map (choice_sim h)).
  Notation vt_sim := (vt_sim h).
  Notation vm_sim := (vm_sim (F1 := F1) (F2 := F2) h MR root).
  Notation vtm_sim := (vtm_sim (F1 := F1) (F2 := F2) h MR root).
  Notation ptm_sim := (ptm_sim (F1 := F1) (F2 := F2) h MR root).
  Notation mc_sim := (mc_sim (F1 := F1) (F2 := F2) h MR root).
  Notation fm_sim := (fm_sim (F1 := F1) (F2 := F2) h MR).

  Lemma mem_of m n : msim m n -> csim (m_mem m) (m_mem n).
  Proof. by intros []. Qed.

  (** ** Calls *)

  Lemma prepare_sim m n p q ty : msim m n -> place_sim p q ->
    sim msim (prepare_for_inplace_passing T MO1 m p ty) (prepare_for_inplace_passing T MO2 n q ty).
  Proof.
    intros H [[Hp _] _]. unfold prepare_for_inplace_passing. do 2 (eapply sim_bind; [apply sim_eq|]; intros ? ? _ _ <-).
    by apply (deinit_sim _ _ _ _ _ MS).
  Qed.
  Lemma eval_argument_sim m n a : msim m n -> sim vtm_sim (eval_argument T MO1 m a) (eval_argument T MO2 n a).
  Proof.
    intros H. destruct a as [e|p]; cbn [eval_argument]; [by apply (eval_value_sim _ _ _ _ _ _ MS)|].
    eapply sim_bind; [by apply (eval_place_sim _ _ _ _ _ _ MS)|].
    intros [[pl ty] m1] [[ql ty'] n1] _ _ [[Hp Ht] Hm]. cbn [fst snd] in *. subst ty'.
    eapply sim_bind; [by apply (place_load_sim _ _ _ _ _ _ MS)|]. intros [v m2] [w n2] _ _ [Hv Hm2]. cbn [fst snd] in *.
    eapply sim_bind; [by apply prepare_sim|]. intros. by apply sim_ret.
  Qed.

  Definition fmc_sim (x : StackFrame P1 F1 * Mach1 * list (Choice P1)) (y : StackFrame P2 F2 * Mach2 * list (Choice P2)) : Prop :=
    (frame_sim (fst (fst x)) (fst (fst y)) /\ msim (snd (fst x)) (snd (fst y))) /\ snd y = chs (snd x).

  Lemma create_frame_sim m n fn a b conv rty args args' cs :
    msim m n -> action_sim a b -> Forall2 vt_sim args args' ->
    sim fmc_sim (create_frame T MO1 m fn a conv rty args cs) (create_frame T MO2 n fn b conv rty args' (chs cs)).
  Proof.
    intros H Ha HF. unfold create_frame. cbv zeta.
    eapply sim_bind.
    { eapply (sim_fold_m eq (fun x y => fm_sim (fst x) (fst y) /\ snd y = chs (snd x))); [apply Forall2_same| |].
      - split; [|done]. split; [|by apply mem_of]. repeat split; [constructor|done].
      - intros l ? [[f c] ks] [[g d] ls] _ <- [[Hf Hc] Hls]. cbn [fst snd] in *. subst ls.
        by apply (storage_live_sim _ _ _ _ _ _ MS). }
    intros [[f c] ks] [[g d] ls] _ _ [[Hf Hc] Hls]. cbn [fst snd] in *. subst ls.
    destruct (negb _); [apply sim_stop|]. do 2 (eapply sim_bind; [apply sim_eq|]; intros ? ? _ _ <-).
    destruct (negb _); [apply sim_stop|]. rewrite (Forall2_length _ _ _ HF). destruct (negb _); [apply sim_stop|].
    eapply sim_bind.
    { eapply (sim_fold_m2 eq vt_sim msim); [apply Forall2_same|exact HF|apply set_mem_sim; [exact H|exact Hc]|].
      intros l ? [v t] [w t'] m' n' _ <- [Hv Ht] Hm. cbn [fst snd] in *. subst t'.
      do 2 (eapply sim_bind; [apply sim_eq|]; intros ? ? _ _ <-). destruct (negb _); [apply sim_stop|].
      eapply sim_bind; [apply sim_eq|]. intros al ? _ _ <-.
      eapply sim_bind; [apply sim_unwrap; intros p; apply (map_get_sim thin_sim); apply Hf|].
      intros p q _ _ Hp. apply sim_expect. by apply (typed_store_sim _ _ _ _ _ _ MS). }
    intros m' n' _ _ Hm. by apply sim_ret.
  Qed.

  Lemma push_stack_sim t u f g : thread_sim t u -> frame_sim f g ->
    thread_sim (with_stack t (f :: t_stack t)) (with_stack u (g :: t_stack u)).
  Proof. intros (? & ? & ?) Hf. split; [|done]. by constructor. Qed.

  Lemma eval_call_sim m n fn conv args args' p q rty nb ub cs :
    msim m n -> Forall2 vt_sim args args' -> place_sim p q ->
    sim mc_sim (eval_call T MO1 m fn conv args p rty nb ub cs) (eval_call T MO2 n fn conv args' q rty nb ub (chs cs)).
  Proof.
    intros H HF [[Hp _] _]. unfold eval_call. eapply sim_bind; [apply create_frame_sim; [done|by constructor|done]|].
    intros [[f m1] ks] [[g n1] ls] _ _ [[Hf Hm] Hls]. cbn [fst snd] in *. subst ls.
    eapply sim_bind; [by apply (active_thread_sim h MR root)|]. intros t u _ _ Ht. apply sim_ret. split; [|done].
    apply (set_active_thread_sim h MR root); [done|]. by apply push_stack_sim.
  Qed.

  Definition nmc_sim (x : nat * Mach1 * list (Choice P1)) (y : nat * Mach2 * list (Choice P2)) : Prop :=
    (fst (fst x) = fst (fst y) /\ msim (snd (fst x)) (snd (fst y))) /\ snd y = chs (snd x).

  Lemma new_thread_sim m n fn args args' cs : msim m n -> Forall2 vt_sim args args' ->
    sim nmc_sim (new_thread T MO1 m fn args cs) (new_thread T MO2 n fn args' (chs cs)).
  Proof.
    intros H HF. unfold new_thread. eapply sim_bind; [apply create_frame_sim; [done|constructor|done]|].
    intros [[f m1] ks] [[g n1] ls] _ _ [[Hf Hm] Hls]. cbn [fst snd] in *. subst ls.
    pose proof (sim_threads _ _ _ _ _ Hm) as Hth. rewrite (Forall2_length _ _ _ Hth). apply sim_ret. split; [|done].
    split; [done|]. cbn [fst snd]. apply (set_threads_sim h MR root); [done|]. apply Forall2_app; [done|].
    repeat constructor; apply Hf.
  Qed.

  (** ** Locks *)

  Lemma thread_in_sim m n s i : msim m n -> thread_in m s i = thread_in n s i.
  Proof.
    intros H. unfold thread_in. pose proof (sim_threads _ _ _ _ _ H) as Hth.
    destruct (m_threads m !! i) as [t|] eqn:E.
    - destruct (Forall2_lookup_l _ _ _ _ _ Hth E) as (u & -> & (_ & -> & _)). done.
    - apply lookup_ge_None in E. rewrite (Forall2_length _ _ _ Hth) in E. apply lookup_ge_None in E. by rewrite E.
  Qed.
  Lemma some_thread_in_sim m n s : msim m n -> some_thread_in m s = some_thread_in n s.
  Proof.
    intros H. unfold some_thread_in. pose proof (sim_threads _ _ _ _ _ H) as Hth.
    induction Hth as [|t u l k (_ & Hs & _) Hth IH]; [done|]. simpl. by rewrite IH, Hs.
  Qed.
  Lemma with_state_sim t u s : thread_sim t u -> thread_sim (with_state t s) (with_state u s).
  Proof. intros (? & ? & ?). by repeat split. Qed.

  Lemma lock_acquire_sim m n i : msim m n -> sim msim (lock_acquire m i) (lock_acquire n i).
  Proof.
    intros H. unfold lock_acquire. rewrite (sim_locks _ _ _ _ _ H). destruct (list_get _ _) as [[|o]|]; [| |apply sim_stop].
    - apply sim_ret. rewrite (sim_active _ _ _ _ _ H). by apply (set_locks_sim h MR root).
    - eapply sim_bind; [by apply (active_thread_sim h MR root)|]. intros t u _ _ Ht. apply sim_ret.
      apply (set_active_thread_sim h MR root); [done|]. by apply with_state_sim.
  Qed.
  Lemma lock_release_sim m n i cs : msim m n -> sim mc_sim (lock_release m i cs) (lock_release n i (chs cs)).
  Proof.
    intros H. unfold lock_release. rewrite (sim_locks _ _ _ _ _ H).
    destruct (list_get _ _) as [[|o]|]; [apply sim_stop| |apply sim_stop].
    rewrite (sim_active _ _ _ _ _ H). destruct (negb _); [apply sim_stop|]. rewrite (some_thread_in_sim _ _ _ H).
    destruct (some_thread_in _ _).
    - eapply sim_bind; [apply (pick_thread_sim h); intros; by apply thread_in_sim|].
      intros [a ks] [a' ls] _ _ [Ha Hls]. cbn [fst snd] in *. subst a' ls.
      eapply sim_bind; [apply sim_unwrap; by apply (lookup_thread_sim h MR root)|]. intros t u _ _ Ht. apply sim_ret.
      split; [|done]. cbn [fst snd]. cbn [m_locks set_sync set_thread set_threads m_sync]. rewrite (sim_locks _ _ _ _ _ H), (sim_sync _ _ _ _ _ H).
      apply (set_locks_sim h MR root), (set_sync_sim h MR root), (set_thread_sim h MR root); [done|]. by apply with_state_sim.
    - apply sim_ret. split; [|done]. by apply (set_locks_sim h MR root).
  Qed.

  (** ** Intrinsics *)

  Lemma eval_print_sim args args' : Forall2 vt_sim args args' -> sim eq (eval_print args) (eval_print args').
  Proof.
    intros HF. unfold eval_print. eapply (sim_fold_m vt_sim eq); [exact HF|done|].
    intros [v t] [w t'] s ? _ [Hv _] <-. cbn [fst snd] in *. destruct Hv; try apply sim_stop; by apply sim_ret.
  Qed.
  Lemma spawn_sim m n fn v w ty cs : msim m n -> value_sim v w ->
    sim nmc_sim (spawn T MO1 m fn v ty cs) (spawn T MO2 n fn w ty (chs cs)).
  Proof.
    intros H Hv. unfold spawn. eapply sim_bind; [apply new_thread_sim; [done|repeat constructor; done]|].
    intros [[i m1] ks] [[j n1] ls] _ _ [[Hi Hm] Hls]. cbn [fst snd] in *. subst j ls. apply sim_ret.
    split; [|done]. split; [done|]. cbn [fst snd]. rewrite (sim_sync _ _ _ _ _ Hm). by apply (set_sync_sim h MR root).
  Qed.
  Lemma join_sim m n i : msim m n -> sim msim (Step.join m i) (Step.join n i).
  Proof.
    intros H. unfold Step.join, list_get. destruct (i <? 0); [apply sim_stop|].
    destruct (m_threads m !! _) as [t|] eqn:E; [|apply sim_stop].
    destruct (lookup_thread_sim h MR root _ _ _ H _ E) as (u & -> & Ht). rewrite (proj1 (proj2 Ht)).
    destruct (t_state u); try by apply sim_ret.
    all: eapply sim_bind; [by apply (active_thread_sim h MR root)|]; intros t' u' _ _ Ht'; apply sim_ret;
      apply (set_active_thread_sim h MR root); [done|]; by apply with_state_sim.
  Qed.
  Lemma load_raw_data_sim m n p q pt : msim m n -> ptr_sim p q ->
    sim (fun x y => fst x = fst y /\ msim (snd x) (snd y)) (load_raw_data MO1 m p pt) (load_raw_data MO2 n q pt).
  Proof.
    intros H [Hp _]. unfold load_raw_data. destruct pt; try apply sim_stop. destruct (pi_layout _); try apply sim_stop.
    eapply sim_bind; [apply (cm_load_sim _ _ _ _ _ MS); [by apply mem_of|done]|].
    intros [b c] [b' d] _ _ [Hb Hc]. cbn [fst snd] in *.
    destruct (bytes_data b) as [ds|] eqn:E; [|apply sim_stop]. rewrite (bytes_data_sim _ _ _ _ Hb E).
    apply sim_ret. split; [done|]. by apply (set_mem_sim h MR root).
  Qed.
  Lemma expose_sim m n p q : msim m n -> thin_sim p q ->
    msim (set_exposed m (ipc_expose (m_exposed m) p)) (set_exposed n (ipc_expose (m_exposed n) q)).
  Proof.
    intros [] [_ Hp]. split; try done. cbn [m_exposed set_exposed]. unfold ipc_expose. intros x Hx.
    destruct Hp as [o|y]; [destruct o; simpl; auto|]. destruct Hx as [->|Hx]; simpl; auto.
  Qed.
  Lemma int2ptr_sim m n a o : msim m n ->
    sim thin_sim (ipc_int2ptr (m_exposed m) a o) (ipc_int2ptr (m_exposed n) a (option_map h o)).
  Proof.
    intros H. unfold ipc_int2ptr. destruct o as [x|]; simpl.
    - destruct (existsb _ (m_exposed m)) eqn:E; [|apply sim_nobeh].
      apply existsb_exists in E as (y & Hin & Hy). apply bool_decide_eq_true in Hy as <-.
      assert (existsb (fun q => bool_decide (h x = q)) (m_exposed n) = true) as ->.
      { apply existsb_exists. exists (h x). split; [by apply (sim_exposed _ _ _ _ _ H)|by apply bool_decide_eq_true]. }
      apply sim_ret. split; [done|constructor].
    - apply sim_ret. split; [done|constructor].
  Qed.
  Lemma value_eqb_int v w i : value_sim v w -> value_eqb v (VInt i) = value_eqb w (VInt i).
  Proof. by intros []. Qed.

  Definition vmc_sim (x : Value P1 * Mach1 * list (Choice P1)) (y : Value P2 * Mach2 * list (Choice P2)) : Prop :=
    vm_sim (fst x) (fst y) /\ snd y = chs (snd x).
  Lemma unit_sim : value_sim unit_value unit_value.
  Proof. constructor. constructor. Qed.
  Lemma vmc_ret v w m n cs : value_sim v w -> msim m n -> sim vmc_sim (Ret (v, m, cs)) (Ret (w, n, chs cs)).
  Proof. intros. apply sim_ret. by split. Qed.

  Ltac one HF := let v := fresh "v" in let t := fresh "t" in let w := fresh "w" in let t' := fresh "t'" in
    let Hv := fresh "Hv" in let Ht := fresh "Ht" in
    destruct HF as [|[v t] [w t'] ? ? [Hv Ht] HF]; [apply sim_stop|];
    cbn [fst snd] in Hv, Ht; subst t'.
  Ltac thin Hv p q Hp := let pm := fresh "pm" in let qm := fresh "qm" in let Hm := fresh "Hm" in
    destruct Hv as [| |[p pm] [q qm] [Hp Hm]| | |]; try apply sim_stop; cbn [p_thin p_meta] in Hp, Hm;
    destruct Hm; try apply sim_stop.

  Lemma eval_intrinsic_sim m n op args args' rty cs : msim m n -> Forall2 vt_sim args args' ->
    sim vmc_sim (eval_intrinsic T MO1 m op args rty cs) (eval_intrinsic T MO2 n op args' rty (chs cs)).
  Proof.
    intros H HF. destruct op as [| | | | | | | | | | | | |iop|[]| | |]; cbn [eval_intrinsic].
    - apply sim_stop.
    - one HF. destruct HF; [|destruct Hv; apply sim_stop]. destruct Hv; try apply sim_stop.
      eapply sim_bind; [apply sim_eq|]. intros _ _ _ _ _. destruct (negb _); [apply sim_stop|].
      apply vmc_ret; [apply unit_sim|done].
    - intros r Hr. apply obind_ret in Hr as (? & _ & ?). discriminate.
    - eapply sim_bind; [apply sim_eq|]. intros _ _ _ _ _. eapply sim_bind; [by apply eval_print_sim|]. intros s ? _ _ <-.
      apply vmc_ret; [apply unit_sim|]. rewrite (sim_stdout _ _ _ _ _ H). by destruct H; split.
    - eapply sim_bind; [apply sim_eq|]. intros _ _ _ _ _. eapply sim_bind; [by apply eval_print_sim|]. intros s ? _ _ <-.
      apply vmc_ret; [apply unit_sim|]. rewrite (sim_stderr _ _ _ _ _ H). by destruct H; split.
    - one HF. one HF. destruct HF; [|apply sim_stop].
      destruct Hv; try apply sim_stop. destruct (size_from_bytes _); [|apply sim_stop].
      destruct Hv0; try apply sim_stop. destruct (align_from_int _); [|apply sim_stop].
      destruct rty; try apply sim_stop. destruct (bool_decide _); [apply sim_stop|].
      eapply sim_bind; [apply pick_addr_sim|]. intros [ad ks] [ad' ls] _ _ [Ha Hls]. cbn [fst snd] in *. subst ad' ls.
      eapply sim_bind; [apply (cm_allocate_sim _ _ _ _ _ MS); by apply mem_of|].
      intros [p c] [q d] _ _ (Hc & Hpa & x & _ & Hx & Hy). cbn [fst snd] in *.
      apply vmc_ret; [apply thin_value; by eapply thin_root|]. by apply (set_mem_sim h MR root).
    - one HF. one HF. one HF. destruct HF; [|apply sim_stop]. thin Hv p q Hp.
      destruct Hv0; try apply sim_stop. destruct (size_from_bytes _); [|apply sim_stop].
      destruct Hv1; try apply sim_stop. destruct (align_from_int _); [|apply sim_stop].
      eapply sim_bind; [apply sim_eq|]. intros _ _ _ _ _.
      eapply sim_bind; [apply (cm_deallocate_sim _ _ _ _ _ MS); [by apply mem_of|done]|].
      intros c d _ _ Hc. apply vmc_ret; [apply unit_sim|]. by apply (set_mem_sim h MR root).
    - one HF. one HF. destruct HF; [|apply sim_stop].
      eapply sim_bind; [by apply (fn_from_ptr_sim _ _ _ _ _ MS)|]. intros fn ? _ _ <-.
      destruct t0; try apply sim_stop. destruct rty; try apply sim_stop.
      eapply sim_bind; [by apply spawn_sim|]. intros [[i m1] ks] [[j n1] ls] _ _ [[Hi Hm] Hls]. cbn [fst snd] in *. subst j ls.
      apply vmc_ret; [constructor|done].
    - one HF. destruct HF; [|destruct Hv; apply sim_stop]. destruct Hv; try apply sim_stop.
      eapply sim_bind; [apply sim_eq|]. intros _ _ _ _ _. eapply sim_bind; [by apply join_sim|]. intros.
      apply vmc_ret; [apply unit_sim|done].
    - one HF. one HF. destruct HF; [|apply sim_stop].
      destruct (negb _); [apply sim_stop|]. destruct (negb _); [apply sim_stop|].
      destruct Hv; try apply sim_stop. destruct Hv0; try apply sim_stop. destruct t; try apply sim_stop.
      eapply sim_bind; [by apply load_raw_data_sim|]. intros [d1 m1] [e1 n1] _ _ [Hd1 Hm1]. cbn [fst snd] in *. subst e1.
      eapply sim_bind; [by apply load_raw_data_sim|]. intros [d2 m2] [e2 n2] _ _ [Hd2 Hm2]. cbn [fst snd] in *. subst e2.
      apply vmc_ret; [constructor|done].
    - one HF. one HF. destruct HF; [|apply sim_stop]. thin Hv p q Hp.
      eapply sim_bind; [apply sim_eq|]. intros l ? _ _ <-. destruct l; try apply sim_stop.
      destruct (align_from_bytes _); [|apply sim_stop]. destruct (_ <? _)%N; [apply sim_stop|].
      eapply sim_bind; [apply sim_eq|]. intros _ _ _ _ _.
      eapply sim_bind; [by apply (typed_store_sim _ _ _ _ _ _ MS)|]. intros. apply vmc_ret; [apply unit_sim|done].
    - one HF. destruct HF; [|destruct Hv as [| |[? [|]] [? [|]] ?| | |]; apply sim_stop]. thin Hv p q Hp.
      eapply sim_bind; [apply sim_eq|]. intros s ? _ _ <-.
      destruct (align_from_bytes _); [|apply sim_stop]. destruct (_ <? _)%N; [apply sim_stop|].
      eapply sim_bind; [by apply (typed_load_sim _ _ _ _ _ _ MS)|]. intros [v m1] [w n1] _ _ [Hv Hm]. by apply vmc_ret.
    - one HF. one HF. one HF. destruct HF; [|apply sim_stop]. thin Hv p q Hp.
      destruct (negb _); [apply sim_stop|]. destruct (negb _); [apply sim_stop|]. destruct rty; try apply sim_stop.
      do 2 (eapply sim_bind; [apply sim_eq|]; intros ? ? _ _ <-). destruct (_ <? _)%N; [apply sim_stop|].
      eapply sim_bind; [by apply (typed_load_sim _ _ _ _ _ _ MS)|]. intros [v m1] [w n1] HL _ [Hv Hm]. cbn [fst snd] in *.
      assert (exists i, v = VInt i) as [i ->].
      { unfold typed_load in HL. apply obind_ret in HL as (? & _ & HL). apply obind_ret in HL as ([b c] & _ & HL).
        apply obind_ret in HL as ([y|] & Hd & HL); [|discriminate]. apply obind_ret in HL as (_ & _ & [= <- _]).
        cbn [decode] in Hd. unfold decode_int in Hd. apply obind_ret in Hd as ([i|] & _ & Hd); [|discriminate].
        injection Hd as <-. eauto. }
      inversion Hv; subst. rewrite (value_eqb_int _ _ _ Hv0). destruct (value_eqb _ _); [|by apply vmc_ret].
      eapply sim_bind; [by apply (typed_store_sim _ _ _ _ _ _ MS)|]. intros. by apply vmc_ret.
    - one HF. one HF. destruct HF; [|apply sim_stop]. thin Hv p q Hp.
      destruct (negb _); [apply sim_stop|]. destruct rty; try apply sim_stop.
      do 2 (eapply sim_bind; [apply sim_eq|]; intros ? ? _ _ <-). destruct (_ <? _)%N; [apply sim_stop|].
      eapply sim_bind; [by apply (typed_load_sim _ _ _ _ _ _ MS)|]. intros [v m1] [w n1] HL _ [Hv Hm]. cbn [fst snd] in *.
      destruct Hv0; try apply sim_panic. destruct Hv; try apply sim_panic.
      eapply sim_bind; [apply sim_eq|]. intros x ? _ _ <-.
      eapply sim_bind; [apply (typed_store_sim _ _ _ _ _ _ MS); [done|done|constructor]|]. intros. apply vmc_ret; [constructor|done].
    - one HF. destruct HF; [|destruct Hv; apply sim_stop]. destruct Hv; try apply sim_stop.
      eapply sim_bind; [apply sim_eq|]. intros _ _ _ _ _. eapply sim_bind; [by apply lock_acquire_sim|]. intros.
      apply vmc_ret; [apply unit_sim|done].
    - one HF. destruct HF; [|destruct Hv; apply sim_stop]. destruct Hv; try apply sim_stop.
      eapply sim_bind; [apply sim_eq|]. intros _ _ _ _ _. eapply sim_bind; [by apply lock_release_sim|].
      intros [m1 ks] [n1 ls] _ _ [Hm Hls]. cbn [fst snd] in *. subst ls. apply vmc_ret; [apply unit_sim|done].
    - destruct HF; [|apply sim_stop]. destruct rty; try apply sim_stop. unfold lock_create.
      rewrite (sim_locks _ _ _ _ _ H). apply vmc_ret; [constructor|]. by apply (set_locks_sim h MR root).
    - one HF. destruct HF; [|destruct Hv as [| |[? [|]] [? [|]] ?| | |]; apply sim_stop]. thin Hv p q Hp.
      destruct (negb _); [apply sim_stop|]. rewrite (proj1 Hp). apply vmc_ret; [constructor|]. by apply expose_sim.
    - one HF. destruct HF; [|destruct Hv; apply sim_stop]. destruct Hv; try apply sim_stop.
      destruct rty; try apply sim_stop. destruct (bool_decide _); [apply sim_stop|].
      eapply sim_bind; [apply pick_prov_sim|]. intros [o ks] [o' ls] _ _ [Ho Hls]. cbn [fst snd] in *. subst o' ls.
      eapply sim_bind; [by apply int2ptr_sim|]. intros. apply vmc_ret; [by apply thin_value|done].
    - destruct HF; [|apply sim_stop]. destruct rty; try apply sim_stop. destruct (bool_decide _); [apply sim_stop|].
      eapply sim_bind; [by apply (active_thread_sim h MR root)|]. intros t u _ _ (_ & _ & Hp).
      destruct Hp; [apply sim_stop|]. apply vmc_ret; [by apply thin_value|done].
  Qed.

  (** ** Terminators *)

  Lemma terminate_sim m n : msim m n -> sim msim (terminate_active_thread m) (terminate_active_thread n).
  Proof.
    intros H. unfold terminate_active_thread. rewrite (sim_active _ _ _ _ _ H). destruct (_ =? _)%nat; [apply sim_stop|].
    eapply sim_bind; [by apply (active_thread_sim h MR root)|]. intros t u _ _ Ht.
    eapply (sim_bind eq); [destruct Ht as (Hs & _); destruct Hs; [by apply sim_ret|apply sim_panic]|]. intros _ _ _ _ _.
    assert (msim (set_active_thread m (with_state t Terminated)) (set_active_thread n (with_state u Terminated))) as Hm.
    { apply (set_active_thread_sim h MR root); [done|]. by apply with_state_sim. }
    apply sim_ret. pose proof (sim_threads _ _ _ _ _ Hm) as Hth. rewrite (Forall2_length _ _ _ Hth).
    rewrite (List.filter_ext _ (thread_in (set_active_thread n (with_state u Terminated)) (BlockedOnJoin (m_active n))))
      by (intros; by apply thread_in_sim). rewrite (sim_sync _ _ _ _ _ Hm).
    apply (set_threads_sim h MR root); [by apply (set_sync_sim h MR root)|].
    cbn [m_threads set_sync]. apply Forall2_fmap. eapply Forall2_impl; [exact Hth|].
    intros t' u' Ht'. rewrite (proj1 (proj2 Ht')). destruct (bool_decide _); [by apply with_state_sim|done].
  Qed.

  Lemma pop_frame_sim m n : msim m n ->
    sim (fun x y => frame_sim (fst x) (fst y) /\ msim (snd x) (snd y)) (pop_frame m) (pop_frame n).
  Proof.
    intros H. unfold pop_frame. eapply sim_bind; [by apply (active_thread_sim h MR root)|]. intros t u _ _ (Hs & Hst & Hp).
    destruct Hs; [apply sim_panic|]. apply sim_ret. split; [done|]. apply (set_active_thread_sim h MR root); [done|]. by split.
  Qed.
  Lemma dealloc_locals_sim f g c d : frame_sim f g -> csim c d ->
    sim fm_sim (dealloc_locals T MO1 f c) (dealloc_locals T MO2 g d).
  Proof.
    intros Hf Hc. unfold dealloc_locals. pose proof Hf as (_ & Hl & _).
    assert (List.map fst (f_locals f) = List.map fst (f_locals g)) as ->.
    { clear -Hl. induction Hl as [|a b l k [Hk _] Hl IH]; [done|]. simpl. by rewrite Hk, IH. }
    eapply (sim_fold_m eq fm_sim); [apply Forall2_same|by split|].
    intros l ? [f1 c1] [g1 d1] _ <- [Hf1 Hc1]. by apply (storage_dead_sim _ _ _ _ _ _ MS).
  Qed.
  Lemma cm_end_call_sim c d f g : csim c d -> sim csim (cm_end_call MO1 c f) (cm_end_call MO2 d g).
  Proof.
    intros [Hm Ha]. eapply sim_bind; [by apply (ms_end_call _ _ _ _ _ MS)|]. intros. apply sim_ret. by split.
  Qed.
  Lemma jump_mc_sim m n b cs : msim m n ->
    sim mc_sim (let! m := jump_to_block m b in Ret (m, cs)) (let! m := jump_to_block n b in Ret (m, chs cs)).
  Proof. intros H. eapply sim_bind; [by apply (jump_to_block_sim h MR root)|]. intros. by apply sim_ret. Qed.

  Lemma args_sim es m n : msim m n ->
    sim (fun x y => Forall2 vt_sim (fst x) (fst y) /\ msim (snd x) (snd y))
      (map_st (fun m e => eval_value T MO1 e m) es m) (map_st (fun m e => eval_value T MO2 e m) es n).
  Proof.
    intros H. eapply (map_st_sim h MR root eq vt_sim); [apply Forall2_same| |exact H]. intros e ? m' n' _ <- Hm.
    by apply (eval_value_sim _ _ _ _ _ _ MS).
  Qed.

  Lemma eval_terminator_sim t m n cs : msim m n ->
    sim mc_sim (eval_terminator T MO1 t m cs) (eval_terminator T MO2 t n (chs cs)).
  Proof.
    intros H. destruct t as [b|v cases fb| |op args ret nb|callee conv args ret nb ub| |pl ub|b| ]; cbn [eval_terminator].
    - by apply jump_mc_sim.
    - eapply sim_bind; [by apply (eval_value_sim _ _ _ _ _ _ MS)|].
      intros [[x vty] m1] [[y wty] n1] _ _ [[Hv _] Hm]. cbn [fst snd] in *. destruct Hv; try apply sim_panic.
      by apply jump_mc_sim.
    - apply sim_stop.
    - eapply sim_bind; [by apply (eval_place_sim _ _ _ _ _ _ MS)|].
      intros [[p ty] m1] [[q ty'] n1] _ _ [[Hp Ht] Hm]. cbn [fst snd] in *. subst ty'.
      eapply sim_bind; [by apply args_sim|]. intros [vs m2] [ws n2] _ _ [Hvs Hm2]. cbn [fst snd] in *.
      eapply sim_bind; [by apply eval_intrinsic_sim|]. intros [[x m3] ks] [[y n3] ls] _ _ [[Hv Hm3] Hls]. cbn [fst snd] in *. subst ls.
      eapply sim_bind; [by apply (place_store_sim _ _ _ _ _ _ MS)|]. intros m4 n4 _ _ Hm4.
      destruct nb; [by apply jump_mc_sim|apply sim_stop].
    - eapply sim_bind; [by apply (eval_place_sim _ _ _ _ _ _ MS)|].
      intros [[p ty] m1] [[q ty'] n1] _ _ [[Hp Ht] Hm]. cbn [fst snd] in *. subst ty'.
      eapply sim_bind; [by apply prepare_sim|]. intros m2 n2 _ _ Hm2.
      eapply sim_bind; [by apply (eval_value_sim _ _ _ _ _ _ MS)|].
      intros [[x vty] m3] [[y wty] n3] _ _ [[Hv _] Hm3]. cbn [fst snd] in *.
      eapply sim_bind; [by apply (fn_from_ptr_sim _ _ _ _ _ MS)|]. intros fn ? _ _ <-.
      eapply sim_bind.
      { eapply (map_st_sim h MR root eq vt_sim); [apply Forall2_same| |exact Hm3]. intros e ? m' n' _ <- Hm'.
        by apply eval_argument_sim. }
      intros [vs m4] [ws n4] _ _ [Hvs Hm4]. cbn [fst snd] in *. by apply eval_call_sim.
    - eapply sim_bind; [by apply pop_frame_sim|]. intros [f m1] [g n1] _ _ [Hf Hm1]. cbn [fst snd] in *.
      pose proof Hf as (Hfn & Hl & Hact & _). rewrite Hfn. do 2 (eapply sim_bind; [apply sim_eq|]; intros ? ? _ _ <-).
      eapply sim_bind; [apply sim_unwrap; intros p; apply (map_get_sim thin_sim); apply Hl|]. intros p q _ _ Hp.
      eapply sim_bind; [by apply (typed_load_sim _ _ _ _ _ _ MS)|]. intros [v m2] [w n2] _ _ [Hv Hm2]. cbn [fst snd] in *.
      eapply sim_bind; [apply dealloc_locals_sim; [done|by apply mem_of]|]. intros [f1 c1] [g1 d1] _ _ [Hf1 Hc1]. cbn [fst snd] in *.
      eapply sim_bind; [by apply cm_end_call_sim|]. intros c2 d2 _ _ Hc2.
      assert (msim (set_mem m2 c2) (set_mem n2 d2)) as Hm3 by (by apply (set_mem_sim h MR root)).
      destruct Hf1 as (_ & _ & Hact1 & _). destruct Hact1 as [|nb ub p' q' Hp'].
      + eapply sim_bind; [by apply terminate_sim|]. intros. by apply sim_ret.
      + eapply sim_bind; [by apply (active_thread_sim h MR root)|]. intros t u _ _ (Hs & _).
        eapply (sim_bind eq); [destruct Hs; [apply sim_panic|by apply sim_ret]|]. intros _ _ _ _ _.
        eapply sim_bind; [by apply (typed_store_sim _ _ _ _ _ _ MS)|]. intros m4 n4 _ _ Hm4.
        destruct nb; [by apply jump_mc_sim|apply sim_stop].
    - eapply sim_bind; [by apply (eval_value_sim _ _ _ _ _ _ MS)|].
      intros [[x vty] m1] [[y wty] n1] _ _ [[Hv Ht] Hm]. cbn [fst snd] in *. subst wty.
      destruct Hv as [| |p q [Hp _]| | |]; try apply sim_panic. destruct vty as [| |[| |[]| |]| | | | | |]; try apply sim_panic.
      eapply sim_bind; [by apply (active_thread_sim h MR root)|]. intros t u _ _ (Hs & Hst & Hpl).
      apply jump_mc_sim. apply (set_active_thread_sim h MR root); [done|]. split; [done|]. split; [done|]. by constructor.
    - eapply sim_bind; [by apply (active_thread_sim h MR root)|]. intros t u _ _ (Hs & Hst & Hpl).
      destruct Hpl; [apply sim_stop|]. apply jump_mc_sim. apply (set_active_thread_sim h MR root); [done|]. by split.
    - eapply sim_bind; [by apply pop_frame_sim|]. intros [f m1] [g n1] _ _ [Hf Hm1]. cbn [fst snd] in *.
      eapply sim_bind; [apply dealloc_locals_sim; [done|by apply mem_of]|]. intros [f1 c1] [g1 d1] _ _ [Hf1 Hc1]. cbn [fst snd] in *.
      eapply sim_bind; [by apply cm_end_call_sim|]. intros c2 d2 _ _ Hc2.
      assert (msim (set_mem m1 c2) (set_mem n1 d2)) as Hm3 by (by apply (set_mem_sim h MR root)).
      destruct Hf1 as (_ & _ & Hact1 & _). destruct Hact1 as [|nb ub p' q' Hp']; [apply sim_stop|].
      destruct ub; [by apply jump_mc_sim|apply sim_stop].
  Qed.

  (** ** Steps *)

  Lemma races_sim c d a s l : csim c d -> cm_check_data_races c a s l = cm_check_data_races d a s l.
  Proof. intros [_ Ha]. unfold cm_check_data_races. by rewrite Ha. Qed.

  Lemma begin_sim m n i : msim m n ->
    let '(s, l, m') := reset_data_race_tracking m in
    let '(s', l', n') := reset_data_race_tracking n in
    s = s' /\ l = l' /\ msim m' n' /\ msim (set_active m' i) (set_active n' i).
  Proof.
    intros []. unfold reset_data_race_tracking. simpl. destruct sim_mem as [Hm Ha].
    rewrite sim_sync, sim_active. repeat (split; try done).
  Qed.

  Theorem step_sim m n cs : msim m n -> sim msim (step T MO1 cs m) (step T MO2 (chs cs) n).
  Proof.
    intros H. unfold step. rewrite (some_thread_in_sim _ _ _ H). destruct (negb _); [apply sim_stop|].
    pose proof (begin_sim m n) as HB.
    destruct (reset_data_race_tracking m) as [[s l] m1], (reset_data_race_tracking n) as [[s' l'] n1].
    destruct (HB 0%nat H) as (<- & <- & Hm1 & _).
    eapply sim_bind; [apply (pick_thread_sim h); intros; by apply thread_in_sim|].
    intros [a ks] [a' ls] _ _ [Ha Hls]. cbn [fst snd] in *. subst a' ls. destruct (HB a H) as (_ & _ & _ & Hm2).
    eapply sim_bind; [by apply (cur_frame_sim h MR root)|]. intros f g _ _ Hf.
    pose proof Hf as (Hfn & _ & _ & Hb & Hs). rewrite Hfn, Hb, Hs. eapply sim_bind; [apply sim_eq|]. intros b ? _ _ <-.
    eapply (sim_bind (fun x y => msim (fst x) (fst y))).
    { destruct (_ =? _)%nat; [eapply sim_impl; [by apply eval_terminator_sim|by intros ? ? []]|].
      eapply sim_bind; [apply sim_eq|]. intros st ? _ _ <-.
      eapply sim_bind; [by apply (eval_statement_sim _ _ _ _ _ _ MS)|]. intros [m3 ks3] [n3 ls3] _ _ [Hm3 _]. cbn [fst snd] in *.
      eapply sim_bind; [by apply (cur_frame_sim h MR root)|]. intros f1 g1 _ _ Hf1.
      pose proof Hf1 as (_ & _ & _ & Hb1 & Hs1). rewrite Hb1, Hs1.
      eapply sim_bind; [apply (set_cur_frame_sim h MR root); [done|by apply with_pc_sim]|]. intros. by apply sim_ret. }
    intros [m3 ks3] [n3 ls3] _ _ Hm3. cbn [fst snd] in *. rewrite (sim_active _ _ _ _ _ Hm3).
    rewrite (races_sim _ _ _ _ _ (mem_of _ _ Hm3)). eapply sim_bind; [apply sim_eq|]. intros. by apply sim_ret.
  Qed.

  (** ** Endings *)

  Lemma enabled_sim m n i : msim m n -> enabled m i <-> enabled n i.
  Proof.
    intros H. pose proof (sim_threads _ _ _ _ _ H) as Hth. unfold enabled, state_of.
    destruct (m_threads m !! i) as [t|] eqn:E.
    - destruct (Forall2_lookup_l _ _ _ _ _ Hth E) as (u & -> & (_ & -> & _)). done.
    - apply lookup_ge_None in E. rewrite (Forall2_length _ _ _ Hth) in E. apply lookup_ge_None in E. by rewrite E.
  Qed.
  Lemma at_terminator_sim m n a t : msim m n -> at_terminator m a t -> at_terminator n a t.
  Proof.
    intros H (f & b & (th & r & Ht & Hst & Hb) & Hs & Htm).
    destruct (lookup_thread_sim h MR root _ _ _ H _ Ht) as (u & Hu & (Hk & _)). rewrite Hst in Hk.
    inversion Hk as [|? g ? r' Hf Hr Heq Hk']; subst. destruct Hf as (Hfn & _ & _ & Hfb & Hfs).
    exists g, b. split; [|split; [congruence|done]]. exists u, r'. split; [done|]. split; [done|]. by rewrite <-Hfn, <-Hfb.
  Qed.
  Lemma begins_sim m n a : msim m n -> msim (begins m a) (begins n a).
  Proof. intros []. destruct sim_mem as [Hm Ha]. by split. Qed.

  Theorem stop_sim m n cs t : ub_ops MO1 -> msim m n -> step T MO1 cs m = Stop t -> (forall msg, t <> TUb msg) ->
    step T MO2 (chs cs) n = Stop t.
  Proof.
    intros UO H Hs Ht. apply (step_stop T MO1 UO) in Hs
      as [[-> Hs]|[[msg ->]|(a & rest & op & args & ret & nb & pl & rty & m1 & vs & m2 & -> & Ha & Hat & H1 & H2 & Hi)]].
    - unfold step. destruct (some_thread_in n Enabled) eqn:E; [|done]. exfalso.
      apply some_enabled in E as [i Hi]. apply (Hs i). by apply (enabled_sim _ _ _ H).
    - by destruct (Ht msg).
    - simpl. destruct (eval_place_sim T MO1 MO2 h MR root MS ret _ _ (begins_sim _ _ a H) _ H1)
        as ([[ql rty'] n1] & H1' & [[Hp Hty] Hm1]). cbn [fst snd] in *. subst rty'.
      destruct (args_sim args _ _ Hm1 _ H2) as ([ws n2] & H2' & [Hvs Hm2]). cbn [fst snd] in *.
      eapply (step_at_intrinsic T MO2); [by apply (enabled_sim _ _ _ H)|by eapply at_terminator_sim|exact H1'|exact H2'|].
      apply (intrinsic_stop T MO1 UO) in Hi as [[msg ->]|[[-> ->]|[-> Hi]]]; [by destruct (Ht msg)|done|].
      cbn [eval_intrinsic]. unfold cm_leak_check. rewrite <-(ms_leak_check _ _ _ _ _ MS _ _ (proj1 (mem_of _ _ Hm2))).
      by destruct Hi as [[-> ->]| ->].
  Qed.

  (** ** The initial state *)

  Lemma alloc_all_sim {A} k (sa : A -> N * Align) c d cs l : csim c d ->
    sim (fun x y => (table_sim h root (fst (fst x)) (fst (fst y)) /\ csim (snd (fst x)) (snd (fst y))) /\ snd y = chs (snd x))
      (alloc_all MO1 k sa c cs l) (alloc_all MO2 k sa d (chs cs) l).
  Proof.
    intros Hc. unfold alloc_all.
    eapply (sim_fold_m eq); [apply Forall2_same|split; [split; [constructor|exact Hc]|done]|].
    intros [x a] ? [[t1 c1] ks] [[t2 d1] ls] _ <- [[Ht Hc1] Hls]. cbn [fst snd] in *. subst ls.
    destruct (sa a) as [size al]. eapply sim_bind; [apply pick_addr_sim|].
    intros [ad ks1] [ad' ls1] _ _ [Ha Hls]. cbn [fst snd] in *. subst ad' ls1.
    eapply sim_bind; [by apply (cm_allocate_sim _ _ _ _ _ MS)|].
    intros [p c2] [q d2] _ _ (Hc2 & Hpa & y & Hr & Hx & Hy). cbn [fst snd] in *. apply sim_ret.
    split; [|done]. split; [|done]. cbn [fst snd].
    apply (map_insert_sim (fun p q => tp_addr p = tp_addr q /\
      exists x, root x /\ tp_prov p = Some x /\ tp_prov q = Some (h x))); [exact Ht|]. eauto 6.
  Qed.

  Lemma global_bytes_sim l k g : ptrs_sim h l k -> sim bytes_sim (global_bytes T l g) (global_bytes T k g).
  Proof.
    intros H. unfold global_bytes. eapply (sim_fold_m eq bytes_sim); [apply Forall2_same| |].
    - induction (g_bytes g) as [|[b|] bs IH]; simpl; constructor; try done; constructor; constructor.
    - intros [i r] ? b c _ <- Hb. eapply sim_bind; [apply sim_unwrap; intros p; apply (map_get_sim thin_sim), H|].
      intros p q _ _ Hp. eapply sim_bind; [apply encode_ptr_sim; by apply wrapping_offset_sim|]. intros.
      by apply write_subslice_sim.
  Qed.
  Lemma fill_globals_sim l k gs c d : ptrs_sim h l k -> csim c d ->
    sim csim (fill_globals T MO1 l gs c) (fill_globals T MO2 k gs d).
  Proof.
    intros H Hc. unfold fill_globals. eapply (sim_fold_m eq csim); [apply Forall2_same|done|].
    intros [x g] ? c1 d1 _ <- Hc1. eapply sim_bind; [by apply global_bytes_sim|]. intros b b' _ _ Hb.
    eapply sim_bind; [apply sim_unwrap; intros p; apply (map_get_sim thin_sim), H|]. intros p q _ _ Hp.
    apply sim_expect. by apply (cm_store_sim _ _ _ _ _ MS).
  Qed.

  Theorem new_sim prog cs : sim mc_sim (machine_new T MO1 prog cs) (machine_new T MO2 prog (chs cs)).
  Proof.
    unfold machine_new. eapply sim_bind; [apply sim_eq|]. intros _ _ _ _ _.
    assert (csim (cm_new MO1) (cm_new MO2)) as H0. { split; [apply (ms_new _ _ _ _ _ MS)|done]. }
    eapply sim_bind; [by apply alloc_all_sim|]. intros [[t1 c1] k1] [[u1 d1] l1] _ _ [[Ht1 Hc1] Hl]. cbn [fst snd] in *. subst l1.
    eapply sim_bind; [apply fill_globals_sim; [by eapply table_weaken|done]|]. intros c2 d2 _ _ Hc2.
    eapply sim_bind; [by apply alloc_all_sim|]. intros [[t3 c3] k3] [[u3 d3] l3] _ _ [[Ht3 Hc3] Hl]. cbn [fst snd] in *. subst l3.
    eapply sim_bind; [by apply alloc_all_sim|]. intros [[t4 c4] k4] [[u4 d4] l4] _ _ [[Ht4 Hc4] Hl]. cbn [fst snd] in *. subst l4.
    eapply sim_bind; [apply sim_eq|]. intros fn ? _ _ <-.
    eapply sim_bind.
    { apply new_thread_sim; [|constructor]. split; simpl; try done; by eapply table_weaken. }
    intros [[i m1] ks] [[j n1] ls] _ _ [[Hi Hm] Hls]. cbn [fst snd] in *. subst j ls. by apply sim_ret.
  Qed.
End Mach.
