(** What a machine step does to the control part of the machine: a transition relation, and the proof
    that every step is one of its transitions. *)
From Verif Require Export MachCtl.

Arguments FrameCtl : clear implicits.
Arguments ThreadCtl : clear implicits.
Arguments Ctl : clear implicits.

Section Rel.
  Context {P : Type}.
  Notation C := (Ctl P).

  (** ** Updates *)
  Definition c_with_threads (c : C) ts : C :=
    mkCtl (c_prog c) (c_exposed c) ts (c_active c) (c_sync c) (c_locks c) (c_globals c) (c_fnptrs c)
      (c_vtptrs c) (c_stdout c) (c_stderr c).
  Definition c_with_active (c : C) a : C :=
    mkCtl (c_prog c) (c_exposed c) (c_threads c) a (c_sync c) (c_locks c) (c_globals c) (c_fnptrs c)
      (c_vtptrs c) (c_stdout c) (c_stderr c).
  Definition c_with_exposed (c : C) e : C :=
    mkCtl (c_prog c) e (c_threads c) (c_active c) (c_sync c) (c_locks c) (c_globals c) (c_fnptrs c)
      (c_vtptrs c) (c_stdout c) (c_stderr c).
  Definition c_with_sync (c : C) s : C :=
    mkCtl (c_prog c) (c_exposed c) (c_threads c) (c_active c) s (c_locks c) (c_globals c) (c_fnptrs c)
      (c_vtptrs c) (c_stdout c) (c_stderr c).
  Definition c_with_locks (c : C) l : C :=
    mkCtl (c_prog c) (c_exposed c) (c_threads c) (c_active c) (c_sync c) l (c_globals c) (c_fnptrs c)
      (c_vtptrs c) (c_stdout c) (c_stderr c).
  Definition c_with_out (c : C) o e : C :=
    mkCtl (c_prog c) (c_exposed c) (c_threads c) (c_active c) (c_sync c) (c_locks c) (c_globals c)
      (c_fnptrs c) (c_vtptrs c) o e.
  Definition c_put (c : C) (t : ThreadCtl P) : C :=
    c_with_threads c (<[c_active c := t]> (c_threads c)).
  Definition tc_with_stack (t : ThreadCtl P) s := mkTCtl s (tc_state t) (tc_payloads t).
  Definition tc_with_state (t : ThreadCtl P) s := mkTCtl (tc_stack t) s (tc_payloads t).
  Definition tc_with_payloads (t : ThreadCtl P) p := mkTCtl (tc_stack t) (tc_state t) p.
  Definition fc_at (f : FrameCtl P) b s := mkFCtl (fc_func f) (fc_locals f) (fc_action f) b s.
  Definition fc_with_locals (f : FrameCtl P) l :=
    mkFCtl (fc_func f) l (fc_action f) (fc_block f) (fc_stmt f).

  (** the active thread is [t] and its top frame is [f] *)
  Definition c_top (c : C) (t : ThreadCtl P) (f : FrameCtl P) (r : list (FrameCtl P)) : Prop :=
    c_threads c !! c_active c = Some t /\ tc_stack t = f :: r.

  (** ** Transitions *)

  (** control of the active thread moves to the start of a block *)
  Definition c_jump (c : C) (b : BbName) (c' : C) : Prop :=
    exists t f r, c_top c t f r /\ c' = c_put c (tc_with_stack t (fc_at f b 0 :: r)).

  (** what a statement does, apart from advancing the program counter *)
  Inductive c_stmt (c : C) : Statement -> C -> Prop :=
  | cs_same s : c_stmt c s c
  | cs_live l t f r ls : c_top c t f r ->
      c_stmt c (SStorageLive l) (c_put c (tc_with_stack t (fc_with_locals f ls :: r)))
  | cs_dead l t f r ls : c_top c t f r ->
      c_stmt c (SStorageDead l) (c_put c (tc_with_stack t (fc_with_locals f ls :: r))).

  Definition c_in (c : C) (s : ThreadState) (i : nat) : Prop :=
    exists t, c_threads c !! i = Some t /\ tc_state t = s.
  Definition set_state_at (ts : list (ThreadCtl P)) (i : nat) (s : ThreadState) : list (ThreadCtl P) :=
    match ts !! i with Some t => <[i := tc_with_state t s]> ts | None => ts end.

  (** what an intrinsic does *)
  Inductive c_intrinsic (c : C) : IntrinsicOp -> C -> Prop :=
  | ci_other op :
      match op with
      | InAssume | InAllocate | InDeallocate | InRawEq | InAtomicStore | InAtomicLoad
      | InAtomicCompareExchange | InAtomicFetchAndOp _ | InPointerWithExposedProvenance
      | InGetUnwindPayload => True
      | _ => False
      end -> c_intrinsic c op c
  | ci_expose e : c_intrinsic c InPointerExposeProvenance (c_with_exposed c e)
  | ci_out s : c_intrinsic c InPrintStdout (c_with_out c (c_stdout c ++ s)%string (c_stderr c))
  | ci_err s : c_intrinsic c InPrintStderr (c_with_out c (c_stdout c) (c_stderr c ++ s)%string)
  | ci_spawn n func ls :
      map_get (pr_functions (c_prog c)) n = Some func ->
      c_intrinsic c InSpawn
        (c_with_sync (c_with_threads c (c_threads c ++
           [mkTCtl [mkFCtl func ls BottomOfStack (fn_start func) 0] Enabled []]))
           (set_add (c_sync c) (length (c_threads c))))
  | ci_join_done i : c_in c Terminated i -> c_intrinsic c InJoin c
  | ci_join_wait i t : (i < length (c_threads c))%nat -> ~ c_in c Terminated i ->
      c_threads c !! c_active c = Some t ->
      c_intrinsic c InJoin (c_put c (tc_with_state t (BlockedOnJoin i)))
  | ci_create : c_intrinsic c (InLock LkCreate) (c_with_locks c (c_locks c ++ [Unlocked]))
  | ci_acquire l : c_locks c !! l = Some Unlocked ->
      c_intrinsic c (InLock LkAcquire) (c_with_locks c (<[l := LockedBy (c_active c)]> (c_locks c)))
  | ci_wait l o t : c_locks c !! l = Some (LockedBy o) -> c_threads c !! c_active c = Some t ->
      c_intrinsic c (InLock LkAcquire) (c_put c (tc_with_state t (BlockedOnLock l)))
  | ci_release l : c_locks c !! l = Some (LockedBy (c_active c)) ->
      (forall i, ~ c_in c (BlockedOnLock l) i) ->
      c_intrinsic c (InLock LkRelease) (c_with_locks c (<[l := Unlocked]> (c_locks c)))
  | ci_pass l w : c_locks c !! l = Some (LockedBy (c_active c)) -> c_in c (BlockedOnLock l) w ->
      c_intrinsic c (InLock LkRelease)
        (c_with_locks (c_with_sync (c_with_threads c (set_state_at (c_threads c) w Enabled))
           (set_add (c_sync c) w)) (<[l := LockedBy w]> (c_locks c))).

  (** the end of the active thread: threads waiting for it are woken *)
  Definition c_terminate (c : C) (t : ThreadCtl P) (sync : list nat) : C :=
    let ts := <[c_active c := tc_with_state t Terminated]> (c_threads c) in
    c_with_sync (c_with_threads c
      (List.map (fun t => if bool_decide (tc_state t = BlockedOnJoin (c_active c))
                          then tc_with_state t Enabled else t) ts)) sync.

  Inductive c_term (c : C) : Terminator -> C -> Prop :=
  | ct_goto b c' : c_jump c b c' -> c_term c (TmGoto b) c'
  | ct_switch v cases fb i b c' :
      b = match map_get cases i with Some b => b | None => fb end -> c_jump c b c' ->
      c_term c (TmSwitch v cases fb) c'
  | ct_call callee conv args ret nb ub t n func ls p :
      c_threads c !! c_active c = Some t -> map_get (pr_functions (c_prog c)) n = Some func ->
      c_term c (TmCall callee conv args ret nb ub)
        (c_put c (tc_with_stack t
           (mkFCtl func ls (BackToCaller nb ub p) (fn_start func) 0 :: tc_stack t)))
  | ct_return_end t f r sync c' : c_top c t f r -> fc_action f = BottomOfStack -> r = [] ->
      c_active c <> 0%nat ->
      (forall i, i ∈ sync <-> i ∈ c_sync c \/ c_in c (BlockedOnJoin (c_active c)) i /\ i <> c_active c) ->
      c' = c_terminate c (tc_with_stack t []) sync -> c_term c TmReturn c'
  | ct_return t f g r b ub p c' : c_top c t f (g :: r) -> fc_action f = BackToCaller (Some b) ub p ->
      c' = c_put c (tc_with_stack t (fc_at g b 0 :: r)) -> c_term c TmReturn c'
  | ct_start_unwind v b p t f r c' : c_top c t f r ->
      c' = c_put c (tc_with_payloads (tc_with_stack t (fc_at f b 0 :: r)) (p :: tc_payloads t)) ->
      c_term c (TmStartUnwind v b) c'
  | ct_stop_unwind b p ps t f r c' : c_top c t f r -> tc_payloads t = p :: ps ->
      c' = c_put c (tc_with_payloads (tc_with_stack t (fc_at f b 0 :: r)) ps) ->
      c_term c (TmStopUnwind b) c'
  | ct_resume t f g r b nb p c' : c_top c t f (g :: r) -> fc_action f = BackToCaller nb (Some b) p ->
      c' = c_put c (tc_with_stack t (fc_at g b 0 :: r)) -> c_term c TmResumeUnwind c'
  | ct_intrinsic op args ret b c1 c' : c_intrinsic c op c1 -> c_jump c1 b c' ->
      c_term c (TmIntrinsic op args ret (Some b)) c'.

  (** one step: an enabled thread becomes active and runs its next statement or terminator *)
  Inductive c_step (c : C) : C -> Prop :=
  | c_step_stmt a t f r block s c1 t1 f1 r1 :
      c_top (c_with_active c a) t f r -> tc_state t = Enabled ->
      map_get (fn_blocks (fc_func f)) (fc_block f) = Some block ->
      bb_statements block !! fc_stmt f = Some s ->
      c_stmt (c_with_active c a) s c1 -> c_top c1 t1 f1 r1 ->
      c_step c (c_put c1 (tc_with_stack t1 (fc_at f1 (fc_block f1) (S (fc_stmt f1)) :: r1)))
  | c_step_term a t f r block c' :
      c_top (c_with_active c a) t f r -> tc_state t = Enabled ->
      map_get (fn_blocks (fc_func f)) (fc_block f) = Some block ->
      fc_stmt f = length (bb_statements block) ->
      c_term (c_with_active c a) (bb_terminator block) c' -> c_step c c'.
End Rel.

Section Proofs.
  Context {P F M : Type} `{EqDecision P}.
  Variable T : Target.
  Variable MO : MemOps P F M.
  Notation Mach := (Machine P F M).

  (** ** The control part of updates *)

  Lemma ctl_thread (m : Mach) i : c_threads (ctl m) !! i = option_map tctl (m_threads m !! i).
  Proof. cbn. apply list_lookup_fmap. Qed.

  Lemma ctl_put (m : Mach) t : ctl (set_active_thread m t) = c_put (ctl m) (tctl t).
  Proof.
    unfold ctl, c_put, c_with_threads, set_active_thread, set_thread. cbn. f_equal. apply list_fmap_insert.
  Qed.

  Lemma cur_frame_ctl (m : Mach) f : cur_frame m = Ret f ->
    exists t r, m_threads m !! m_active m = Some t /\ t_stack t = f :: r /\
      c_top (ctl m) (tctl t) (fctl f) (List.map fctl r).
  Proof.
    unfold cur_frame, active_thread. intros H. apply obind_ret in H as (t & Ht & H).
    apply unwrap_ret in Ht. apply unwrap_ret in H. destruct (t_stack t) as [|g r] eqn:E; [done|].
    injection H as ->. exists t, r. split; [done|]. split; [done|]. split.
    - rewrite ctl_thread. cbn. by rewrite Ht.
    - cbn. by rewrite E.
  Qed.

  Lemma set_cur_frame_ctl (m : Mach) f' m' : set_cur_frame m f' = Ret m' ->
    exists t f r, c_top (ctl m) t f r /\ ctl m' = c_put (ctl m) (tc_with_stack t (fctl f' :: r)).
  Proof.
    unfold set_cur_frame, active_thread. intros H. apply obind_ret in H as (t & Ht & H).
    apply unwrap_ret in Ht. destruct (t_stack t) as [|f r] eqn:E; [done|]. injection H as <-.
    exists (tctl t), (fctl f), (List.map fctl r). split.
    - split; [rewrite ctl_thread; cbn; by rewrite Ht|]. cbn. by rewrite E.
    - apply ctl_put.
  Qed.

  Lemma c_top_fun (c : Ctl P) t f r t' f' r' :
    c_top c t f r -> c_top c t' f' r' -> t' = t /\ f' = f /\ r' = r.
  Proof. intros [H1 H2] [H3 H4]. assert (t' = t) as -> by congruence. split; [done|]. split; congruence. Qed.

  Lemma jump_ctl (m : Mach) b : post (jump_to_block m b) (fun m' => c_jump (ctl m) b (ctl m')).
  Proof.
    apply post_intro. intros m' H. unfold jump_to_block in H. apply obind_ret in H as (f & Hf & H).
    apply cur_frame_ctl in Hf as (t & r & _ & _ & Ht).
    apply set_cur_frame_ctl in H as (t1 & f1 & r1 & Ht1 & ->).
    destruct (c_top_fun _ _ _ _ _ _ _ Ht Ht1) as (-> & -> & ->). by exists (tctl t), (fctl f), (List.map fctl r).
  Qed.

  (** ** Statements *)

  Lemma storage_dead_ctl (f : StackFrame P F) mem l :
    post (storage_dead T MO f mem l) (fun r => exists ls, fctl (fst r) = fc_with_locals (fctl f) ls).
  Proof.
    unfold storage_dead. do 3 (apply post_bind_skip; intros ?).
    destruct (map_get (f_locals f) l).
    - apply post_bind_skip. intros mem'. cbn. by eexists.
    - exists (f_locals f). by destruct f.
  Qed.

  Lemma storage_live_ctl (f : StackFrame P F) mem l cs :
    post (storage_live T MO f mem l cs) (fun r => exists ls, fctl (fst (fst r)) = fc_with_locals (fctl f) ls).
  Proof.
    unfold storage_live. apply wp_bind. eapply wp_mono; [apply storage_dead_ctl|].
    intros [f1 mem1] [ls1 H1]. do 3 (apply post_bind_skip; intros ?). apply post_bind_skip. intros [ad cs1].
    apply post_bind_skip. intros [p mem2]. cbn in *. eexists. unfold fctl, fc_with_locals in *. cbn.
    injection H1 as -> _ -> -> ->. done.
  Qed.

  Lemma put_frame_ctl (m : Mach) mem f f1 m' ls :
    cur_frame m = Ret f -> fctl f1 = fc_with_locals (fctl f) ls ->
    set_cur_frame (set_mem m mem) f1 = Ret m' ->
    exists t r, c_top (ctl m) t (fctl f) r /\
      ctl m' = c_put (ctl m) (tc_with_stack t (fc_with_locals (fctl f) ls :: r)).
  Proof.
    intros Hf Hl H. apply cur_frame_ctl in Hf as (t & r & _ & _ & Ht).
    apply set_cur_frame_ctl in H as (t1 & g & r1 & Ht1 & E).
    change (ctl (set_mem m mem)) with (ctl m) in *.
    destruct (c_top_fun _ _ _ _ _ _ _ Ht Ht1) as (-> & -> & ->). rewrite Hl in E. eauto.
  Qed.

  Lemma statement_ctl s (m : Mach) cs :
    post (eval_statement T MO s m cs) (fun r => c_stmt (ctl m) s (ctl (fst r))).
  Proof.
    assert (Hsame : forall m', same m m' -> c_stmt (ctl m) s (ctl m')).
    { intros m' ->. constructor. }
    destruct s as [d e|p|d v|p fe|p|l|l]; cbn [eval_statement].
    - apply wp_bind. eapply wp_mono; [apply eval_place_same|]. intros [[pl ty] m1] H1.
      apply wp_bind. eapply wp_mono; [apply eval_value_same|]. intros [[v vt] m2] H2.
      apply wp_bind. eapply wp_mono; [apply place_store_same|]. intros m3 H3. apply Hsame.
      cbn in *. eauto using same_trans.
    - apply wp_bind. eapply wp_mono; [apply eval_place_same|]. intros [[pl ty] m1] H1. by apply Hsame.
    - apply wp_bind. eapply wp_mono; [apply eval_place_same|]. intros [[pl ty] m1] H1.
      destruct ty; try done. destruct (negb _); [done|]. apply post_bind_skip. intros var.
      apply wp_bind. eapply wp_mono; [apply encode_discr_same|]. intros m2 H2. apply Hsame.
      cbn in *. eauto using same_trans.
    - apply wp_bind. eapply wp_mono; [apply eval_place_same|]. intros [[pl ty] m1] H1.
      apply wp_bind. eapply wp_mono; [apply place_load_same|]. intros [v m2] H2.
      apply wp_bind. eapply wp_mono; [apply retag_val_same|]. intros [w m3] H3.
      apply wp_bind. eapply wp_mono; [apply place_store_same|]. intros m4 H4. apply Hsame.
      cbn in *. eauto 6 using same_trans.
    - apply wp_bind. eapply wp_mono; [apply eval_place_same|]. intros [[pl ty] m1] H1.
      destruct (negb _); [done|]. apply post_bind_skip. intros sz.
      apply wp_bind. eapply wp_mono; [apply deinit_same|]. intros m2 H2. apply Hsame.
      cbn in *. eauto using same_trans.
    - apply wp_bind, post_intro. intros f Hf. apply wp_bind. eapply wp_mono; [apply storage_live_ctl|].
      intros [[f1 mem] cs1] [ls Hl]. apply wp_bind, post_intro. intros m' H.
      destruct (put_frame_ctl _ _ _ _ _ _ Hf Hl H) as (t & r & Ht & E). cbn. rewrite E. by econstructor.
    - apply wp_bind, post_intro. intros f Hf. apply wp_bind. eapply wp_mono; [apply storage_dead_ctl|].
      intros [f1 mem] [ls Hl]. apply wp_bind, post_intro. intros m' H.
      destruct (put_frame_ctl _ _ _ _ _ _ Hf Hl H) as (t & r & Ht & E). cbn. rewrite E. by econstructor.
  Qed.

  (** ** Calls *)

  Lemma create_frame_ctl (m : Mach) func action conv rty args cs :
    post (create_frame T MO m func action conv rty args cs) (fun '(f, m', _) =>
      same m m' /\ exists ls, fctl f = mkFCtl func ls action (fn_start func) 0).
  Proof.
    unfold create_frame. apply wp_bind.
    eapply wp_mono.
    { apply (wp_fold_m _ True (fun _ '(f, _, _) => exists ls, fctl f = mkFCtl func ls action (fn_start func) 0)).
      - by eexists.
      - intros i x [[f mem] cs1] _ [ls Hf]. eapply wp_mono; [apply storage_live_ctl|].
        intros [[f1 mem1] cs2] [ls1 H1]. cbn in *. rewrite H1, Hf. by eexists. }
    intros [[f mem] cs1] Hf. destruct (negb _); [done|]. apply post_bind_skip. intros ret.
    apply post_bind_skip. intros ok. destruct (negb _); [done|]. destruct (negb _); [done|].
    apply wp_bind. eapply wp_mono with (Q := same m).
    - assert (forall l1 l2 m1, same m m1 -> post (fold_m2 (fun m callee_local arg =>
          let! ty := unwrap (map_get (fn_locals func) callee_local) in
          let! ok := check_abi_compatibility (snd arg) ty in
          if negb ok then throw_ub "call ABI violation: argument types are not compatible" else
          let! align := align_of T (snd arg) in
          let! ptr := unwrap (map_get (f_locals f) callee_local) in
          expect_ok (typed_store T MO m ptr (fst arg) (snd arg) align NonAtomic)) l1 l2 m1) (same m)) as Hl;
        [|by apply Hl].
      induction l1 as [|x l1 IH]; intros [|[v ty] l2] m1 H1; try done. cbn [fold_m2].
      apply wp_bind. eapply wp_mono with (Q := same m); [|intros m2 H2; by apply IH].
      do 2 (apply post_bind_skip; intros ?). destruct (negb _); [done|].
      do 2 (apply post_bind_skip; intros ?). pose proof (typed_store_same T MO m1 a2 (fst (v, ty)) (snd (v, ty)) a1 NonAtomic) as Hs.
      destruct (typed_store _ _ _ _ _ _ _); try done. cbn in *. eauto using same_trans.
    - intros m1 H1. by split.
  Qed.

  Lemma eval_argument_same (m : Mach) a : post (eval_argument T MO m a) (fun r => same m (snd r)).
  Proof.
    destruct a as [e|p]; cbn; [apply eval_value_same|].
    apply wp_bind. eapply wp_mono; [apply eval_place_same|]. intros [[pl ty] m1] H1.
    apply wp_bind. eapply wp_mono; [apply place_load_same|]. intros [v m2] H2.
    apply wp_bind. unfold prepare_for_inplace_passing. do 2 (apply post_bind_skip; intros ?).
    eapply wp_mono; [apply deinit_same|]. intros m3 H3. cbn in *. eauto using same_trans.
  Qed.

  Lemma fn_from_ptr_prog (m : Mach) v func : fn_from_ptr m v = Ret func ->
    exists n, map_get (pr_functions (m_prog m)) n = Some func.
  Proof.
    destruct v as [| |[thin [|]]| | |]; cbn; try done. destruct (List.find _ _) as [kv|]; [|done].
    intros H. apply unwrap_ret in H. by exists (fst kv).
  Qed.

  Lemma active_ctl (m : Mach) t : active_thread m = Ret t ->
    c_threads (ctl m) !! c_active (ctl m) = Some (tctl t).
  Proof. unfold active_thread. intros H. apply unwrap_ret in H. rewrite ctl_thread. cbn. by rewrite H. Qed.

  (** ** Intrinsics *)

  Lemma thread_in_ctl (m : Mach) s i : thread_in m s i = true <-> c_in (ctl m) s i.
  Proof.
    unfold thread_in, c_in. rewrite ctl_thread. destruct (m_threads m !! i) as [t|]; cbn.
    - rewrite bool_decide_eq_true. split; [intros ?; by exists (tctl t)|by intros (? & [= <-] & ?)].
    - split; [done|by intros (? & ? & _)].
  Qed.
  Lemma some_thread_in_ctl (m : Mach) s : some_thread_in m s = true <-> exists i, c_in (ctl m) s i.
  Proof.
    unfold some_thread_in. rewrite existsb_exists. split.
    - intros (t & Ht & Hs). apply elem_of_list_In, elem_of_list_lookup in Ht as [i Hi].
      exists i. apply thread_in_ctl. unfold thread_in. by rewrite Hi.
    - intros [i Hi]. apply thread_in_ctl in Hi. unfold thread_in in Hi.
      destruct (m_threads m !! i) as [t|] eqn:E; [|done]. exists t. split; [|done].
      apply elem_of_list_In. by eapply elem_of_list_lookup_2.
  Qed.

  Lemma list_get_some {A} (l : list A) (i : Z) x : list_get l i = Some x -> l !! Z.to_nat i = Some x.
  Proof. unfold list_get. by destruct (i <? 0). Qed.

  Lemma pick_thread_ret ok (cs cs' : list (Choice P)) i :
    pick_thread ok cs = Ret (i, cs') -> ok i = true.
  Proof. destruct cs as [|[|j|] r]; cbn; try done. destruct (ok j) eqn:E; [|done]. by intros [= <- <-]. Qed.

  Lemma load_raw_data_same (m : Mach) p pt : post (load_raw_data MO m p pt) (fun r => same m (snd r)).
  Proof.
    unfold load_raw_data. destruct pt; try done. destruct (pi_layout _); try done.
    apply post_bind_skip. intros [b mem]. by destruct (bytes_data b).
  Qed.

  Lemma set_thread_ctl (m : Mach) i t s : m_threads m !! i = Some t ->
    c_threads (ctl (set_thread m i (with_state t s))) = set_state_at (c_threads (ctl m)) i s.
  Proof.
    intros H. unfold set_state_at. rewrite ctl_thread, H. cbn. exact (list_fmap_insert tctl (m_threads m) i (with_state t s)).
  Qed.

  Local Ltac cases :=
    repeat match goal with |- wp _ (match ?x with _ => _ end) _ => destruct x; try exact I end.

  Lemma intrinsic_ctl (m : Mach) op args rty cs :
    post (eval_intrinsic T MO m op args rty cs) (fun '(_, m', _) => c_intrinsic (ctl m) op (ctl m')).
  Proof.
    assert (Hsame : forall m' (Ho : match op with
      | InAssume | InAllocate | InDeallocate | InRawEq | InAtomicStore | InAtomicLoad
      | InAtomicCompareExchange | InAtomicFetchAndOp _ | InPointerWithExposedProvenance
      | InGetUnwindPayload => True
      | _ => False
      end), same m m' -> c_intrinsic (ctl m) op (ctl m')).
    { intros m' Ho ->. by constructor. }
    destruct op as [| | | | | | | | | | | | |iop|lop| | |]; cbn [eval_intrinsic].
    - done.
    - cases; apply post_bind_skip; intros _; cases; by apply Hsame.
    - by apply post_bind_skip.
    - do 2 (apply post_bind_skip; intros ?). apply (ci_out (ctl m)).
    - do 2 (apply post_bind_skip; intros ?). apply (ci_err (ctl m)).
    - cases. apply post_bind_skip. intros [ad cs1]. apply post_bind_skip.
      intros [? ?]. by apply Hsame.
    - cases. do 2 (apply post_bind_skip; intros ?). by apply Hsame.
    - cases; apply wp_bind, post_intro; intros func Hf;
        apply fn_from_ptr_prog in Hf as [n Hn]; cases; try exact I.
      unfold spawn, new_thread. apply wp_bind, wp_bind, wp_bind. eapply wp_mono; [apply create_frame_ctl|].
      intros [[f m1] cs1] [H1 [ls Hls]]. cbn.
      unfold same in H1. replace (length (m_threads m1)) with (length (c_threads (ctl m)));
        [|rewrite <-H1; cbn; by rewrite map_length].
      match goal with |- c_intrinsic _ _ ?x => replace x with (c_with_sync (c_with_threads (ctl m) (c_threads (ctl m) ++
           [mkTCtl [mkFCtl func ls BottomOfStack (fn_start func) 0] Enabled []]))
           (set_add (c_sync (ctl m)) (length (c_threads (ctl m))))) end.
      + by eapply ci_spawn.
      + rewrite <-H1. unfold ctl, c_with_sync, c_with_threads. cbn. rewrite map_app. cbn.
        unfold tctl. cbn. by rewrite Hls.
    - cases. apply post_bind_skip. intros _. apply wp_bind.
      unfold join. destruct (list_get _ _) as [tj|] eqn:E; [|done]. apply list_get_some in E.
      assert (Hd : c_in (ctl m) Terminated (Z.to_nat i) <-> t_state tj = Terminated).
      { unfold c_in. rewrite ctl_thread, E. cbn. split; [by intros (? & [= <-] & ?)|]. intros ?. by exists (tctl tj). }
      assert (Hl : (Z.to_nat i < length (c_threads (ctl m)))%nat).
      { cbn. rewrite map_length. by eapply lookup_lt_Some. }
      destruct (t_state tj) eqn:Es.
      4: { cbn. apply (ci_join_done (ctl m) (Z.to_nat i)). by apply Hd. }
      all: cbn [wp]; apply wp_bind, post_intro; intros a Ha; cbn; rewrite ctl_put;
        change (tctl (with_state a ?s)) with (tc_with_state (tctl a) s);
        apply active_ctl in Ha; apply ci_join_wait; try done; by rewrite Hd.
    - cases. apply wp_bind. eapply wp_mono; [apply load_raw_data_same|].
      intros [b1 m1] H1. apply wp_bind. eapply wp_mono; [apply load_raw_data_same|].
      intros [b2 m2] H2. cbn in *. apply Hsame; [done|]. eauto using same_trans.
    - cases. apply post_bind_skip. intros l. cases.
      apply post_bind_skip. intros _. apply wp_bind. eapply wp_mono; [apply typed_store_same|].
      intros m1 H1. by apply Hsame.
    - cases. apply post_bind_skip. intros l. cases.
      apply wp_bind. eapply wp_mono; [apply typed_load_same|]. intros [v m1] H1. by apply Hsame.
    - cases. apply post_bind_skip. intros l.
      apply post_bind_skip. intros al. cases.
      apply wp_bind. eapply wp_mono; [apply typed_load_same|]. intros [v' m1] H1.
      case_match; [|by apply Hsame].
      apply wp_bind. eapply wp_mono; [apply typed_store_same|]. intros m2 H2.
      cbn in *. apply Hsame; [done|]. eauto using same_trans.
    - cases. apply post_bind_skip. intros l.
      apply post_bind_skip. intros al. cases.
      apply wp_bind. eapply wp_mono; [apply typed_load_same|]. intros [v' m1] H1.
      cases. apply post_bind_skip. intros nx.
      apply wp_bind. eapply wp_mono; [apply typed_store_same|]. intros m2 H2.
      cbn in *. apply Hsame; [done|]. eauto using same_trans.
    - destruct lop.
      + (* acquire *)
        cases. apply post_bind_skip. intros _. apply wp_bind.
        unfold lock_acquire. destruct (list_get _ _) as [[|o]|] eqn:E; [| |done]; apply list_get_some in E.
        * cbn. by apply ci_acquire.
        * apply wp_bind, post_intro. intros ta Ht. cbn. rewrite ctl_put. apply active_ctl in Ht.
          change (tctl (with_state ta ?s)) with (tc_with_state (tctl ta) s). by eapply ci_wait.
      + (* release *)
        cases. apply post_bind_skip. intros _. apply wp_bind.
        unfold lock_release. destruct (list_get _ _) as [[|o]|] eqn:E; [done| |done]; apply list_get_some in E.
        destruct (Nat.eqb_spec o (m_active m)) as [->|]; [|done]. cbn [negb].
        destruct (some_thread_in _ _) eqn:Ew.
        * apply wp_bind, post_intro. intros [w cs1] Hw. apply pick_thread_ret in Hw.
          apply thread_in_ctl in Hw as Hw'. apply wp_bind, post_unwrap. intros ta Ht. cbn.
          pose proof (ci_pass (ctl m) _ w E Hw') as Hc.
          unfold c_with_threads in Hc. rewrite <-(set_thread_ctl m w ta Enabled Ht) in Hc. exact Hc.
        * cbn. apply ci_release; [done|]. intros j Hj.
          assert (some_thread_in m (BlockedOnLock (Z.to_nat i)) = true) by (apply some_thread_in_ctl; eauto).
          congruence.
      + destruct args; [|done]. destruct rty; try done. apply (ci_create (ctl m)).
    - cases. cbn. apply (ci_expose (ctl m)).
    - cases. apply post_bind_skip. intros [pr cs1]. apply post_bind_skip. intros p.
      by apply Hsame.
    - cases. apply post_bind_skip. intros ta. destruct (head _); [|done]. by apply Hsame.
  Qed.

  (** ** Terminators *)

  Lemma c_put_put (c : Ctl P) t t' : c_put (c_put c t) t' = c_put c t'.
  Proof. unfold c_put, c_with_threads. cbn. f_equal. apply list_insert_insert. Qed.
  Lemma c_put_lookup (c : Ctl P) t t' :
    c_threads c !! c_active c = Some t' -> c_threads (c_put c t) !! c_active (c_put c t) = Some t.
  Proof. intros H. cbn. apply list_lookup_insert. by eapply lookup_lt_Some. Qed.

  Lemma pop_frame_ctl (m : Mach) f m' : pop_frame m = Ret (f, m') ->
    exists t r, c_top (ctl m) t (fctl f) r /\ ctl m' = c_put (ctl m) (tc_with_stack t r).
  Proof.
    unfold pop_frame. intros H. apply obind_ret in H as (t & Ht & H). apply active_ctl in Ht.
    destruct (t_stack t) as [|g r] eqn:E; [done|]. injection H as <- <-.
    exists (tctl t), (List.map fctl r). split.
    - split; [done|]. cbn. by rewrite E.
    - by rewrite ctl_put.
  Qed.

  Lemma dealloc_locals_ctl (f : StackFrame P F) mem :
    post (dealloc_locals T MO f mem) (fun r => exists ls, fctl (fst r) = fc_with_locals (fctl f) ls).
  Proof.
    unfold dealloc_locals.
    apply (wp_fold_m _ True (fun _ r => exists ls, fctl (fst r) = fc_with_locals (fctl f) ls)).
    - exists (f_locals f). by destruct f.
    - intros i x [f1 mem1] _ [ls H1]. eapply wp_mono; [apply storage_dead_ctl|].
      intros [f2 mem2] [ls2 H2]. cbn in *. rewrite H2, H1. by eexists.
  Qed.

  Lemma fold_set_add l s i : i ∈ fold_left set_add l s <-> i ∈ s \/ i ∈ l.
  Proof.
    revert s. induction l as [|x l IH]; intros s; cbn; [rewrite elem_of_nil; tauto|].
    rewrite IH. unfold set_add. case_bool_decide.
    - rewrite elem_of_cons. split; [tauto|]. intros [?|[->|?]]; tauto.
    - rewrite elem_of_app, elem_of_list_singleton, elem_of_cons. tauto.
  Qed.

  Lemma terminate_ctl (m : Mach) m' t0 (c : Ctl P) :
    ctl m = c_put c (tc_with_stack t0 []) -> c_threads c !! c_active c = Some t0 ->
    terminate_active_thread m = Ret m' ->
    c_active c <> 0%nat /\ exists sync : list nat,
      (forall i, i ∈ sync <-> i ∈ c_sync c \/ c_in c (BlockedOnJoin (c_active c)) i /\ i <> c_active c) /\
      ctl m' = c_terminate c (tc_with_stack t0 []) sync.
  Proof.
    intros Hm Ht0. unfold terminate_active_thread.
    assert (Ha : m_active m = c_active c) by (change (m_active m) with (c_active (ctl m)); by rewrite Hm).
    rewrite Ha. destruct (Nat.eqb_spec (c_active c) 0) as [|Hne]; [done|]. intros H. split; [done|].
    apply obind_ret in H as (t & Ht & H). apply obind_ret in H as (_ & _ & H). injection H as <-.
    apply active_ctl in Ht as Ht'. rewrite Hm in Ht'. erewrite c_put_lookup in Ht' by done. apply (f_equal (default (tctl t))) in Ht'. unfold default, id in Ht'; cbn [from_option] in Ht'.
    set (m1 := set_active_thread m (with_state t Terminated)).
    assert (Hm1 : ctl m1 = c_put c (tc_with_state (tc_with_stack t0 []) Terminated)).
    { unfold m1. rewrite ctl_put, Hm, c_put_put. f_equal. by rewrite Ht'. }
    eexists. split.
    2: { unfold c_terminate. unfold ctl at 1. cbn [m_prog set_threads set_sync m_exposed m_threads m_active m_sync
         m_locks m_globals m_fnptrs m_vtptrs m_stdout m_stderr].
         transitivity (c_with_sync (c_with_threads (ctl m1) (List.map (fun t => if bool_decide (tc_state t = BlockedOnJoin (c_active c))
                          then tc_with_state t Enabled else t) (c_threads (ctl m1))))
           (fold_left set_add
         (List.filter (thread_in m1 (BlockedOnJoin (c_active c))) (seq 0 (length (m_threads m1)))) (m_sync m1))).
         - unfold c_with_sync, c_with_threads. cbn. f_equal. rewrite !map_map. apply map_ext. intros u.
           cbn. by case_bool_decide.
         - rewrite Hm1. reflexivity. }
    intros i. rewrite fold_set_add. change (m_sync m1) with (c_sync (ctl m1)). rewrite Hm1. cbn [c_put c_with_threads c_sync].
    assert (i ∈ List.filter (thread_in m1 (BlockedOnJoin (c_active c))) (seq 0 (length (m_threads m1))) <->
      c_in c (BlockedOnJoin (c_active c)) i /\ i <> c_active c) as ->; [|done].
    rewrite elem_of_list_In, filter_In, thread_in_ctl, Hm1. unfold c_in. cbn.
    split.
    - intros [_ (u & Hu & Hs)]. destruct (decide (i = c_active c)) as [->|Hi].
      + rewrite list_lookup_insert in Hu by (by eapply lookup_lt_Some). injection Hu as <-. done.
      + rewrite list_lookup_insert_ne in Hu by done. eauto.
    - intros [(u & Hu & Hs) Hi]. split.
      + apply in_seq. split; [lia|]. cbn.
        assert (i < length (c_threads (ctl m1)))%nat as Hl.
        { rewrite Hm1. cbn. rewrite insert_length. by eapply lookup_lt_Some. }
        cbn in Hl. by rewrite map_length in Hl.
      + exists u. by rewrite list_lookup_insert_ne.
  Qed.

  Lemma jump_after (m m' : Mach) b (c : Ctl P) t t' f r :
    ctl m = c_put c t -> c_threads c !! c_active c = Some t' -> tc_stack t = f :: r ->
    c_jump (ctl m) b (ctl m') ->
    ctl m' = c_put c (tc_with_stack t (fc_at f b 0 :: r)).
  Proof.
    intros Hm Ht Hs (u & g & q & [Hu Hq] & E). rewrite Hm in Hu, E. erewrite c_put_lookup in Hu by done.
    injection Hu as <-. rewrite Hs in Hq. injection Hq as <- <-. rewrite E. apply c_put_put.
  Qed.

  Lemma terminator_ctl tm (m : Mach) cs :
    post (eval_terminator T MO tm m cs) (fun r => c_term (ctl m) tm (ctl (fst r))).
  Proof.
    destruct tm as [b|v cases fb| |op args ret nb|callee conv args ret nb ub| |v b|b|]; cbn [eval_terminator].
    - apply wp_bind. eapply wp_mono; [apply jump_ctl|]. intros m1 H1. by constructor.
    - apply wp_bind. eapply wp_mono; [apply eval_value_same|]. intros [[w wt] m1] H1. cbn in H1.
      destruct w as [i| | | | |]; try done. apply wp_bind. eapply wp_mono; [apply jump_ctl|].
      intros m2 H2. rewrite H1 in H2. by econstructor.
    - done.
    - apply wp_bind. eapply wp_mono; [apply eval_place_same|]. intros [[pl ty] m1] H1. cbn in H1.
      apply wp_bind. eapply wp_mono.
      { apply map_st_same. apply Forall_true. intros e m'. apply eval_value_same. }
      intros [vs m2] H2. cbn in H2. apply wp_bind. eapply wp_mono; [apply intrinsic_ctl|].
      intros [[v m3] cs1] H3. apply wp_bind. eapply wp_mono; [apply place_store_same|].
      intros m4 H4. destruct nb as [b|]; [|done]. apply wp_bind. eapply wp_mono; [apply jump_ctl|].
      intros m5 H5. rewrite H2, H1 in H3. rewrite H4 in H5. by econstructor.
    - apply wp_bind. eapply wp_mono; [apply eval_place_same|]. intros [[pl ty] m1] H1. cbn in H1.
      apply wp_bind. unfold prepare_for_inplace_passing. do 2 (apply post_bind_skip; intros ?).
      eapply wp_mono; [apply deinit_same|]. intros m2 H2.
      apply wp_bind. eapply wp_mono; [apply eval_value_same|]. intros [[fv ft] m3] H3. cbn in H3.
      apply wp_bind, post_intro. intros func Hfn. apply fn_from_ptr_prog in Hfn as [n Hn].
      apply wp_bind. eapply wp_mono.
      { apply map_st_same. apply Forall_true. intros e m'. apply eval_argument_same. }
      intros [vs m4] H4. cbn in H4. unfold eval_call. apply wp_bind. eapply wp_mono; [apply create_frame_ctl|].
      intros [[f m5] cs1] [H5 [ls Hls]]. apply wp_bind, post_intro. intros t Ht. cbn. rewrite ctl_put.
      apply active_ctl in Ht. unfold tctl. cbn. rewrite Hls.
      assert (E : same m m5) by eauto 6 using same_trans. rewrite E in Ht |- *.
      change (mkTCtl (?x :: List.map fctl (t_stack t)) (t_state t) (t_payloads t))
        with (tc_with_stack (tctl t) (x :: tc_stack (tctl t))).
      eapply ct_call; [done|]. change (m_prog m3) with (c_prog (ctl m3)) in Hn.
      assert (E3 : same m m3) by eauto 6 using same_trans. rewrite E3 in Hn. done.
    - apply wp_bind, post_intro. intros [f m1] Hp. apply pop_frame_ctl in Hp as (t & r & Ht & E1).
      apply post_bind_skip. intros cty. apply post_bind_skip. intros al. apply post_bind_skip. intros rp.
      apply wp_bind. eapply wp_mono; [apply typed_load_same|]. intros [rv m2] H2. cbn in H2.
      apply wp_bind. eapply wp_mono; [apply dealloc_locals_ctl|]. intros [f1 mem1] [ls Hf1]. cbn in Hf1.
      apply post_bind_skip. intros mem2.
      assert (Hac : f_action f1 = f_action f) by (change (fc_action (fctl f1) = f_action f); by rewrite Hf1).
      rewrite Hac. destruct (f_action f) as [|nb ub p] eqn:Ea.
      + apply wp_bind, post_intro. intros m3 H3.
        assert (r = []) as ->.
        { unfold terminate_active_thread in H3. destruct (_ =? _)%nat; [done|].
          apply obind_ret in H3 as (u & Hu & H3). apply obind_ret in H3 as (? & Hs & _).
          apply active_ctl in Hu. change (ctl (set_mem m2 mem2)) with (ctl m2) in Hu. rewrite H2, E1 in Hu.
          erewrite c_put_lookup in Hu by apply Ht. destruct (t_stack u) eqn:Eu; [|done].
          assert (tc_stack (tctl u) = []) as Hu2 by (cbn; by rewrite Eu). destruct r; [done|].
          unfold tctl in Hu. rewrite Eu in Hu. by injection Hu. }
        eapply (terminate_ctl _ _ t (ctl m)) in H3 as (Hne & sync & Hs & E3).
        * by eapply ct_return_end.
        * change (ctl (set_mem m2 mem2)) with (ctl m2). by rewrite H2.
        * apply Ht.
      + apply wp_bind, post_intro. intros u Hu. apply wp_bind, post_assert. intros Hne.
        apply wp_bind. eapply wp_mono; [apply typed_store_same|]. intros m3 H3.
        destruct nb as [b|]; [|done]. apply wp_bind. eapply wp_mono; [apply jump_ctl|].
        intros m4 H4. assert (E3 : ctl m3 = c_put (ctl m) (tc_with_stack t r)).
        { rewrite H3. change (ctl (set_mem m2 mem2)) with (ctl m2). by rewrite H2. }
        destruct r as [|g r].
        { exfalso. destruct H4 as (u1 & g & q & [Hu1 Hq] & _). rewrite E3 in Hu1.
          erewrite c_put_lookup in Hu1 by apply Ht. injection Hu1 as <-. done. }
        eapply jump_after in H4; [|done|apply Ht|done]. cbn. eapply ct_return; [done|by rewrite <-Ea|].
        rewrite H4. done.
    - apply wp_bind. eapply wp_mono; [apply eval_value_same|]. intros [[w wt] m1] H1. cbn in H1.
      destruct w as [| |p| | |]; try done. destruct wt as [| |pt| | | | | |]; try done.
      cases. apply wp_bind, post_intro. intros t Ht.
      apply wp_bind. eapply wp_mono; [apply jump_ctl|]. intros m2 H2. cbn.
      rewrite ctl_put in H2. apply active_ctl in Ht. rewrite H1 in Ht, H2.
      destruct H2 as (u & f & r & [Hu Hs] & E). erewrite c_put_lookup in Hu by done. injection Hu as <-.
      rewrite c_put_put in E. eapply ct_start_unwind; [split; [exact Ht|exact Hs]|]. rewrite E. done.
    - apply wp_bind, post_intro. intros t Ht. destruct (t_payloads t) as [|p ps] eqn:Ep; [done|].
      apply wp_bind. eapply wp_mono; [apply jump_ctl|]. intros m2 H2. cbn.
      rewrite ctl_put in H2. apply active_ctl in Ht.
      destruct H2 as (u & f & r & [Hu Hs] & E). erewrite c_put_lookup in Hu by done. injection Hu as <-.
      rewrite c_put_put in E. eapply ct_stop_unwind; [split; [exact Ht|exact Hs]|exact Ep|]. rewrite E. done.
    - apply wp_bind, post_intro. intros [f m1] Hp. apply pop_frame_ctl in Hp as (t & r & Ht & E1).
      apply wp_bind. eapply wp_mono; [apply dealloc_locals_ctl|]. intros [f1 mem1] [ls Hf1]. cbn in Hf1.
      apply post_bind_skip. intros mem2.
      assert (Hac : f_action f1 = f_action f) by (change (fc_action (fctl f1) = f_action f); by rewrite Hf1).
      rewrite Hac. destruct (f_action f) as [|nb ub p] eqn:Ea; [done|]. destruct ub as [b|]; [|done].
      apply wp_bind. eapply wp_mono; [apply jump_ctl|]. intros m4 H4.
      change (ctl (set_mem m1 mem2)) with (ctl m1) in H4.
      destruct r as [|g r].
      { exfalso. destruct H4 as (u1 & g & q & [Hu1 Hq] & _). rewrite E1 in Hu1.
        erewrite c_put_lookup in Hu1 by apply Ht. injection Hu1 as <-. done. }
      eapply jump_after in H4; [|done|apply Ht|done]. cbn. eapply ct_resume; [done|by rewrite <-Ea|].
      rewrite H4. done.
  Qed.

  (** ** Steps *)

  Theorem step_ctl cs (m : Mach) : post (step T MO cs m) (fun m' => c_step (ctl m) (ctl m')).
  Proof.
    unfold step. destruct (negb _); [done|].
    destruct (reset_data_race_tracking m) as [[ps pa] m0] eqn:Er.
    assert (H0 : ctl m0 = ctl m).
    { unfold reset_data_race_tracking in Er. destruct (cm_reset_accesses _) as [a b]. by injection Er as _ _ <-. }
    apply wp_bind, post_intro. intros [a cs1] Ha. apply pick_thread_ret, thread_in_ctl in Ha as (ta & Hta & Hsa).
    rewrite H0 in Hta.
    set (m1 := set_active m0 a). assert (H1 : ctl m1 = c_with_active (ctl m) a).
    { unfold m1. change (ctl (set_active m0 a)) with (c_with_active (ctl m0) a). by rewrite H0. }
    apply wp_bind, post_intro. intros f Hf. apply cur_frame_ctl in Hf as (t & r & _ & _ & Ht). rewrite H1 in Ht.
    assert (tctl t = ta) as Eta.
    { destruct Ht as [Ht _]. change (c_threads (ctl m) !! a = Some (tctl t)) in Ht. congruence. }
    apply wp_bind, post_unwrap. intros block Hb.
    apply wp_bind. eapply wp_mono with (Q := fun r => c_step (ctl m) (ctl (fst r))).
    2: { intros [m2 cs2] H2. by apply post_bind_skip. }
    destruct (Nat.eqb_spec (f_stmt f) (length (bb_statements block))) as [Hs|Hs].
    - eapply wp_mono; [apply terminator_ctl|]. intros [m2 cs2] H2. cbn in *. rewrite H1 in H2.
      eapply (c_step_term _ a); [exact Ht| |exact Hb|exact Hs|done]. by rewrite Eta.
    - apply wp_bind, post_unwrap. intros s Hst. apply wp_bind. eapply wp_mono; [apply statement_ctl|].
      intros [m2 cs2] H2. cbn in H2. apply wp_bind, post_intro. intros f2 Hf2.
      apply cur_frame_ctl in Hf2 as (t2 & r2 & _ & _ & Ht2). apply wp_bind, post_intro. intros m3 Hm3.
      apply set_cur_frame_ctl in Hm3 as (t3 & f3 & r3 & Ht3 & E3). change (c_step (ctl m) (ctl m3)). rewrite E3.
      destruct (c_top_fun _ _ _ _ _ _ _ Ht2 Ht3) as (-> & -> & ->). rewrite H1 in H2.
      assert (tc_state (tctl t) = Enabled) as Hen by (by rewrite Eta).
      exact (c_step_stmt _ a _ _ _ block s _ _ _ _ Ht Hen Hb Hst H2 Ht2).
  Qed.
End Proofs.
