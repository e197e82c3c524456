(** Positions of frames, kinds of blocks and unwind payloads in reachable states. *)
From Verif Require Export SchedProofs WfTypesProofs.

(** ** What the well-formedness check says about blocks *)

Definition next_ok (func : Function) (k : BbKind) (b : BbName) : Prop :=
  exists blk, map_get (fn_blocks func) b = Some blk /\ bb_kind blk = k.
Definition unw_ok (func : Function) (k : BbKind) (b : BbName) : Prop :=
  exists blk, map_get (fn_blocks func) b = Some blk /\ unwinds_to k (bb_kind blk).

Definition term_ok (func : Function) (k : BbKind) (tm : Terminator) : Prop :=
  match tm with
  | TmGoto b => next_ok func k b
  | TmSwitch _ cases fb => Forall (fun c => next_ok func k (snd c)) cases /\ next_ok func k fb
  | TmUnreachable => True
  | TmIntrinsic _ _ _ nb => forall b, nb = Some b -> next_ok func k b
  | TmCall _ _ _ _ nb ub =>
      (forall b, nb = Some b -> next_ok func k b) /\ (forall b, ub = Some b -> unw_ok func k b)
  | TmReturn => k = BkRegular
  | TmStartUnwind _ b => k = BkRegular /\ unw_ok func k b
  | TmStopUnwind b => k = BkCatch /\ next_ok func BkRegular b
  | TmResumeUnwind => k = BkCleanup
  end.

Definition blocks_ok (prog : Program) : Prop :=
  forall n func b blk, map_get (pr_functions prog) n = Some func -> map_get (fn_blocks func) b = Some blk ->
    term_ok func (bb_kind blk) (bb_terminator blk).

Lemma check_next_ret func k b : check_next_block func k b = Ret tt -> next_ok func k b.
Proof.
  unfold check_next_block. destruct (map_get _ _) as [blk|] eqn:E; [|done]. intros H.
  apply ensure_wf_ret, bool_decide_eq_true in H. by exists blk.
Qed.
Lemma check_unwind_ret func k b : check_unwind_block func k b = Ret tt -> unw_ok func k b.
Proof.
  unfold check_unwind_block. intros H. apply obind_ret in H as (ks & Hk & H).
  destruct (map_get _ _) as [blk|] eqn:E; [|done]. apply ensure_wf_ret, existsb_exists in H as (k' & Hin & H).
  apply bool_decide_eq_true in H as ->. exists blk. split; [done|].
  destruct k; try done; injection Hk as <-; cbn in Hin; repeat destruct Hin as [Hin|Hin]; try done; rewrite <-Hin; constructor.
Qed.
Lemma check_opt_ret {A} (f : A -> Outcome unit) o : check_opt f o = Ret tt -> forall a, o = Some a -> f a = Ret tt.
Proof. intros H a ->. exact H. Qed.

Lemma terminator_wf_ok T prog func k tm : terminator_check_wf T prog func k tm = Ret tt -> term_ok func k tm.
Proof.
  destruct tm as [b|v cases fb| |op args ret nb|callee conv args ret nb ub| |v b|b|]; cbn; intros H.
  - by apply check_next_ret.
  - apply obind_ret in H as (ty & _ & H). destruct ty; try done. apply obind_ret in H as ([] & Hc & H).
    split; [|by apply check_next_ret]. apply for_each_ret in Hc. eapply Forall_impl; [exact Hc|].
    intros [i b] Hb. apply obind_ret in Hb as (? & _ & Hb). by apply check_next_ret.
  - done.
  - repeat (apply obind_ret in H as (? & _ & H)). intros b Hb. apply check_next_ret. by eapply check_opt_ret.
  - do 5 (apply obind_ret in H as (? & _ & H)). apply obind_ret in H as ([] & H1 & H). split; intros b Hb.
    + apply check_next_ret. by eapply check_opt_ret.
    + apply check_unwind_ret. by eapply check_opt_ret.
  - by apply ensure_wf_ret, bool_decide_eq_true in H.
  - do 2 (apply obind_ret in H as (? & _ & H)). apply obind_ret in H as ([] & Hk & H).
    apply ensure_wf_ret, bool_decide_eq_true in Hk. split; [done|by apply check_unwind_ret].
  - apply obind_ret in H as ([] & Hk & H). apply ensure_wf_ret, bool_decide_eq_true in Hk.
    split; [done|by apply check_next_ret].
  - by apply ensure_wf_ret, bool_decide_eq_true in H.
Qed.

Lemma program_wf_blocks T prog : program_check_wf T prog = Ret tt -> blocks_ok prog.
Proof.
  unfold program_check_wf. intros H. apply obind_ret in H as ([] & _ & H). apply obind_ret in H as ([] & Hf & _).
  apply for_each_ret in Hf. intros n func b blk Hn Hb. apply map_get_in in Hn, Hb.
  rewrite Forall_forall in Hf. apply elem_of_list_In in Hn. specialize (Hf _ Hn). cbn in Hf. unfold function_check_wf in Hf.
  repeat (apply obind_ret in Hf as (? & _ & Hf)). apply for_each_ret in Hf. rewrite Forall_forall in Hf.
  apply elem_of_list_In in Hb. specialize (Hf _ Hb). cbn in Hf. apply obind_ret in Hf as (? & _ & Hf).
  by eapply terminator_wf_ok.
Qed.

Section Unwind.
  Context {P F M : Type} `{EqDecision P}.
  Variable T : Target.
  Variable MO : MemOps P F M.
  Notation Mach := (Machine P F M).
  Notation C := (Ctl P).
  Notation Po := (Pos (P:=P)).

  Definition cpos (f : FrameCtl P) : Po := mkPos (fc_func f) (fc_action f) (fc_block f) (fc_stmt f).
  Definition cps (t : ThreadCtl P) : list Po := List.map cpos (tc_stack t).
  Lemma positions_ctl (t : Thread P F) : positions t = cps (tctl t).
  Proof. unfold positions, cps. cbn. rewrite map_map. done. Qed.

  Lemma stack_ok_top prog (p p' : Po) r :
    stack_ok prog (p :: r) -> frame_ok prog p' -> po_action p' = po_action p -> stack_ok prog (p' :: r).
  Proof.
    intros H. inversion H; subst; intros Hf Ha.
    - constructor; [done|]. congruence.
    - eapply so_call; [done|rewrite Ha; eassumption|eassumption..].
  Qed.
  Lemma stack_ok_frame prog (p : Po) r : stack_ok prog (p :: r) -> frame_ok prog p.
  Proof. by inversion 1. Qed.

  Definition reg (p : Po) : bool := bool_decide (kind_of p = Some BkRegular).
  Definition count (s : list Po) : nat := length (unwinding s).
  Lemma count_cons p s : count (p :: s) = ((if reg p then 0 else 1) + count s)%nat.
  Proof.
    unfold count, unwinding, reg. cbn. destruct (decide (kind_of p = Some BkRegular)) as [E|E].
    - rewrite (bool_decide_eq_false_2 (_ <> _)) by tauto. by rewrite bool_decide_eq_true_2.
    - rewrite (bool_decide_eq_true_2 (_ <> _)) by done. by rewrite bool_decide_eq_false_2.
  Qed.
  Lemma reg_kind p k : kind_of p = Some k -> reg p = bool_decide (k = BkRegular).
  Proof.
    unfold reg. intros ->. destruct (decide (k = BkRegular)) as [->|H].
    - by rewrite !bool_decide_eq_true_2.
    - rewrite !bool_decide_eq_false_2; [done|done|congruence].
  Qed.

  Variable prog : Program.
  Hypothesis Hblocks : blocks_ok prog.
  Hypothesis Hstart : starts_regular prog.

  Definition thread_inv (t : ThreadCtl P) : Prop :=
    (tc_state t = Terminated -> tc_stack t = []) /\
    (tc_state t <> Terminated -> stack_ok prog (cps t)) /\
    (count (cps t) <= length (tc_payloads t))%nat.
  Definition unwind_inv (c : C) : Prop :=
    c_prog c = prog /\ forall i t, c_threads c !! i = Some t -> thread_inv t.

  Lemma inv_put (c : C) t' : unwind_inv c -> thread_inv t' -> unwind_inv (c_put c t').
  Proof.
    intros [H1 H2] Ht. split; [done|]. intros i t. cbn. intros Hi.
    apply list_lookup_insert_Some in Hi as [(_ & -> & _)|[_ Hi]]; eauto.
  Qed.
  Lemma inv_state (t : ThreadCtl P) s : thread_inv t -> s <> Terminated -> tc_state t <> Terminated ->
    thread_inv (tc_with_state t s).
  Proof. intros (H1 & H2 & H3) Hs Ht. split; [done|]. split; [intros _; by apply H2|done]. Qed.
  Lemma inv_locals (t : ThreadCtl P) f r ls : thread_inv t -> tc_stack t = f :: r ->
    thread_inv (tc_with_stack t (fc_with_locals f ls :: r)).
  Proof.
    unfold thread_inv, cps. intros (H1 & H2 & H3) Hs. rewrite Hs in *. split; [|split; [exact H2|exact H3]].
    intros Ht. by specialize (H1 Ht).
  Qed.

  Lemma start_frame n func (a : StackPopAction P) : map_get (pr_functions prog) n = Some func ->
    frame_ok prog (mkPos func a (fn_start func) 0) /\ kind_of (mkPos func a (fn_start func) 0) = Some BkRegular.
  Proof.
    intros Hn. destruct (Hstart _ _ Hn) as (b & Hb & Hk). split.
    - split; [by exists n|]. exists b. split; [done|]. cbn. lia.
    - unfold kind_of, block_of. cbn. rewrite Hb. cbn. by rewrite Hk.
  Qed.

  Lemma next_frame (p : Po) b blk : frame_ok prog p -> map_get (fn_blocks (po_func p)) b = Some blk ->
    frame_ok prog (mkPos (po_func p) (po_action p) b 0) /\
    kind_of (mkPos (po_func p) (po_action p) b 0) = Some (bb_kind blk).
  Proof.
    intros [Hn _] Hb. split.
    - split; [done|]. exists blk. split; [done|]. cbn. lia.
    - unfold kind_of, block_of. cbn. by rewrite Hb.
  Qed.

  (** what a thread's terminator allows *)
  Lemma frame_term (p : Po) blk : frame_ok prog p -> block_of p = Some blk ->
    term_ok (po_func p) (bb_kind blk) (bb_terminator blk).
  Proof. intros [[n Hn] _] Hb. by eapply Hblocks. Qed.

  (** a change of the top frame *)
  Lemma inv_top (t : ThreadCtl P) f r b s ps st k k' :
    thread_inv t -> tc_stack t = f :: r -> tc_state t <> Terminated -> st <> Terminated ->
    kind_of (cpos f) = Some k ->
    frame_ok prog (cpos (fc_at f b s)) -> kind_of (cpos (fc_at f b s)) = Some k' ->
    (length (tc_payloads t) + (if decide (k' = BkRegular) then 0 else 1) <=
       length ps + (if decide (k = BkRegular) then 0 else 1))%nat ->
    thread_inv (mkTCtl (fc_at f b s :: r) st ps).
  Proof.
    intros (H1 & H2 & H3) Hs Hnt Hst Hk Hf Hk' Hlen. unfold cps in *. rewrite Hs in *.
    split; [done|]. specialize (H2 Hnt). split.
    - intros _. cbn in *. by eapply stack_ok_top.
    - unfold cps. cbn [List.map tc_stack tc_payloads] in *. rewrite count_cons in H3. rewrite count_cons. rewrite (reg_kind _ _ Hk) in H3. rewrite (reg_kind _ _ Hk').
      do 2 case_bool_decide; repeat destruct (decide _); try done.
      all: lia.
  Qed.

  Lemma inv_jump (c c' : C) a t f r blk b :
    unwind_inv c -> c_active c = a -> c_top c t f r -> tc_state t <> Terminated ->
    block_of (cpos f) = Some blk -> next_ok (fc_func f) (bb_kind blk) b -> c_jump c b c' ->
    unwind_inv c' /\ exists t', c_threads c' !! a = Some t' /\
      cps t' = mkPos (fc_func f) (fc_action f) b 0 :: List.map cpos r /\
      kind_of (mkPos (fc_func f) (fc_action f) b 0) = Some (bb_kind blk).
  Proof.
    intros Hi Ha Ht Hnt Hb (blk' & Hb' & Hk) (t1 & f1 & r1 & Ht1 & ->).
    destruct (c_top_fun _ _ _ _ _ _ _ Ht Ht1) as (-> & -> & ->).
    assert (Hinv : thread_inv t) by (destruct Hi as [_ Hi]; eapply Hi; apply Ht).
    assert (Hfr : frame_ok prog (cpos f)).
    { destruct Hinv as (_ & H2 & _). specialize (H2 Hnt). unfold cps in H2. destruct Ht as [_ Hs]. rewrite Hs in H2.
      by eapply stack_ok_frame. }
    destruct (next_frame (cpos f) b blk' Hfr Hb') as [Hf' Hk'].
    assert (kind_of (cpos f) = Some (bb_kind blk)) as Hkf by (unfold kind_of; by rewrite Hb).
    split.
    - apply inv_put; [done|]. unfold tc_with_stack. eapply inv_top; try done; [apply Ht|]. rewrite Hk. lia.
    - exists (tc_with_stack t (fc_at f b 0 :: r)). split.
      + subst a. cbn. apply list_lookup_insert. eapply lookup_lt_Some. apply Ht.
      + split; [done|]. by rewrite <-Hk.
  Qed.

  (** ** Other threads *)

  Definition fresh_thread (t : ThreadCtl P) : Prop :=
    exists n func ls, map_get (pr_functions prog) n = Some func /\
      t = mkTCtl [mkFCtl func ls BottomOfStack (fn_start func) 0] Enabled [].
  Lemma fresh_inv t : fresh_thread t -> thread_inv t.
  Proof.
    intros (n & func & ls & Hn & ->). destruct (start_frame n func BottomOfStack Hn) as [Hf Hk]. split; [done|]. split.
    - intros _. by constructor.
    - unfold cps. cbn [List.map tc_stack]. rewrite count_cons. erewrite reg_kind by exact Hk. done.
  Qed.

  (** stacks and payloads stay as they are, except that a thread may be added *)
  Definition same_stacks (c c' : C) : Prop :=
    c_prog c' = c_prog c /\ c_active c' = c_active c /\
    (forall i t, c_threads c !! i = Some t -> exists t', c_threads c' !! i = Some t' /\
       tc_stack t' = tc_stack t /\ tc_payloads t' = tc_payloads t /\
       (tc_state t' = Terminated <-> tc_state t = Terminated)) /\
    (forall i t', c_threads c' !! i = Some t' ->
       (exists t, c_threads c !! i = Some t) \/ (c_threads c !! i = None /\ fresh_thread t')).

  Lemma same_stacks_inv c c' : unwind_inv c -> same_stacks c c' -> unwind_inv c'.
  Proof.
    intros [Hp Hi] (H1 & _ & H2 & H3). split; [congruence|]. intros i t' Ht'.
    destruct (H3 _ _ Ht') as [[t Ht]|[_ Hf]]; [|by apply fresh_inv].
    destruct (H2 _ _ Ht) as (t1 & Ht1 & Hs & Hpl & Hst). assert (t1 = t') as -> by congruence.
    destruct (Hi _ _ Ht) as (I1 & I2 & I3). unfold thread_inv, cps. rewrite Hs, Hpl. tauto.
  Qed.
  Lemma same_stacks_refl c : same_stacks c c.
  Proof. repeat split; intros; eauto 10. Qed.

  Lemma same_stacks_eq (c c' : C) : c_prog c' = c_prog c -> c_active c' = c_active c ->
    c_threads c' = c_threads c -> same_stacks c c'.
  Proof. intros H1 H2 H3. split; [done|]. split; [done|]. rewrite H3. split; intros; eauto 10. Qed.

  (** one thread's state changes *)
  Lemma same_stacks_state c c' i t s :
    c_prog c' = c_prog c -> c_active c' = c_active c ->
    c_threads c !! i = Some t -> tc_state t <> Terminated -> s <> Terminated ->
    c_threads c' = <[i := tc_with_state t s]> (c_threads c) -> same_stacks c c'.
  Proof.
    intros H1 H2 Hi Ht Hs E. split; [done|]. split; [done|]. rewrite E. split.
    - intros j t1 Hj. destruct (decide (j = i)) as [->|Hn].
      + assert (t1 = t) as -> by congruence. exists (tc_with_state t s).
        rewrite list_lookup_insert by (by eapply lookup_lt_Some). repeat split; done.
      + rewrite list_lookup_insert_ne by done. eauto.
    - intros j t1 Hj. apply list_lookup_insert_Some in Hj as [(<- & _ & _)|[_ Hj]]; eauto.
  Qed.

  Lemma intrinsic_stacks c op c1 t : c_prog c = prog ->
    c_threads c !! c_active c = Some t -> tc_state t = Enabled -> c_intrinsic c op c1 -> same_stacks c c1.
  Proof.
    intros Hp Ht He H. destruct H; try (by apply same_stacks_eq).
    - split; [done|]. split; [done|]. cbn. split.
      + intros i t1 Hi. exists t1. rewrite lookup_app_l by (by eapply lookup_lt_Some). done.
      + intros i t1 Hi. apply lookup_app_Some in Hi as [Hi|[Hl Hi]]; [eauto|]. right.
        split; [by apply lookup_ge_None|]. destruct (i - length (c_threads c))%nat as [|k]; [|done]. injection Hi as <-.
        exists n, func, ls. split; [congruence|done].
    - assert (t0 = t) as -> by congruence. eapply (same_stacks_state c _ (c_active c) t); try done; congruence.
    - assert (t0 = t) as -> by congruence. eapply (same_stacks_state c _ (c_active c) t); try done; congruence.
    - destruct H0 as (tw & Hw & Hs). eapply (same_stacks_state c _ w tw Enabled); try done.
      + by rewrite Hs.
      + cbn. unfold set_state_at. by rewrite Hw.
  Qed.

  (** ** Steps *)

  Definition c_at (t : ThreadCtl P) (tm : Terminator) : Prop :=
    exists f r b, tc_stack t = f :: r /\ block_of (cpos f) = Some b /\
      fc_stmt f = length (bb_statements b) /\ bb_terminator b = tm.

  Lemma c_top_put (c : C) t t' : c_threads c !! c_active c = Some t ->
    c_threads (c_put c t') !! c_active (c_put c t') = Some t'.
  Proof. intros H. cbn. apply list_lookup_insert. by eapply lookup_lt_Some. Qed.

  (** all threads but the active one *)
  Definition others (c c' : C) : Prop :=
    forall i, i <> c_active c' ->
      match c_threads c !! i, c_threads c' !! i with
      | Some t, Some t' => tc_stack t' = tc_stack t /\ tc_payloads t' = tc_payloads t
      | None, None => True
      | None, Some t' => fresh_thread t'
      | Some _, None => False
      end.
  Lemma others_put c a t' : others c (c_put (c_with_active c a) t').
  Proof.
    intros i Hi. cbn in *. rewrite list_lookup_insert_ne by done. by destruct (c_threads c !! i).
  Qed.
  Lemma others_stacks c a c1 t' : same_stacks (c_with_active c a) c1 -> others c (c_put c1 t').
  Proof.
    intros (_ & Ha & H1 & H2) i Hi. cbn in Hi |- *. rewrite list_lookup_insert_ne by done. cbn in *.
    destruct (c_threads c !! i) as [t|] eqn:E.
    - destruct (H1 _ _ E) as (t1 & -> & H). tauto.
    - destruct (c_threads c1 !! i) as [t1|] eqn:E1; [|done]. destruct (H2 _ _ E1) as [[? ?]|[_ ?]]; [congruence|done].
  Qed.

  Lemma jump_eq (c : C) b (c' : C) t f r : c_top c t f r -> c_jump c b c' ->
    c' = c_put c (tc_with_stack t (fc_at f b 0 :: r)).
  Proof. intros Ht (t1 & f1 & r1 & Ht1 & ->). by destruct (c_top_fun _ _ _ _ _ _ _ Ht Ht1) as (-> & -> & ->). Qed.

  Definition step_spec (c c' : C) (a : nat) (t : ThreadCtl P) : Prop :=
    unwind_inv c' /\ c_active c' = a /\ others c c' /\
    exists t', c_threads c' !! a = Some t' /\ moves (c_at t) (cps t) (cps t').

  Lemma jump_spec c a t f r blk b c1 c' :
    unwind_inv c -> c_top (c_with_active c a) t f r -> tc_state t = Enabled ->
    block_of (cpos f) = Some blk -> next_ok (fc_func f) (bb_kind blk) b ->
    same_stacks (c_with_active c a) c1 -> c_jump c1 b c' -> step_spec c c' a t.
  Proof.
    intros Hi [Ht Hs] He Hb Hok Hss Hj. pose proof Hss as (Hp1 & Ha1 & Hth & _). cbn in Ht, Ha1.
    destruct (Hth _ _ Ht) as (t1 & Ht1 & Hs1 & Hpl & Hst).
    assert (Hi1 : unwind_inv c1) by exact (same_stacks_inv (c_with_active c a) c1 Hi Hss).
    assert (Htop : c_top c1 t1 f r) by (split; [by rewrite Ha1|congruence]).
    assert (Hnt : tc_state t1 <> Terminated) by (rewrite Hst; congruence).
    destruct (inv_jump c1 c' a t1 f r blk b Hi1 Ha1 Htop Hnt Hb Hok Hj) as (Hi' & t' & Ht' & Hcp & Hk).
    pose proof (jump_eq _ _ _ _ _ _ Htop Hj) as ->.
    split; [done|]. split; [done|]. split; [by eapply others_stacks|].
    exists t'. split; [done|]. rewrite Hcp. unfold cps. rewrite Hs. cbn [List.map].
    eapply mv_stay; [done| |exact Hk]. unfold kind_of. by rewrite Hb.
  Qed.

  Lemma step_moves c c' : unwind_inv c -> c_step c c' ->
    exists a t, c_threads c !! a = Some t /\ tc_state t = Enabled /\ step_spec c c' a t.
  Proof.
    intros Hi H. destruct H as [a t f r block s c1 t1 f1 r1 Ht He Hb Hst Hc Ht1|a t f r block c' Ht He Hb Hst Hc].
    - exists a, t. pose proof Ht as [Hta Hs]. cbn in Hta. split; [done|]. split; [done|].
      assert (Hinv : thread_inv t) by (destruct Hi as [_ Hi]; eauto).
      assert (Hnt : tc_state t <> Terminated) by congruence.
      assert (Hfr : frame_ok prog (cpos f)).
      { destruct Hinv as (_ & H2 & _). specialize (H2 Hnt). unfold cps in H2. rewrite Hs in H2. by eapply stack_ok_frame. }
      assert (Hkf : kind_of (cpos f) = Some (bb_kind block)) by (unfold kind_of, block_of; cbn; by rewrite Hb).
      assert (Hcase : exists ls, c_put c1 (tc_with_stack t1 (fc_at f1 (fc_block f1) (S (fc_stmt f1)) :: r1)) =
        c_put (c_with_active c a) (tc_with_stack t (fc_at (fc_with_locals f ls) (fc_block f) (S (fc_stmt f)) :: r)) ).
      { inversion Hc; subst.
        - destruct (c_top_fun _ _ _ _ _ _ _ Ht Ht1) as (-> & -> & ->). exists (fc_locals f). done.
        - destruct (c_top_fun _ _ _ _ _ _ _ Ht H) as (-> & -> & ->). exists ls. destruct Ht1 as [Ht1 Hs1].
          cbn in Ht1. rewrite list_lookup_insert in Ht1 by (by eapply lookup_lt_Some). injection Ht1 as <-.
          cbn in Hs1. injection Hs1 as <- <-. unfold c_put, c_with_threads. cbn. f_equal. rewrite list_insert_insert. done.
        - destruct (c_top_fun _ _ _ _ _ _ _ Ht H) as (-> & -> & ->). exists ls. destruct Ht1 as [Ht1 Hs1].
          cbn in Ht1. rewrite list_lookup_insert in Ht1 by (by eapply lookup_lt_Some). injection Ht1 as <-.
          cbn in Hs1. injection Hs1 as <- <-. unfold c_put, c_with_threads. cbn. f_equal. rewrite list_insert_insert. done. }
      destruct Hcase as [ls ->]. clear Hc Ht1.
      assert (Hfr' : frame_ok prog (cpos (fc_at f (fc_block f) (S (fc_stmt f))))).
      { destruct Hfr as [Hn _]. split; [exact Hn|]. exists block. split; [done|]. cbn.
        apply lookup_lt_Some in Hst. lia. }
      split; [|split; [done|split; [apply others_put|]]].
      + apply inv_put; [done|].
        assert (thread_inv (mkTCtl (fc_at f (fc_block f) (S (fc_stmt f)) :: r) (tc_state t) (tc_payloads t))) as Hx.
        { eapply inv_top; try done. }
        destruct Hx as (_ & Hx2 & Hx3). split; [done|]. split; [exact Hx2|exact Hx3].
      + eexists. split; [apply (c_top_put (c_with_active c a) t); done|]. unfold cps. rewrite Hs. cbn.
        eapply mv_stay; [done|exact Hkf|]. exact Hkf.
    - exists a, t. pose proof Ht as [Hta Hs]. cbn in Hta. split; [done|]. split; [done|].
      assert (Hinv : thread_inv t) by (destruct Hi as [_ Hi]; eauto).
      assert (Hnt : tc_state t <> Terminated) by congruence.
      assert (Hsk : stack_ok prog (cpos f :: List.map cpos r)).
      { destruct Hinv as (_ & H2 & _). specialize (H2 Hnt). unfold cps in H2. by rewrite Hs in H2. }
      assert (Hfr : frame_ok prog (cpos f)) by (by eapply stack_ok_frame).
      assert (Hbf : block_of (cpos f) = Some block) by done.
      assert (Hkf : kind_of (cpos f) = Some (bb_kind block)) by (unfold kind_of; by rewrite Hbf).
      pose proof (frame_term _ _ Hfr Hbf) as Hok. cbn [po_func cpos] in Hok.
      assert (Hat : c_at t (bb_terminator block)) by (exists f, r, block; done).
      assert (Hcnt : (count (cpos f :: List.map cpos r) <= length (tc_payloads t))%nat).
      { destruct Hinv as (_ & _ & H3). unfold cps in H3. by rewrite Hs in H3. }
      rewrite count_cons, (reg_kind _ _ Hkf) in Hcnt.
      inversion Hc as [b c2 Hj|v cases fb i b c2 Hbb Hj|callee conv args ret nb ub t2 n func ls p Ht2 Hn
        |t2 f2 r2 sync c2 Ht2 Hact Hr Ha0 Hsync Hc2|t2 f2 g r2 b ub p c2 Ht2 Hact Hc2|v b p t2 f2 r2 c2 Ht2 Hc2
        |b p ps t2 f2 r2 c2 Ht2 Hpl Hc2|t2 f2 g r2 b nb p c2 Ht2 Hact Hc2|op args ret b c2 c3 Hci Hj];
        clear Hc; match goal with E : _ = bb_terminator block |- _ => rewrite <-E in * end; cbn in Hok.
      + subst c2. eapply jump_spec; try done. apply same_stacks_refl.
      + subst c2. eapply jump_spec; try done; [|apply same_stacks_refl]. destruct Hok as [Hcs Hfb]. subst b.
        destruct (map_get cases i) as [b|] eqn:Eg; [|done]. apply map_get_in in Eg. rewrite Forall_forall in Hcs.
        apply elem_of_list_In in Eg. apply (Hcs _ Eg).
      + subst c'. assert (t2 = t) as -> by (cbn in Ht2; congruence). cbn in Hn.
        destruct Hi as [Hp Hi]. rewrite Hp in Hn.
        destruct (start_frame n func (BackToCaller nb ub p) Hn) as [Hf' Hk'].
        split; [|split; [done|split; [apply others_put|]]].
        * apply inv_put; [done|]. split; [done|]. rewrite Hs. split.
          -- intros _. unfold cps. cbn [List.map tc_stack tc_with_stack]. eapply so_call; [exact Hf'|done|exact Hbf|exact Hst| |exact Hsk].
             done.
          -- unfold cps. cbn [List.map tc_stack tc_with_stack tc_payloads]. rewrite count_cons. erewrite (reg_kind (cpos (mkFCtl _ _ _ _ _))) by exact Hk'.
             rewrite count_cons, (reg_kind _ _ Hkf). rewrite bool_decide_eq_true_2 by done. lia.
        * eexists. split; [apply (c_top_put (c_with_active c a) t); done|]. unfold cps. cbn [List.map tc_stack tc_with_stack].
          rewrite Hs. cbn [List.map]. eapply mv_call; [exact Hat|exact Hk'|done|done].
      + subst c2. destruct (c_top_fun _ _ _ _ _ _ _ Ht Ht2) as (-> & -> & ->). subst r. subst c'.
        assert (Hlook : forall i t', c_threads (c_terminate (c_with_active c a) (tc_with_stack t []) sync) !! i = Some t' ->
          exists t1, (if decide (i = a) then t1 = tc_with_state (tc_with_stack t []) Terminated else c_threads c !! i = Some t1) /\
            t' = (if bool_decide (tc_state t1 = BlockedOnJoin a) then tc_with_state t1 Enabled else t1)).
        { intros i t' Hl. cbn in Hl. rewrite list_lookup_fmap in Hl.
          destruct (decide (i = a)) as [->|Hne].
          - rewrite list_lookup_insert in Hl by (by eapply lookup_lt_Some). injection Hl as <-. eauto.
          - rewrite list_lookup_insert_ne in Hl by done. destruct (c_threads c !! i) as [t1|]; [|done]. injection Hl as <-. eauto. }
        split; [|split; [done|split]].
        * split; [apply Hi|]. intros i t' Hl. apply Hlook in Hl as (t1 & H1 & ->). destruct (decide (i = a)) as [->|Hne].
          -- subst t1. rewrite bool_decide_eq_false_2 by done. split; [done|]. split; [done|]. apply Nat.le_0_l.
          -- destruct Hi as [_ Hi]. apply Hi in H1. destruct (decide (tc_state t1 = BlockedOnJoin a)) as [Hbl|Hbl]; [rewrite bool_decide_eq_true_2 by done|by rewrite bool_decide_eq_false_2]. apply inv_state; [done|done|]. by rewrite Hbl.
        * intros i Hne. cbn in Hne. change (c_active (c_terminate _ _ _)) with a in *. cbn. rewrite list_lookup_fmap, list_lookup_insert_ne by done.
          destruct (c_threads c !! i) as [t1|]; cbn [fmap option_fmap option_map]; [|done].
          split; by case (bool_decide _).
        * eexists. split.
          -- cbn. rewrite list_lookup_fmap, list_lookup_insert by (by eapply lookup_lt_Some). done.
          -- cbn. unfold cps. rewrite Hs. cbn. apply mv_end; [exact Hat|by rewrite Hkf, Hok|done].
      + subst c2. destruct (c_top_fun _ _ _ _ _ _ _ Ht Ht2) as (-> & -> & Er). subst r c'.
        inversion Hsk as [|f0 g0 r0 bg callee conv args ret nb0 ub0 p0 Hfr0 Hact0 Hbg Hstg Htg Hskg]; subst.
        cbn in Hact0. rewrite Hact in Hact0. injection Hact0 as <- <- <-.
        assert (Hfg : frame_ok prog (cpos g)) by (by eapply stack_ok_frame).
        pose proof (frame_term _ _ Hfg Hbg) as Hokg. rewrite Htg in Hokg. destruct Hokg as [Hnx _].
        destruct (Hnx _ eq_refl) as (blk' & Hb' & Hk').
        destruct (next_frame _ _ _ Hfg Hb') as [Hfg' Hkg'].
        assert (Hkg : kind_of (cpos g) = Some (bb_kind bg)) by (unfold kind_of; by rewrite Hbg).
        rewrite Hk' in Hkg'.
        split; [|split; [done|split; [apply others_put|]]].
        * apply inv_put; [done|]. split; [done|]. split.
          -- intros _. unfold cps. cbn [List.map tc_stack tc_with_stack]. by eapply stack_ok_top.
          -- unfold cps. cbn [List.map tc_stack tc_with_stack tc_payloads] in *. rewrite count_cons in *.
             rewrite (reg_kind _ _ Hkg) in Hcnt. rewrite (reg_kind (cpos (fc_at g b 0)) _ Hkg'). lia.
        * eexists. split; [apply (c_top_put (c_with_active c a) t); done|]. unfold cps. cbn [List.map tc_stack tc_with_stack].
          rewrite Hs. cbn [List.map]. eapply mv_return; [exact Hat|by rewrite Hkf, Hok|exact Hact|done|done|exact Hkg|exact Hkg'].
      + subst c2. destruct (c_top_fun _ _ _ _ _ _ _ Ht Ht2) as (-> & -> & ->). subst c'.
        destruct Hok as [Hreg (blk' & Hb' & Hu)]. destruct (next_frame (cpos f) b blk' Hfr Hb') as [Hf' Hk'].
        split; [|split; [done|split; [apply others_put|]]].
        * apply inv_put; [done|]. eapply (inv_top t f r b 0 (p :: tc_payloads t)); try done.
          cbn. destruct (decide _), (decide _); lia.
        * eexists. split; [apply (c_top_put (c_with_active c a) t); done|]. unfold cps. cbn [List.map tc_stack tc_with_stack tc_with_payloads].
          rewrite Hs. cbn [List.map]. rewrite Hreg in *. eapply mv_start; [exact Hat|done|done|exact Hkf|exact Hk'|done].
      + subst c2. destruct (c_top_fun _ _ _ _ _ _ _ Ht Ht2) as (-> & -> & ->). subst c'.
        destruct Hok as [Hreg (blk' & Hb' & Hu)]. destruct (next_frame (cpos f) b blk' Hfr Hb') as [Hf' Hk'].
        rewrite Hu in Hk'. rewrite Hreg in *.
        split; [|split; [done|split; [apply others_put|]]].
        * apply inv_put; [done|]. eapply (inv_top t f r b 0 ps _ BkCatch BkRegular); try done.
          rewrite Hpl. rewrite decide_True, decide_False by done. cbn [length]. lia.
        * eexists. split; [apply (c_top_put (c_with_active c a) t); done|]. unfold cps. cbn [List.map tc_stack tc_with_stack tc_with_payloads].
          rewrite Hs. cbn [List.map]. eapply mv_stop; [exact Hat|done|done|exact Hkf|exact Hk'].
      + subst c2. destruct (c_top_fun _ _ _ _ _ _ _ Ht Ht2) as (-> & -> & Er). subst r c'.
        inversion Hsk as [|f0 g0 r0 bg callee conv args ret nb0 ub0 p0 Hfr0 Hact0 Hbg Hstg Htg Hskg]; subst.
        cbn in Hact0. rewrite Hact in Hact0. injection Hact0 as <- <- <-.
        assert (Hfg : frame_ok prog (cpos g)) by (by eapply stack_ok_frame).
        pose proof (frame_term _ _ Hfg Hbg) as Hokg. rewrite Htg in Hokg. destruct Hokg as [_ Hnx].
        destruct (Hnx _ eq_refl) as (blk' & Hb' & Hk').
        destruct (next_frame _ _ _ Hfg Hb') as [Hfg' Hkg'].
        assert (Hkg : kind_of (cpos g) = Some (bb_kind bg)) by (unfold kind_of; by rewrite Hbg).
        split; [|split; [done|split; [apply others_put|]]].
        * apply inv_put; [done|]. split; [done|]. split.
          -- intros _. unfold cps. cbn [List.map tc_stack tc_with_stack]. by eapply stack_ok_top.
          -- unfold cps. cbn [List.map tc_stack tc_with_stack tc_payloads] in *. rewrite count_cons in *.
             rewrite Hok in Hcnt. rewrite bool_decide_eq_false_2 in Hcnt by done. destruct (reg (cpos g)), (reg _); lia.
        * eexists. split; [apply (c_top_put (c_with_active c a) t); done|]. unfold cps. cbn [List.map tc_stack tc_with_stack].
          rewrite Hs. cbn [List.map]. eapply mv_resume; [exact Hat|by rewrite Hkf, Hok|exact Hact|done|done|exact Hkg|exact Hkg'|done].
      + subst c3. eapply jump_spec; [exact Hi|exact Ht|exact He|exact Hbf| |eapply (intrinsic_stacks _ _ _ t); [apply Hi|exact Hta|exact He|exact Hci]|exact Hj].
        by apply Hok.
  Qed.

  (** ** Reachable states *)

  Lemma start_unwind_inv (m : Mach) : starts T MO prog m -> unwind_inv (ctl m).
  Proof.
    intros (cs & rest & H). apply new_ctl in H as (_ & func & ls & Hf & E). rewrite E. split; [done|].
    intros i t Ht. cbn in Ht. destruct i as [|i]; [|done]. injection Ht as <-. apply fresh_inv.
    by exists (pr_start prog), func, ls.
  Qed.

  Lemma reach_unwind_inv (m : Mach) : reachable T MO prog m -> unwind_inv (ctl m).
  Proof.
    apply (reach_inv T MO (fun m => unwind_inv (ctl m))); [apply start_unwind_inv|].
    intros m1 m2 Hi [cs Hs]. pose proof (step_ctl T MO cs m1) as Hc. rewrite Hs in Hc. cbn in Hc.
    by apply step_moves in Hc as (a & t & _ & _ & H & _).
  Qed.

  Lemma thread_ctl (m : Mach) i t : m_threads m !! i = Some t -> c_threads (ctl m) !! i = Some (tctl t).
  Proof. intros H. rewrite ctl_thread. by rewrite H. Qed.

  Lemma reach_stack (m : Mach) i t : reachable T MO prog m -> m_threads m !! i = Some t ->
    (t_state t = Terminated -> t_stack t = []) /\ (t_state t <> Terminated -> stack_ok prog (positions t)) /\
    (length (unwinding (positions t)) <= length (t_payloads t))%nat.
  Proof.
    intros Hr Ht. apply reach_unwind_inv in Hr as [_ Hi]. apply thread_ctl in Ht. apply Hi in Ht as (H1 & H2 & H3).
    rewrite positions_ctl. split; [|split; [exact H2|exact H3]].
    intros E. apply H1 in E. cbn in E. by destruct (t_stack t).
  Qed.

  (** what a step does to the stacks *)
  Lemma reach_moves (m m' : Mach) : reachable T MO prog m -> steps_to T MO m m' ->
    (exists t t', m_threads m !! m_active m' = Some t /\ m_threads m' !! m_active m' = Some t' /\
       moves (at_terminator m (m_active m')) (positions t) (positions t')) /\
    forall i t', i <> m_active m' -> m_threads m' !! i = Some t' ->
      (exists t, m_threads m !! i = Some t /\ positions t' = positions t /\ t_payloads t' = t_payloads t) \/
      (m_threads m !! i = None /\ exists n func, map_get (pr_functions prog) n = Some func /\
         positions t' = [mkPos func BottomOfStack (fn_start func) 0]).
  Proof.
    intros Hr [cs Hs]. apply reach_unwind_inv in Hr. pose proof (step_ctl T MO cs m) as Hc. rewrite Hs in Hc. cbn in Hc.
    apply step_moves in Hc as (a & t & Ht & _ & Hi & Ha & Ho & t' & Ht' & Hm); [|done].
    change (m_active m' = a) in Ha. subst a. rewrite ctl_thread in Ht, Ht'.
    destruct (m_threads m !! m_active m') as [t0|] eqn:E0; [|done]. injection Ht as <-.
    destruct (m_threads m' !! m_active m') as [t1|] eqn:E1; [|done]. injection Ht' as <-.
    split.
    - exists t0, t1. split; [done|]. split; [done|]. rewrite !positions_ctl.
      assert (Hat : forall tm, c_at (tctl t0) tm -> at_terminator m (m_active m') tm).
      { intros tm (f & r & b & H1 & H2 & H3 & H4). cbn in H1. destruct (t_stack t0) as [|f0 r0] eqn:Es; [done|].
        cbn in H1. injection H1 as <- <-. exists f0, b. split; [|done]. by exists t0, r0. }
      revert Hm Hat. generalize (c_at (tctl t0)) (at_terminator m (m_active m')). clear.
      intros A B Hm Hat. destruct Hm; eauto using @moves.
    - intros i t' Hne Ht'. specialize (Ho i Hne). rewrite !ctl_thread, Ht' in Ho. cbn [option_map] in Ho.
      destruct (m_threads m !! i) as [t|] eqn:E; cbn [option_map] in Ho.
      + left. exists t. split; [done|]. rewrite !positions_ctl. destruct Ho as [H1 H2]. unfold cps. by rewrite H1.
      + right. split; [done|]. destruct Ho as (n & func & ls & Hn & E'). exists n, func. split; [done|].
        rewrite positions_ctl, E'. done.
  Qed.

  (** the payload for [StopUnwind] is there *)
  Lemma reach_payload (m : Mach) a b t : reachable T MO prog m -> m_threads m !! a = Some t ->
    t_state t <> Terminated -> at_terminator m a (TmStopUnwind b) -> t_payloads t <> [].
  Proof.
    intros Hr Ht Hnt (f & blk & (t0 & r & Ht0 & Hs & Hb) & Hst & Htm).
    assert (t0 = t) as -> by congruence.
    destruct (reach_stack _ _ _ Hr Ht) as (_ & H2 & H3). specialize (H2 Hnt).
    rewrite positions_ctl in H2, H3. unfold cps in *. cbn [tctl tc_stack] in *. rewrite Hs in *. cbn [List.map] in *.
    apply stack_ok_frame in H2. assert (Hbf : block_of (cpos (fctl f)) = Some blk) by done.
    pose proof (frame_term _ _ H2 Hbf) as Hok. rewrite Htm in Hok. destruct Hok as [Hk _].
    change (count (cpos (fctl f) :: List.map cpos (List.map fctl r)) <= length (t_payloads t))%nat in H3.
    rewrite count_cons in H3. rewrite (reg_kind _ BkCatch) in H3 by (unfold kind_of; rewrite Hbf; cbn; by rewrite Hk).
    rewrite bool_decide_eq_false_2 in H3 by done. intros E. rewrite E in H3. cbn in H3. lia.
  Qed.
End Unwind.
