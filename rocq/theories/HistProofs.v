(** Proofs: executions are histories of memory operations. *)
From Verif Require Export HistSpec EvalRel CtlStep SchedProofs BasicMemProofs.

Section Hist.
  Context {P F M : Type} `{EqDecision P}.
  Variable T : Target.
  Variable MO : MemOps P F M.
  Notation Mach := (Machine P F M).
  Notation Op := (MemOp P F).

  (** a history of allowed operations leads from one memory to the other *)
  Definition hist (A : Op -> Prop) (c c' : ConcMem M) : Prop :=
    exists ops, mem_run MO (cm_mem c) ops = Ret (cm_mem c') /\ forall op, op ∈ ops -> A op.
  Definition mhist A (m m' : Mach) : Prop := hist A (m_mem m) (m_mem m').

  Lemma hist_refl A c : hist A c c.
  Proof. exists []. split; [done|]. intros op H. by apply not_elem_of_nil in H. Qed.
  Lemma hist_trans A c1 c2 c3 : hist A c1 c2 -> hist A c2 c3 -> hist A c1 c3.
  Proof.
    intros (o1 & R1 & A1) (o2 & R2 & A2). exists (o1 ++ o2). split.
    - unfold mem_run in *. rewrite fold_m_app, R1. exact R2.
    - intros op [H|H]%elem_of_app; auto.
  Qed.
  Lemma hist_mono (A B : Op -> Prop) c c' : (forall op, A op -> B op) -> hist A c c' -> hist B c c'.
  Proof. intros HAB (o & R & HA). exists o. split; [done|]. auto. Qed.
  Lemma hist_one (A : Op -> Prop) c op m' : A op -> mem_op MO (cm_mem c) op = Ret m' -> hist A c (cm_set c m').
  Proof.
    intros HA E. exists [op]. split; [unfold mem_run; cbn; by rewrite E|]. by intros o ->%elem_of_list_singleton.
  Qed.
  Lemma mhist_refl A m : mhist A m m.
  Proof. apply hist_refl. Qed.
  Lemma mhist_trans A m1 m2 m3 : mhist A m1 m2 -> mhist A m2 m3 -> mhist A m1 m3.
  Proof. apply hist_trans. Qed.

  Section Allowed.
    Variable A : Op -> Prop.
    Definition loads := forall p n a, A (OpLoad p n a).
    Definition stores := forall p b a, A (OpStore p b a).
    Definition retags := forall f p pt fe lk, A (OpRetag f p pt fe lk).

    Lemma cm_store_hist c p b a at_ : stores -> post (cm_store MO c p b a at_) (hist A c).
    Proof.
      intros HA. apply post_intro. intros mem Hm. apply obind_ret in Hm as (mem' & Hm & [= <-]).
      exact (hist_one A c (OpStore p b a) mem' (HA _ _ _) Hm).
    Qed.
    Lemma cm_load_hist c p n a at_ : loads -> post (cm_load MO c p n a at_) (fun r => hist A c (snd r)).
    Proof.
      intros HA. apply post_intro. intros [b mem] Hm. apply obind_ret in Hm as ([b' mem'] & Hm & [= <- <-]).
      apply (hist_one A c (OpLoad p n a) mem' (HA _ _ _)). cbn. cbn in Hm. by rewrite Hm.
    Qed.
    Lemma Hload : loads -> forall m p n a at_, post (cm_load MO (m_mem m) p n a at_) (fun r => mhist A m (set_mem m (snd r))).
    Proof. intros HA m p n a at_. by apply cm_load_hist. Qed.
    Lemma Hstore : stores -> forall m p b a at_, post (cm_store MO (m_mem m) p b a at_) (fun mem => mhist A m (set_mem m mem)).
    Proof. intros HA m p b a at_. by apply cm_store_hist. Qed.
    Lemma set_cur_mem (m : Mach) f m' : set_cur_frame m f = Ret m' -> m_mem m' = m_mem m.
    Proof.
      unfold set_cur_frame. intros Hm. apply obind_ret in Hm as (t & _ & Hm).
      destruct (t_stack t); [done|]. by injection Hm as <-.
    Qed.
    Lemma Hretag : retags -> forall m ptr pt fe, post (retag_ptr MO m ptr pt fe) (fun r => mhist A m (snd r)).
    Proof.
      intros HA m ptr pt fe. apply post_intro. intros [p m'] E.
      unfold retag_ptr in E. apply obind_ret in E as (f & _ & E).
      apply obind_ret in E as ([[p1 mem] extra] & Hr & E). apply obind_ret in E as (m1 & Hm & [= -> ->]).
      apply set_cur_mem in Hm. unfold mhist. cbn [snd]. rewrite Hm. cbn.
      apply obind_ret in Hr as ([[p2 mem2] e2] & Hr & [= <- <- <-]).
      eapply (hist_one A _ (OpRetag _ _ _ _ _) mem2 (HA _ _ _ _ _)). cbn. rewrite Hr. done.
    Qed.

    Lemma typed_store_hist m ptr v ty al at_ : stores -> post (typed_store T MO m ptr v ty al at_) (mhist A m).
    Proof. intros HA. by apply typed_store_rel, Hstore. Qed.
    Lemma typed_load_hist m ptr ty al at_ : loads -> post (typed_load T MO m ptr ty al at_) (fun r => mhist A m (snd r)).
    Proof. intros HA. by apply typed_load_rel, Hload. Qed.
    Lemma place_load_hist m pl ty : loads -> post (place_load T MO m pl ty) (fun r => mhist A m (snd r)).
    Proof. intros HA. by apply place_load_rel, Hload. Qed.
    Lemma place_store_hist m pl v ty : stores -> post (place_store T MO m pl v ty) (mhist A m).
    Proof. intros HA. by apply place_store_rel, Hstore. Qed.
    Lemma deinit_hist m p n a : stores -> post (deinit MO m p n a) (mhist A m).
    Proof. intros HA. by apply deinit_rel, Hstore. Qed.
    Lemma map_st_hist {X Y} (f : Mach -> X -> Outcome (Y * Mach)) l m :
      Forall (fun x => forall m, post (f m x) (fun r => mhist A m (snd r))) l ->
      post (map_st f l m) (fun r => mhist A m (snd r)).
    Proof. apply map_st_rel; [apply mhist_refl|apply mhist_trans]. Qed.
    Lemma encode_discr_hist ptr tg m : stores -> post (encode_discriminant T (store_accessor T MO ptr) tg m) (mhist A m).
    Proof. intros HA. apply encode_discr_rel; [apply mhist_refl|apply mhist_trans|by apply Hstore]. Qed.
    Lemma eval_value_hist e m : loads -> retags -> post (eval_value T MO e m) (fun r => mhist A m (snd r)).
    Proof. intros HL HR. apply eval_value_rel; [apply mhist_refl|apply mhist_trans|by apply Hload|by apply Hretag]. Qed.
    Lemma eval_place_hist p m : loads -> retags -> post (eval_place T MO p m) (fun r => mhist A m (snd r)).
    Proof. intros HL HR. apply eval_place_rel; [apply mhist_refl|apply mhist_trans|by apply Hload|by apply Hretag]. Qed.
    Lemma retag_val_hist fe ty v m : retags -> post (retag_val MO fe ty v m) (fun r => mhist A m (snd r)).
    Proof. intros HR. apply retag_val_rel; [apply mhist_refl|apply mhist_trans|by apply Hretag]. Qed.
    Lemma eval_argument_hist (m : Mach) a : loads -> retags -> stores -> post (eval_argument T MO m a) (fun r => mhist A m (snd r)).
    Proof.
      intros HL HR HS. destruct a as [e|p]; cbn; [by apply eval_value_hist|].
      apply wp_bind. eapply wp_mono; [by apply eval_place_hist|]. intros [[pl ty] m1] H1.
      apply wp_bind. eapply wp_mono; [by apply place_load_hist|]. intros [v m2] H2.
      apply wp_bind. unfold prepare_for_inplace_passing. do 2 (apply post_bind_skip; intros ?).
      eapply wp_mono; [by apply deinit_hist|]. intros m3 H3. cbn in *. eauto using mhist_trans.
    Qed.

    Definition frees := forall p s a, A (OpDeallocate p AStack s a).
    Definition allocs := forall s a ad, A (OpAllocate AStack s a ad).
    Lemma storage_dead_hist (f : StackFrame P F) mem l : frees ->
      post (storage_dead T MO f mem l) (fun r => hist A mem (snd r) /\ f_extra (fst r) = f_extra f /\ f_action (fst r) = f_action f).
    Proof.
      intros HA. apply post_intro. intros [f' mem'] E. unfold storage_dead in E.
      apply obind_ret in E as (ty & _ & E). apply obind_ret in E as (s & _ & E). apply obind_ret in E as (al & _ & E).
      destruct (map_get (f_locals f) l) as [p|].
      - apply obind_ret in E as (mem1 & Hd & [= <- <-]). apply obind_ret in Hd as (mem2 & Hd & [= <-]).
        split; [|done]. exact (hist_one A _ (OpDeallocate _ _ _ _) mem2 (HA _ _ _) Hd).
      - injection E as <- <-. split; [apply hist_refl|done].
    Qed.
    Lemma cm_alloc_hist c k s al ad p c' : A (OpAllocate k s al ad) -> cm_allocate MO c k s al ad = Ret (p, c') -> hist A c c'.
    Proof.
      intros HA Hm. apply obind_ret in Hm as ([p' mem3] & Hm & [= <- <-]).
      apply (hist_one A _ (OpAllocate k s al ad) mem3 HA). cbn. by rewrite Hm.
    Qed.
    Lemma storage_live_hist (f : StackFrame P F) mem l cs : frees -> allocs ->
      post (storage_live T MO f mem l cs) (fun r => hist A mem (snd (fst r))).
    Proof.
      intros HF HA. apply post_intro. intros [[f' mem'] cs'] E. unfold storage_live in E. apply obind_ret in E as ([f1 mem1] & Hd & E).
      pose proof (storage_dead_hist f mem l HF) as Hk. rewrite Hd in Hk. destruct Hk as [Hk _].
      apply obind_ret in E as (ty & _ & E). apply obind_ret in E as (s & _ & E). apply obind_ret in E as (al & _ & E).
      apply obind_ret in E as ([ad cs1] & _ & E). apply obind_ret in E as ([p mem2] & Hm & [= <- <- <-]).
      apply cm_alloc_hist in Hm; [|apply HA]. cbn in *. by eapply hist_trans.
    Qed.

    Lemma create_frame_hist (m : Mach) func action conv rty args cs : frees -> allocs -> stores ->
      post (create_frame T MO m func action conv rty args cs) (fun '(f, m', _) => mhist A m m').
    Proof.
      intros HF HA HS. unfold create_frame. apply wp_bind. eapply wp_mono.
      { apply (wp_fold_m _ True (fun i '(f, mem, _) => hist A (m_mem m) mem)).
        - apply hist_refl.
        - intros i x [[f mem] cs1] _ Hi. eapply wp_mono; [by apply storage_live_hist|].
          intros [[f1 mem1] cs2] Hl. cbn [fst snd] in *. by eapply hist_trans. }
      intros [[f mem] cs1] Hi. destruct (negb _); [done|]. apply post_bind_skip. intros ret.
      apply post_bind_skip. intros ok. destruct (negb _); [done|]. destruct (negb _); [done|].
      apply wp_bind. set (m0 := set_mem m mem). eapply wp_mono with (Q := mhist A m0).
      - assert (forall l1 l2 m1, mhist A m0 m1 -> post (fold_m2 (fun m callee_local arg =>
            let! ty := unwrap (map_get (fn_locals func) callee_local) in
            let! ok := check_abi_compatibility (snd arg) ty in
            if negb ok then throw_ub "call ABI violation: argument types are not compatible" else
            let! align := align_of T (snd arg) in
            let! ptr := unwrap (map_get (f_locals f) callee_local) in
            expect_ok (typed_store T MO m ptr (fst arg) (snd arg) align NonAtomic)) l1 l2 m1) (mhist A m0)) as Hl;
          [|by apply Hl, mhist_refl].
        induction l1 as [|x l1 IH]; intros [|[v ty] l2] m1 H1; try done. cbn [fold_m2].
        apply wp_bind. eapply wp_mono with (Q := mhist A m0); [|intros m2 H2; by apply IH].
        do 2 (apply post_bind_skip; intros ?). destruct (negb _); [done|].
        do 2 (apply post_bind_skip; intros ?). pose proof (typed_store_hist m1 a2 (fst (v, ty)) (snd (v, ty)) a1 NonAtomic HS) as Hs.
        destruct (typed_store _ _ _ _ _ _ _); try done. cbn in *. eauto using mhist_trans.
      - intros m1 H1. cbn. by eapply hist_trans.
    Qed.

    Lemma load_raw_data_hist (m : Mach) p pt : loads -> post (load_raw_data MO m p pt) (fun r => mhist A m (snd r)).
    Proof.
      intros HL. unfold load_raw_data. destruct pt; try done. destruct (pi_layout _); try done.
      apply wp_bind. eapply wp_mono; [by apply cm_load_hist|]. intros [b mem] H1. by destruct (bytes_data b).
    Qed.
    Lemma dealloc_locals_hist (f : StackFrame P F) mem : frees ->
      post (dealloc_locals T MO f mem) (fun r => hist A mem (snd r) /\ f_extra (fst r) = f_extra f /\ f_action (fst r) = f_action f).
    Proof.
      intros HF. unfold dealloc_locals. apply (wp_fold_m _ True (fun i r => hist A mem (snd r) /\ f_extra (fst r) = f_extra f /\ f_action (fst r) = f_action f)).
      - split; [apply hist_refl|done].
      - intros i x [f1 mem1] Hx (Hi & He & Ha). eapply wp_mono; [by apply storage_dead_hist|].
        intros [f2 mem2] (H2 & E2 & A2). cbn [fst snd] in *. split; [by eapply hist_trans|]. split; congruence.
    Qed.
    Lemma end_call_hist c f c' : A (OpEndCall f) -> cm_end_call MO c f = Ret c' -> hist A c c'.
    Proof. intros HA E. apply obind_ret in E as (mem1 & E & [= <-]). exact (hist_one A _ (OpEndCall f) mem1 HA E). Qed.
  End Allowed.

  Lemma jump_mem_same (m : Mach) b m' : jump_to_block m b = Ret m' -> m_mem m' = m_mem m.
  Proof. unfold jump_to_block. intros E. apply obind_ret in E as (f & _ & E). by apply set_cur_mem in E. Qed.
  Lemma terminate_mem (m m' : Mach) : terminate_active_thread m = Ret m' -> m_mem m' = m_mem m.
  Proof.
    unfold terminate_active_thread. destruct (_ =? _)%nat; [done|]. intros E.
    apply obind_ret in E as (t & Ht & E). by apply obind_ret in E as (u & _ & [= <-]).
  Qed.

  (** ** Statements *)

  Lemma statement_hist fr s (m : Mach) cs : post (eval_statement T MO s m cs) (fun r => mhist (may_do fr (inl s)) m (fst r)).
  Proof.
    destruct s as [d e|p|d v|p fe|p|l|l]; cbn [eval_statement].
    - set (A := may_do fr _). assert (loads A) by (by left). assert (retags A) by done. assert (stores A) by done.
      apply wp_bind. eapply wp_mono; [by apply (eval_place_hist A)|]. intros [[pl ty] m1] H1'.
      apply wp_bind. eapply wp_mono; [by apply (eval_value_hist A)|]. intros [[v vt] m2] H2'.
      apply wp_bind. eapply wp_mono; [by apply (place_store_hist A)|]. intros m3 H3'. cbn in *. eauto using mhist_trans.
    - apply wp_bind. eapply wp_mono; [apply (eval_place_hist (may_do fr (inl (SPlaceMention p)))); [by left|done]|]. by intros [[pl ty] m1] H1'.
    - set (A := may_do fr _). assert (loads A) by (by left). assert (retags A) by done. assert (stores A) by done.
      apply wp_bind. eapply wp_mono; [by apply (eval_place_hist A)|]. intros [[pl ty] m1] H1'.
      destruct ty; try done. destruct (negb _); [done|]. apply post_bind_skip. intros var.
      apply wp_bind. eapply wp_mono; [by apply (encode_discr_hist A)|]. intros m2 H2'. cbn in *. eauto using mhist_trans.
    - set (A := may_do fr _). assert (loads A) by (by left). assert (retags A) by done. assert (stores A) by done.
      apply wp_bind. eapply wp_mono; [by apply (eval_place_hist A)|]. intros [[pl ty] m1] H1'.
      apply wp_bind. eapply wp_mono; [by apply (place_load_hist A)|]. intros [v m2] H2'.
      apply wp_bind. eapply wp_mono; [by apply (retag_val_hist A)|]. intros [w m3] H3'.
      apply wp_bind. eapply wp_mono; [by apply (place_store_hist A)|]. intros m4 H4'. cbn in *. eauto 6 using mhist_trans.
    - set (A := may_do fr _). assert (loads A) by (by left). assert (retags A) by done. assert (stores A) by done.
      apply wp_bind. eapply wp_mono; [by apply (eval_place_hist A)|]. intros [[pl ty] m1] H1'.
      destruct (negb _); [done|]. apply post_bind_skip. intros sz.
      apply wp_bind. eapply wp_mono; [by apply (deinit_hist A)|]. intros m2 H2'. cbn in *. eauto using mhist_trans.
    - apply post_bind_skip. intros f. apply wp_bind. eapply wp_mono.
      { apply (storage_live_hist (may_do fr (inl (SStorageLive l)))); intros ???; left; by exists l. }
      intros [[f1 mem] cs1] Hl. apply wp_bind, post_intro. intros m' Hm'. apply set_cur_mem in Hm'.
      cbn [wp fst snd] in *. unfold mhist. by rewrite Hm'.
    - apply post_bind_skip. intros f. apply wp_bind. eapply wp_mono.
      { apply (storage_dead_hist (may_do fr (inl (SStorageDead l)))); intros ???; right; left; by exists l. }
      intros [f1 mem] [Hl _]. apply wp_bind, post_intro. intros m' Hm'. apply set_cur_mem in Hm'.
      cbn [wp fst snd] in *. unfold mhist. by rewrite Hm'.
  Qed.

  (** ** Intrinsics *)

  Local Ltac cases :=
    repeat match goal with |- wp _ (match ?x with _ => _ end) _ => destruct x; try exact I end.

  Lemma intrinsic_hist fr (m : Mach) op args rty cs args' ret nb :
    post (eval_intrinsic T MO m op args rty cs) (fun '(_, m', _) => mhist (may_do fr (inr (TmIntrinsic op args' ret nb))) m m').
  Proof.
    set (A := may_do fr _). assert (HL : loads A) by (by left). assert (HR : retags A) by done. assert (HS : stores A) by done.
    assert (Hr : forall m1 : Mach, m_mem m1 = m_mem m -> mhist A m m1) by (intros m1 E; unfold mhist; rewrite E; apply hist_refl).
    destruct op as [| | | | | | | | | | | | |iop|lop| | |]; cbn [eval_intrinsic]; try done.
    - cases; apply post_bind_skip; intros _; cases; by apply Hr.
    - by apply post_bind_skip.
    - do 2 (apply post_bind_skip; intros ?). by apply Hr.
    - do 2 (apply post_bind_skip; intros ?). by apply Hr.
    - cases. apply post_bind_skip. intros [ad cs1]. apply wp_bind, post_intro. intros [p mem] Hm.
      apply (cm_alloc_hist A) in Hm; [done|]. by exists args', ret, nb.
    - cases. apply post_bind_skip. intros ?. apply wp_bind, post_intro. intros mem Hm.
      apply obind_ret in Hm as (mem3 & Hm & [= <-]). eapply (hist_one A _ (OpDeallocate _ _ _ _) mem3); [|exact Hm]. by exists args', ret, nb.
    - cases. apply post_bind_skip. intros func. cases. apply wp_bind. unfold spawn. apply wp_bind. unfold new_thread.
      apply wp_bind. eapply wp_mono; [apply (create_frame_hist A)|].
      + intros ???. do 2 right. by left.
      + intros ???. by right.
      + done.
      + by intros [[f m1] cs1] H1.
    - cases. apply post_bind_skip. intros _. apply wp_bind.
      unfold Step.join. destruct (list_get _ _) as [tj|] eqn:E; [|done].
      destruct (t_state tj) eqn:Es; try done; cbn [wp]; try (apply post_bind_skip; intros ?); by apply Hr.
    - cases. apply wp_bind. eapply wp_mono; [by apply (load_raw_data_hist A)|].
      intros [b1 m1] H1. apply wp_bind. eapply wp_mono; [by apply (load_raw_data_hist A)|].
      intros [b2 m2] H2. cbn in *. eauto using mhist_trans.
    - cases. apply post_bind_skip. intros l. cases.
      apply post_bind_skip. intros _. apply wp_bind. eapply wp_mono; [by apply (typed_store_hist A)|]. done.
    - cases. apply post_bind_skip. intros l. cases.
      apply wp_bind. eapply wp_mono; [by apply (typed_load_hist A)|]. by intros [v m1] H1.
    - cases. apply post_bind_skip. intros l.
      apply post_bind_skip. intros al. cases.
      apply wp_bind. eapply wp_mono; [by apply (typed_load_hist A)|]. intros [v' m1] H1.
      case_match; [|done].
      apply wp_bind. eapply wp_mono; [by apply (typed_store_hist A)|]. intros m2 H2. cbn in *. eauto using mhist_trans.
    - cases. apply post_bind_skip. intros l.
      apply post_bind_skip. intros al. cases.
      apply wp_bind. eapply wp_mono; [by apply (typed_load_hist A)|]. intros [v' m1] H1.
      cases. apply post_bind_skip. intros nx.
      apply wp_bind. eapply wp_mono; [by apply (typed_store_hist A)|]. intros m2 H2. cbn in *. eauto using mhist_trans.
    - destruct lop.
      + cases. apply post_bind_skip. intros _. apply wp_bind.
        unfold lock_acquire. destruct (list_get _ _) as [[|o]|]; [by apply Hr| |done].
        apply post_bind_skip. intros ?. by apply Hr.
      + cases. apply post_bind_skip. intros _. apply wp_bind.
        unfold lock_release. destruct (list_get _ _) as [[|o]|]; [done| |done]. destruct (negb _); [done|].
        destruct (some_thread_in _ _).
        * apply post_bind_skip. intros [w cs1]. apply post_bind_skip. intros ta. by apply Hr.
        * by apply Hr.
      + destruct args; [|done]. destruct rty; try done. by apply Hr.
    - cases. by apply Hr.
    - cases. apply post_bind_skip. intros [pr cs1]. apply post_bind_skip. intros p. by apply Hr.
    - cases. apply post_bind_skip. intros ta. destruct (head _); [|done]. by apply Hr.
  Qed.

  (** ** Terminators *)

  Lemma terminator_hist fr tm (m : Mach) cs : cur_frame m = Ret fr ->
    post (eval_terminator T MO tm m cs) (fun r => mhist (may_do fr (inr tm)) m (fst r)).
  Proof.
    intros Hcur. set (A := may_do fr (inr tm)).
    assert (Hjump : forall m1 b m2, jump_to_block m1 b = Ret m2 -> mhist A m m1 -> mhist A m m2).
    { intros m1 b m2 E Ho. unfold mhist. by rewrite (jump_mem_same _ _ _ E). }
    assert (Hpop : forall f m1, pop_frame m = Ret (f, m1) -> f = fr /\ m_mem m1 = m_mem m).
    { intros f m1 Hp. unfold pop_frame in Hp. unfold cur_frame in Hcur. apply obind_ret in Hp as (t & Ht & Hp).
      rewrite Ht in Hcur. cbn in Hcur. destruct (t_stack t); [done|]. injection Hp as <- <-. by injection Hcur as <-. }
    destruct tm as [b|v cs'' fb| |op args ret nb|callee conv args ret nb ub| |v b|b|]; cbn [eval_terminator].
    - apply wp_bind, post_intro. intros m1 E. cbn. eapply Hjump; [done|]. apply mhist_refl.
    - apply wp_bind. eapply wp_mono; [apply (eval_value_hist A); [by left|done]|]. intros [[w wt] m1] H1. cbn in H1.
      destruct w as [i| | | | |]; try done. apply wp_bind, post_intro. intros m2 H2. cbn. by eapply Hjump.
    - done.
    - apply wp_bind. eapply wp_mono; [apply (eval_place_hist A); [by left|done]|]. intros [[pl ty] m1] H1. cbn in H1.
      apply wp_bind. eapply wp_mono.
      { apply (map_st_hist A). apply Forall_true. intros e m'. apply eval_value_hist; [by left|done]. }
      intros [vs m2] H2. cbn in H2. apply wp_bind. eapply wp_mono; [apply (intrinsic_hist fr)|].
      intros [[v m3] cs1] H3. apply wp_bind. eapply wp_mono; [by apply (place_store_hist A)|].
      intros m4 H4. destruct nb as [b|]; [|done]. apply wp_bind, post_intro. intros m5 H5. cbn.
      eapply Hjump; [done|]. eauto 6 using mhist_trans.
    - assert (HL : loads A) by (by left). assert (HR : retags A) by done. assert (HS : stores A) by done.
      apply wp_bind. eapply wp_mono; [by apply (eval_place_hist A)|]. intros [[pl ty] m1] H1. cbn in H1.
      apply wp_bind. unfold prepare_for_inplace_passing. do 2 (apply post_bind_skip; intros ?).
      eapply wp_mono; [by apply (deinit_hist A)|]. intros m2 H2.
      apply wp_bind. eapply wp_mono; [by apply (eval_value_hist A)|]. intros [[fv ft] m3] H3. cbn in H3.
      apply post_bind_skip. intros func.
      apply wp_bind. eapply wp_mono.
      { apply (map_st_hist A). apply Forall_true. intros e m'. by apply eval_argument_hist. }
      intros [vs m4] H4. cbn in H4. unfold eval_call. apply wp_bind. eapply wp_mono; [apply (create_frame_hist A)|].
      + intros ???. do 2 right. by left.
      + intros ???. by right.
      + done.
      + intros [[f m5] cs1] H5. apply post_bind_skip. intros t. cbn [wp fst].
        change (mhist A m m5). eauto 8 using mhist_trans.
    - assert (HL : loads A) by (by right). assert (HS : stores A) by done.
      assert (HF : frees A) by (intros ???; do 3 right; by left).
      apply wp_bind, post_intro. intros [f m1] Hp. apply Hpop in Hp as [-> Em1].
      apply post_bind_skip. intros cty. apply post_bind_skip. intros al. apply post_bind_skip. intros rp.
      apply wp_bind. eapply wp_mono; [by apply (typed_load_hist A)|]. intros [rv m2] H2. cbn [snd] in *.
      apply wp_bind. eapply wp_mono; [by apply (dealloc_locals_hist A)|]. intros [f1 mem1] (Hk & Hex & Hac). cbn [fst snd] in *.
      apply wp_bind, post_intro. intros mem2 He. apply (end_call_hist A) in He; [|split; [by left|done]].
      assert (Hbase : mhist A m (set_mem m2 mem2)).
      { unfold mhist in *. rewrite Em1 in H2. cbn. eauto using hist_trans. }
      rewrite Hac. destruct (f_action fr) as [|nb ub p] eqn:Ea.
      + apply wp_bind, post_intro. intros m3 H3. apply terminate_mem in H3. cbn [wp fst]. unfold mhist. by rewrite H3.
      + apply post_bind_skip. intros u. apply post_bind_skip. intros ?.
        apply wp_bind. eapply wp_mono; [by apply (typed_store_hist A)|]. intros m3 H3.
        destruct nb as [b|]; [|done]. apply wp_bind, post_intro. intros m4 H4. cbn.
        eapply Hjump; [done|]. by eapply mhist_trans.
    - apply wp_bind. eapply wp_mono; [apply (eval_value_hist A); [by left|done]|]. intros [[w wt] m1] H1. cbn in H1.
      destruct w as [| |p| | |]; try done. destruct wt as [| |pt| | | | | |]; try done.
      cases. apply post_bind_skip. intros t. apply wp_bind, post_intro. intros m2 H2. cbn. by eapply Hjump.
    - apply post_bind_skip. intros t. destruct (t_payloads t) as [|p ps] eqn:Ep; [done|].
      apply wp_bind, post_intro. intros m2 H2. cbn. eapply Hjump; [done|]. apply hist_refl.
    - assert (HF : frees A) by (intros ???; do 3 right; by right).
      apply wp_bind, post_intro. intros [f m1] Hp. apply Hpop in Hp as [-> Em1].
      apply wp_bind. eapply wp_mono; [by apply (dealloc_locals_hist A)|]. intros [f1 mem1] (Hk & Hex & Hac). cbn [fst snd] in *.
      apply wp_bind, post_intro. intros mem2 He. apply (end_call_hist A) in He; [|split; [by right|done]].
      assert (Hbase : mhist A m (set_mem m1 mem2)).
      { unfold mhist in *. rewrite Em1 in Hk. cbn. eauto using hist_trans. }
      rewrite Hac. destruct (f_action fr) as [|nb ub p] eqn:Ea; [done|]. destruct ub as [b|]; [|done].
      apply wp_bind, post_intro. intros m4 H4. cbn. by eapply Hjump.
  Qed.

  (** ** Steps *)

  Theorem step_hist cs (m m' : Mach) : step T MO cs m = Ret m' ->
    exists fr x, about_to m (m_active m') fr x /\ mhist (may_do fr x) m m'.
  Proof.
    unfold step. destruct (negb _); [done|].
    destruct (reset_data_race_tracking m) as [[ps pa] m0] eqn:Er.
    assert (H0 : m_threads m0 = m_threads m /\ cm_mem (m_mem m0) = cm_mem (m_mem m)).
    { unfold reset_data_race_tracking in Er. destruct (cm_reset_accesses _) as [a b] eqn:Ec.
      injection Er as _ _ <-. split; [done|]. cbn. by injection Ec as _ <-. }
    destruct H0 as (H0t & H0v). intros E.
    apply obind_ret in E as ([a cs1] & Ha & E). set (m1 := set_active m0 a) in *.
    apply obind_ret in E as (f & Hf & E). apply obind_ret in E as (block & Hb & E). apply unwrap_ret in Hb.
    apply obind_ret in E as ([m2 cs2] & E2 & E). apply obind_ret in E as (u & _ & [= <-]).
    assert (exists t r, m_threads m !! a = Some t /\ t_stack t = f :: r) as (t & r & Ht & Hs).
    { pose proof Hf as Hf'. unfold cur_frame in Hf'. apply obind_ret in Hf' as (t & Ht & Hf'). unfold active_thread in Ht. apply unwrap_ret in Ht.
      destruct (t_stack t) as [|g r] eqn:Es; [done|]. injection Hf' as <-. exists t, r.
      change (m_threads m0 !! a = Some t) in Ht. rewrite H0t in Ht. done. }
    destruct (Nat.eqb_spec (f_stmt f) (length (bb_statements block))) as [Hn|Hn].
    - pose proof (terminator_hist f (bb_terminator block) m1 cs1 Hf) as Ho. rewrite E2 in Ho.
      pose proof (terminator_ctl T MO (bb_terminator block) m1 cs1) as Hc. rewrite E2 in Hc. cbn [wp fst] in *.
      apply c_term_active in Hc. change (m_active m2 = a) in Hc. exists f, (inr (bb_terminator block)). rewrite Hc. split.
      + by exists t, r, block.
      + unfold mhist, hist in *. change (m_mem m1) with (m_mem m0) in Ho. by rewrite H0v in Ho.
    - apply obind_ret in E2 as (s & Hst & E2). apply unwrap_ret in Hst. apply obind_ret in E2 as ([m3 cs3] & E3 & E2).
      apply obind_ret in E2 as (f2 & Hf2 & E2). apply obind_ret in E2 as (m4 & Hm4 & [= -> ->]).
      pose proof (statement_hist f s m1 cs1) as Ho. rewrite E3 in Ho.
      pose proof (statement_ctl T MO s m1 cs1) as Hc. rewrite E3 in Hc. cbn [wp fst] in *.
      pose proof (set_cur_mem _ _ _ Hm4) as Em.
      apply set_cur_frame_ctl in Hm4 as (t3 & f3 & r3 & Ht3 & E4).
      assert (Ha2 : m_active m2 = a).
      { change (c_active (ctl m2) = a). rewrite E4. change (c_active (ctl m3) = a). by inversion Hc. }
      exists f, (inl s). rewrite Ha2. split.
      + by exists t, r, block.
      + unfold mhist, hist in *. rewrite Em. change (m_mem m1) with (m_mem m0) in Ho. by rewrite H0v in Ho.
  Qed.

  (** ** The start *)

  Lemma alloc_all_hist {X} k (sa : X -> Size * Align) mem cs l : k <> AHeap ->
    post (alloc_all MO k sa mem cs l) (fun '(_, mem', _) => hist start_op mem mem').
  Proof.
    intros Hk. unfold alloc_all. apply (wp_fold_m _ True (fun _ '(_, mem', _) => hist start_op mem mem')); [apply hist_refl|].
    intros i [n x] [[ptrs mem1] cs1] _ H1. cbn [fst snd]. destruct (sa x) as [s al]. apply post_bind_skip. intros [ad cs2].
    apply wp_bind, post_intro. intros [p mem2] Hm. apply (cm_alloc_hist start_op) in Hm; [|by destruct k]. cbn. by eapply hist_trans.
  Qed.
  Lemma start_hist prog (m : Mach) : starts T MO prog m -> hist start_op (cm_new MO) (m_mem m).
  Proof.
    intros (cs & rest & E).
    assert (post (machine_new T MO prog cs) (fun r => hist start_op (cm_new MO) (m_mem (fst r)))) as Hp; [|by rewrite E in Hp].
    clear E. unfold machine_new. apply post_bind_skip. intros _.
    apply wp_bind. eapply wp_mono; [by apply alloc_all_hist|]. intros [[gl mem1] cs1] H1.
    apply wp_bind. eapply wp_mono with (Q := hist start_op mem1).
    { unfold fill_globals. apply (wp_fold_m _ True (fun _ mem' => hist start_op mem1 mem')); [apply hist_refl|].
      intros i [n g] mem2 _ H2. apply post_bind_skip. intros bytes. apply post_bind_skip. intros ptr.
      pose proof (cm_store_hist start_op mem2 ptr bytes (g_align g) NonAtomic ltac:(done)) as Hs.
      destruct (cm_store _ _ _ _ _ _); try done. cbn in *. by eapply hist_trans. }
    intros mem2 H2. apply wp_bind. eapply wp_mono; [by apply alloc_all_hist|]. intros [[fp mem3] cs3] H3.
    apply wp_bind. eapply wp_mono; [by apply alloc_all_hist|]. intros [[vp mem4] cs4] H4.
    apply post_bind_skip. intros func. apply wp_bind. unfold new_thread. apply wp_bind.
    eapply wp_mono; [by apply (create_frame_hist start_op)|]. intros [[f m1] cs5] H5. cbn. unfold mhist in H5. cbn in H5.
    eauto 8 using hist_trans.
  Qed.
End Hist.
