(** The control part of the machine: everything but the memory and the borrow tracking data of the
    frames. Expressions do not change it; statements and terminators change it in few ways. *)
From Verif Require Export EvalRel.

Section Ctl.
  Context {P F M : Type} `{EqDecision P}.
  Variable T : Target.
  Variable MO : MemOps P F M.
  Notation Mach := (Machine P F M).

  Record FrameCtl := mkFCtl {
    fc_func : Function; fc_locals : list (LocalName * ThinPtr P); fc_action : StackPopAction P;
    fc_block : BbName; fc_stmt : nat }.
  Definition fctl (f : StackFrame P F) : FrameCtl :=
    mkFCtl (f_func f) (f_locals f) (f_action f) (f_block f) (f_stmt f).
  Record ThreadCtl := mkTCtl {
    tc_stack : list FrameCtl; tc_state : ThreadState; tc_payloads : list (ThinPtr P) }.
  Definition tctl (t : Thread P F) : ThreadCtl :=
    mkTCtl (List.map fctl (t_stack t)) (t_state t) (t_payloads t).
  Record Ctl := mkCtl {
    c_prog : Program; c_exposed : Exposed P; c_threads : list ThreadCtl; c_active : nat;
    c_sync : list nat; c_locks : list LockState; c_globals : list (GlobalName * ThinPtr P);
    c_fnptrs : list (FnName * ThinPtr P); c_vtptrs : list (VTableName * ThinPtr P);
    c_stdout : string; c_stderr : string }.
  Definition ctl (m : Mach) : Ctl :=
    mkCtl (m_prog m) (m_exposed m) (List.map tctl (m_threads m)) (m_active m) (m_sync m) (m_locks m)
      (m_globals m) (m_fnptrs m) (m_vtptrs m) (m_stdout m) (m_stderr m).

  Definition same (m m' : Mach) : Prop := ctl m' = ctl m.
  Lemma same_refl m : same m m.
  Proof. done. Qed.
  Lemma same_trans m1 m2 m3 : same m1 m2 -> same m2 m3 -> same m1 m3.
  Proof. unfold same. congruence. Qed.
  Lemma same_mem m mem : same m (set_mem m mem).
  Proof. done. Qed.

  Lemma map_insert_same {A B} (f : A -> B) (l : list A) i x y :
    l !! i = Some x -> f y = f x -> List.map f (<[i := y]> l) = List.map f l.
  Proof.
    revert i. induction l as [|z l IH]; intros [|i]; cbn; intros Hi Hf; try discriminate.
    - injection Hi as ->. by rewrite Hf.
    - f_equal. by apply IH.
  Qed.

  Lemma retag_ptr_same m ptr pt fe : post (retag_ptr MO m ptr pt fe) (fun r => same m (snd r)).
  Proof.
    unfold retag_ptr, set_cur_frame, cur_frame, active_thread. cbn.
    destruct (m_threads m !! m_active m) as [t|] eqn:Et; [|done]. cbn.
    destruct (t_stack t) as [|f r] eqn:Es; [done|]. cbn.
    destruct (cm_retag _ _ _ _ _ _ _) as [[[p mem] extra]| | |]; try done. cbn.
    unfold same, ctl. cbn. f_equal. eapply map_insert_same; [done|].
    unfold tctl. cbn. by rewrite Es.
  Qed.

  Lemma cm_load_same m p n a at_ :
    post (cm_load MO (m_mem m) p n a at_) (fun r => same m (set_mem m (snd r))).
  Proof. by apply post_intro. Qed.
  Lemma cm_store_same m p b a at_ :
    post (cm_store MO (m_mem m) p b a at_) (fun mem => same m (set_mem m mem)).
  Proof. by apply post_intro. Qed.

  Lemma typed_store_same m ptr v ty al at_ : post (typed_store T MO m ptr v ty al at_) (same m).
  Proof. apply typed_store_rel, cm_store_same. Qed.
  Lemma typed_load_same m ptr ty al at_ :
    post (typed_load T MO m ptr ty al at_) (fun r => same m (snd r)).
  Proof. apply typed_load_rel, cm_load_same. Qed.
  Lemma place_load_same m pl ty : post (place_load T MO m pl ty) (fun r => same m (snd r)).
  Proof. apply place_load_rel, cm_load_same. Qed.
  Lemma place_store_same m pl v ty : post (place_store T MO m pl v ty) (same m).
  Proof. apply place_store_rel, cm_store_same. Qed.
  Lemma deinit_same m p n a : post (deinit MO m p n a) (same m).
  Proof. apply deinit_rel, cm_store_same. Qed.
  Lemma map_st_same {A B} (f : Mach -> A -> Outcome (B * Mach)) l m :
    Forall (fun x => forall m, post (f m x) (fun r => same m (snd r))) l ->
    post (map_st f l m) (fun r => same m (snd r)).
  Proof. apply map_st_rel; [apply same_refl|apply same_trans]. Qed.
  Lemma encode_discr_same ptr tg m :
    post (encode_discriminant T (store_accessor T MO ptr) tg m) (same m).
  Proof. apply encode_discr_rel; [apply same_refl|apply same_trans|apply cm_store_same]. Qed.
  Lemma eval_value_same e m : post (eval_value T MO e m) (fun r => same m (snd r)).
  Proof. apply eval_value_rel; [apply same_refl|apply same_trans|apply cm_load_same|apply retag_ptr_same]. Qed.
  Lemma eval_place_same p m : post (eval_place T MO p m) (fun r => same m (snd r)).
  Proof. apply eval_place_rel; [apply same_refl|apply same_trans|apply cm_load_same|apply retag_ptr_same]. Qed.
  Lemma retag_val_same fe ty v m : post (retag_val MO fe ty v m) (fun r => same m (snd r)).
  Proof. apply retag_val_rel; [apply same_refl|apply same_trans|apply retag_ptr_same]. Qed.
End Ctl.
