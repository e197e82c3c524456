(** Progress (C47) and type soundness of evaluation (C48). *)
From Verif Require Import SafeProg ExSafe PropsOwn.
Local Open Scope Z_scope.

(** * C47 Panics *)

(** an accepted program that can reach a panic *)
Definition can_panic {P F M} `{EqDecision P} (T : Target) (MO : MemOps P F M) (prog : Program) : Prop :=
  program_check_wf T prog = Ret tt /\ exists m cs, reachable T MO prog m /\ step T MO cs m = Panic.
Lemma panics_can {P F M} `{EqDecision P} T (MO : MemOps P F M) prog cs0 css cs :
  panics T MO prog cs0 css cs = true -> can_panic T MO prog.
Proof. intros H. apply panics_ok in H as [H1 (m & H2 & H3)]. split; [done|]. by exists m, cs. Qed.

(** Programs that pass the well-formedness check can panic, because of what the check leaves open: constants that
    are not valid at their type, ... *)
Theorem C47_constant_refuted : exists prog, can_panic x86_64 (BasicOps x86_64) prog.
Proof. exists null_prog. exact (panics_can _ _ _ _ _ _ null_panics). Qed.
Print Assumptions C47_constant_refuted.
(** ... pointers to globals that are too small, ... *)
Theorem C47_global_refuted : exists prog, pr_globals prog <> [] /\ can_panic x86_64 (BasicOps x86_64) prog.
Proof. exists global_prog. split; [done|]. exact (panics_can _ _ _ _ _ _ global_panics). Qed.
Print Assumptions C47_global_refuted.
(** ... intrinsics that return a pointer that is not valid at the type of the place it is stored to, ... *)
Theorem C47_allocate_refuted : exists prog, can_panic x86_64 (BasicOps x86_64) prog /\
  (forall func b tm, In func (List.map snd (pr_functions prog)) -> In b (List.map snd (fn_blocks func)) -> bb_terminator b = tm ->
     forall op args ret nb, tm = TmIntrinsic op args ret nb -> op = InAllocate \/ op = InExit).
Proof.
  exists alloc_prog. split; [exact (panics_can _ _ _ _ _ _ alloc_panics)|].
  intros func b tm [<-|[]] [<-|[<-|[]]] <- op args ret nb [= <- <- <- <-]; auto.
Qed.
Print Assumptions C47_allocate_refuted.
(** ... integers that are not addresses, ... *)
Theorem C47_expose_refuted : exists prog, can_panic x86_64 (BasicOps x86_64) prog /\
  (forall func b tm, In func (List.map snd (pr_functions prog)) -> In b (List.map snd (fn_blocks func)) -> bb_terminator b = tm ->
     forall op args ret nb, tm = TmIntrinsic op args ret nb -> op = InPointerWithExposedProvenance \/ op = InExit).
Proof.
  exists expose_prog. split; [exact (panics_can _ _ _ _ _ _ expose_panics)|].
  intros func b tm [<-|[]] [<-|[<-|[]]] <- op args ret nb [= <- <- <- <-]; auto.
Qed.
Print Assumptions C47_expose_refuted.
(** ... functions whose first block does not exist, ... *)
Theorem C47_entry_refuted : exists prog, ~ starts_regular prog /\ can_panic x86_64 (BasicOps x86_64) prog.
Proof.
  exists entry_prog. split; [|exact (panics_can _ _ _ _ _ _ entry_panics)].
  intros H. destruct (H 0%N _ eq_refl) as (b & Hb & _). discriminate Hb.
Qed.
Print Assumptions C47_entry_refuted.
(** ... vtables with functions that do not exist, ... *)
Theorem C47_vtable_refuted : exists prog, ~ methods_exist prog /\ can_panic x86_64 (BasicOps x86_64) prog.
Proof.
  exists vtable_prog. split; [|exact (panics_can _ _ _ _ _ _ vtable_panics)].
  intros H. destruct (H 0%N _ 0%N 9%N eq_refl eq_refl) as (f & Hf). discriminate Hf.
Qed.
Print Assumptions C47_vtable_refuted.
(** ... transmutes to types that are not well-formed, ... *)
Theorem C47_transmute_refuted : exists prog ty, ~ ty_check_wf x86_64 (has_trait prog) ty = Ret tt /\
  (exists n func e, map_get (pr_functions prog) n = Some func /\ expr_of func (inl (EUnOp (UCast (CTransmute ty)) e))) /\
  can_panic x86_64 (BasicOps x86_64) prog.
Proof.
  exists transmute_prog, (TUnion [(0%N, TArray (TInt u8t) 8)] [(4%N, 8%N)] 8 (mkAlign 0)).
  split; [by vm_compute|]. split; [|exact (panics_can _ _ _ _ _ _ transmute_panics)].
  exists 0%N, (main [] (fn_blocks (snd (List.hd (0%N, main [] []) (pr_functions transmute_prog))))), (int_e usz 0). split; [reflexivity|].
  exists 0%N. eexists. eexists. split; [reflexivity|]. split; [|left; eexists; split; [by left|constructor]].
  eapply oc_below; [constructor|]. eapply oc_below; [constructor|]. constructor.
Qed.
Print Assumptions C47_transmute_refuted.
(** ... and arithmetic on references. *)
Theorem C47_offset_refuted : exists prog pt, ~ plain_ptr pt /\
  (exists n func p e, map_get (pr_functions prog) n = Some func /\ expr_of func (inl (EBinOp (BPtrOffset true) (EAddrOf p pt) e))) /\
  can_panic x86_64 (BasicOps x86_64) prog.
Proof.
  exists offset_prog, (ref 4 2). split; [intros [H|H]; discriminate H|]. split; [|exact (panics_can _ _ _ _ _ _ offset_panics)].
  exists 0%N. eexists. exists (PLocal 1), (int_e isz 4). split; [reflexivity|]. exists 0%N. eexists. eexists. split; [reflexivity|].
  split; [|left; eexists; split; [right; right; by left|apply se_source]]. constructor.
Qed.
Print Assumptions C47_offset_refuted.

(** A program that is accepted and has none of these gaps ([strict_program] of StepSpec.v) starts without a panic. *)
Theorem C47_start {PE AE F} `{EqDecision (nat * PE)} T (MO : MemOps (nat * PE) F (BMem PE AE)) crash prog cs :
  target_ok T -> target_std T -> retag_crash T MO crash ->
  program_check_wf T prog = Ret tt -> strict_program T prog ->
  machine_new T MO prog cs <> Panic.
Proof. intros Tok Std Hc Hwf Hs. exact (new_no_panic T MO crash Hc Tok Std prog Hs cs Hwf). Qed.
Print Assumptions C47_start.

(** A step of it panics only if a thread that can run is about to evaluate the size or alignment of a type that is
    not a usize, to return a reference to a local of the function that returns, to store the number of a thread or
    lock at a type it does not fit, to overflow an atomic addition or subtraction, or, with Tree Borrows, to retag
    an empty reference that points before its allocation ([panic_cause] of StepSpec.v). *)
Theorem C47_panic {PE AE F} `{EqDecision (nat * PE)} T (MO : MemOps (nat * PE) F (BMem PE AE)) crash prog
    (m : Machine (nat * PE) F (BMem PE AE)) cs :
  target_ok T -> target_std T -> retag_crash T MO crash -> strict_program T prog ->
  reachable T MO prog m -> step T MO cs m = Panic -> exists a, panic_cause T MO crash m a.
Proof. intros Tok Std Hc Hs. exact (step_panic T MO crash Hc Tok Std prog Hs m cs). Qed.
Print Assumptions C47_panic.

(** Each of the causes does lead to panics of programs without gaps. *)
Theorem C47_size_refuted : exists prog, strict_program x86_64 prog /\ can_panic x86_64 (BasicOps x86_64) prog /\
  forall n func b blk, map_get (pr_functions prog) n = Some func -> map_get (fn_blocks func) b = Some blk -> bb_terminator blk = TmReturn.
Proof.
  exists size_prog. split; [apply strictb_ok, size_strict|]. split; [exact (panics_can _ _ _ _ _ _ size_panics)|].
  intros n func b bk Hn Hb. apply map_get_in in Hn as [[= _ <-]|[]]. by apply map_get_in in Hb as [[= _ <-]|[]].
Qed.
Print Assumptions C47_size_refuted.
Theorem C47_escape_refuted : exists prog, strict_program x86_64 prog /\ can_panic x86_64 (BasicOps x86_64) prog /\
  forall n func b blk op args ret nb, map_get (pr_functions prog) n = Some func -> map_get (fn_blocks func) b = Some blk ->
    bb_terminator blk = TmIntrinsic op args ret nb -> op = InExit.
Proof.
  exists escape_prog. split; [apply strictb_ok, escape_strict|]. split; [exact (panics_can _ _ _ _ _ _ escape_panics)|].
  intros n func b bk op args ret nb Hn Hb Ht. apply map_get_in in Hn as [[= _ <-]|[[= _ <-]|[]]]; apply map_get_in in Hb;
    repeat destruct Hb as [[= _ <-]|Hb]; try done; injection Ht; congruence.
Qed.
Print Assumptions C47_escape_refuted.
Theorem C47_number_refuted : exists prog, strict_program x86_64 prog /\ simple_program x86_64 prog /\ can_panic x86_64 (BasicOps x86_64) prog.
Proof.
  exists locks_prog. split; [apply strictb_ok, locks_strict|]. split; [apply simpleb_ok; by vm_compute|].
  exact (panics_can _ _ _ _ _ _ locks_panics).
Qed.
Print Assumptions C47_number_refuted.
Theorem C47_fetch_refuted : exists prog, strict_program x86_64 prog /\ can_panic x86_64 (BasicOps x86_64) prog /\
  forall n func e, map_get (pr_functions prog) n = Some func -> expr_of func e -> size_known x86_64 e.
Proof.
  exists fetch_prog. split; [apply strictb_ok, fetch_strict|]. split; [exact (panics_can _ _ _ _ _ _ fetch_panics)|].
  intros n func e Hn He. apply map_get_in in Hn as [[= _ <-]|[]]. apply fn_subs_in in He. cbn in He. repeat destruct He as [<-|He]; done.
Qed.
Print Assumptions C47_fetch_refuted.
Theorem C47_empty_refuted : exists prog, strict_program x86_64 prog /\ simple_program x86_64 prog /\ can_panic x86_64 (TreeOps x86_64) prog.
Proof.
  exists empty_prog. split; [apply strictb_ok, empty_strict|]. split; [apply simpleb_ok; by vm_compute|].
  exact (panics_can _ _ _ _ _ _ empty_panics).
Qed.
Print Assumptions C47_empty_refuted.

(** Programs without the expressions and terminators that lead to these causes never panic while they have at most
    127 threads and locks. *)
Theorem C47_no_panic_basic T prog m cs :
  target_ok T -> target_std T -> strict_program T prog -> simple_program T prog ->
  reachable T (BasicOps T) prog m -> (length (m_threads m) <= 127)%nat -> (length (m_locks m) <= 127)%nat ->
  step T (BasicOps T) cs m <> Panic.
Proof.
  intros Tok Std Hs Hsim. apply (simple_no_panic T (BasicOps T) _ (rc_basic T) Tok Std prog Hs Hsim). left. by intros m0 p pt lk [].
Qed.
Print Assumptions C47_no_panic_basic.
Theorem C47_no_panic_tree T prog m cs :
  target_ok T -> target_std T -> strict_program T prog -> simple_program T prog -> no_empty_refs T prog ->
  reachable T (TreeOps T) prog m -> (length (m_threads m) <= 127)%nat -> (length (m_locks m) <= 127)%nat ->
  step T (TreeOps T) cs m <> Panic.
Proof.
  intros Tok Std Hs Hsim Hne. apply (simple_no_panic T (TreeOps T) _ (rc_tree T) Tok Std prog Hs Hsim). by right.
Qed.
Print Assumptions C47_no_panic_tree.

(** The conditions can be checked before the program is run. *)
Theorem C47_check T prog :
  (strictb T prog = true -> strict_program T prog) /\ (simpleb T prog = true -> simple_program T prog) /\
  (no_empty_refsb T prog = true -> no_empty_refs T prog).
Proof. split; [apply strictb_ok|split; [apply simpleb_ok|apply no_empty_refsb_ok]]. Qed.
Print Assumptions C47_check.

(** a program with a global, a vtable, two functions and a thread, and one of its states *)
Example C47_hyps : target_ok x86_64 /\ target_std x86_64 /\ program_check_wf x86_64 ex_prog = Ret tt /\
  strict_program x86_64 ex_prog /\ simple_program x86_64 ex_prog /\ no_empty_refs x86_64 ex_prog /\
  reachable x86_64 (BasicOps x86_64) ex_prog ex_m2 /\ length (m_threads ex_m2) = 2%nat /\ m_locks ex_m2 = [] /\
  reachable x86_64 (TreeOps x86_64) ex_prog ex_t2.
Proof.
  split; [exact x86_64_ok|]. split; [exact x86_64_std|]. split; [exact ex_prog_wf|]. split; [apply strictb_ok, ex_prog_strict|].
  split; [apply simpleb_ok, ex_prog_simple|]. split; [apply no_empty_refsb_ok, ex_prog_refs|].
  split; [exact (run_reachable _ _ _ _ _ _ (reachB _ _ _ _ _ _ ex_m0_new ex_m1_run) ex_m2_run)|]. split; [reflexivity|]. split; [reflexivity|].
  eapply run_reachable; [|exact ex_t2_run]. eapply run_reachable; [|exact ex_t1_run]. constructor. eexists _, _. exact ex_t0_new.
Qed.

(** * C48 Evaluation *)

(** Evaluating an expression that is accepted in the function a thread is executing, and has none of the gaps, gives a
    value of the type that the check computed, and panics only for a named cause. The value is well-formed at the type
    ([valid_value] of ValueSpec.v), unless it depends on a size or alignment that is not a usize. *)
Theorem C48_values_partial {PE AE F} `{EqDecision (nat * PE)} T (MO : MemOps (nat * PE) F (BMem PE AE)) crash prog
    (m : Machine (nat * PE) F (BMem PE AE)) a f e ty :
  target_ok T -> target_std T -> retag_crash T MO crash -> strict_program T prog ->
  reachable T MO prog m -> enabled m a -> frame_of m a 0 f ->
  value_check_wf T prog (fn_locals (f_func f)) e = Ret ty -> gap_free T prog (fn_locals (f_func f)) (inl e) ->
  (eval_value T MO e (starting m a) = Panic -> expr_cause T MO crash (starting m a) (inl e)) /\
  (forall v t m', eval_value T MO e (starting m a) = Ret (v, t, m') ->
     t = ty /\ (expr_cause T MO crash (starting m a) (inl e) \/ valid_value T (chk_env MO m') ty v)).
Proof. intros Tok Std Hc Hs. exact (value_sound T MO crash Hc Tok Std prog Hs m a f e ty). Qed.
Print Assumptions C48_values_partial.

(** Evaluating a place expression gives a place of the type that the check computed, with an address and metadata
    that are valid for it. *)
Theorem C48_places {PE AE F} `{EqDecision (nat * PE)} T (MO : MemOps (nat * PE) F (BMem PE AE)) crash prog
    (m : Machine (nat * PE) F (BMem PE AE)) a f p ty :
  target_ok T -> target_std T -> retag_crash T MO crash -> strict_program T prog ->
  reachable T MO prog m -> enabled m a -> frame_of m a 0 f ->
  place_check_wf T prog (fn_locals (f_func f)) p = Ret ty -> gap_free T prog (fn_locals (f_func f)) (inr p) ->
  (eval_place T MO p (starting m a) = Panic -> expr_cause T MO crash (starting m a) (inr p)) /\
  (forall pl t m', eval_place T MO p (starting m a) = Ret (pl, t, m') ->
     t = ty /\ address_ok T (tp_addr (p_thin (pl_ptr pl))) /\
     valid_meta T (chk_env MO m') (ty_meta_kind ty) (p_meta (pl_ptr pl))).
Proof.
  intros Tok Std Hc Hs Hr Hen Hf Hw Hg. destruct (place_sound T MO crash Hc Tok Std prog Hs m a f p ty Hr Hen Hf Hw Hg) as [H1 H2].
  split; [exact H1|]. intros pl t m' He. destruct (H2 pl t m' He) as (E & _ & Ha & Hm). by split_and!.
Qed.
Print Assumptions C48_places.

(** Without sizes of unsized types the value is always well-formed, in the basic memory model. *)
Theorem C48_values_simple T prog m a f e ty v t m' :
  target_ok T -> target_std T -> strict_program T prog -> reachable T (BasicOps T) prog m -> enabled m a -> frame_of m a 0 f ->
  value_check_wf T prog (fn_locals (f_func f)) e = Ret ty -> gap_free T prog (fn_locals (f_func f)) (inl e) ->
  (forall e1, occurs (inl e) e1 -> size_known T e1) ->
  eval_value T (BasicOps T) e (starting m a) <> Panic /\
  (eval_value T (BasicOps T) e (starting m a) = Ret (v, t, m') -> t = ty /\ valid_value T (chk_env (BasicOps T) m') ty v).
Proof.
  intros Tok Std Hs Hr Hen Hf Hw Hg Hk.
  destruct (value_sound T (BasicOps T) _ (rc_basic T) Tok Std prog Hs m a f e ty Hr Hen Hf Hw Hg) as [H1 H2].
  assert (Hno : ~ expr_cause T (BasicOps T) (fun _ _ _ _ => False) (starting m a) (inl e)).
  { intros (m1 & e1 & He & [Hb|(p & pt & pl & t1 & m2 & _ & _ & [])]). apply evaluates_occurs in He. by apply (not_too_big T (BasicOps T) m1 e1 (Hk e1 He)). }
  split; [intros Hp; by apply Hno, H1|]. intros He. destruct (H2 v t m' He) as [E [Hc|Hv]]; [by destruct Hno|done].
Qed.
Print Assumptions C48_values_simple.

(** The gaps and the sizes matter: accepted expressions can evaluate to values that are not well-formed. *)
Definition bad_value {P F M} `{EqDecision P} (T : Target) (MO : MemOps P F M) (prog : Program) (e : ValueExpr) : Prop :=
  exists m a f ty v m', reachable T MO prog m /\ enabled m a /\
    (exists t, m_threads m !! a = Some t /\ t_stack t !! 0%nat = Some f) /\
    value_check_wf T prog (fn_locals (f_func f)) e = Ret ty /\ eval_value T MO e (set_active m a) = Ret (v, ty, m') /\
    ~ valid_value T (chk_env MO m') ty v.
Theorem C48_constant_refuted : exists prog e, bad_value x86_64 (BasicOps x86_64) prog e.
Proof.
  exists null_prog, (EConstant (KPointerWithoutProvenance 0) (TPtr (ref 4 2))), null_m, 0%nat.
  eexists. eexists. eexists. eexists. split; [exact null_reach|]. split; [reflexivity|]. split; [eexists; split; reflexivity|].
  split; [vm_compute; reflexivity|]. split; [vm_compute; reflexivity|].
  rewrite <- (check_value_iff x86_64 x86_64_ok). by vm_compute.
Qed.
Print Assumptions C48_constant_refuted.
Theorem C48_size_refuted : exists prog e, strict_program x86_64 prog /\ bad_value x86_64 (BasicOps x86_64) prog e.
Proof.
  exists size_prog, (EUnOp (UComputeSize (TSlice (TInt u32_t))) (int_e usz (2 ^ 63))). split; [apply strictb_ok, size_strict|]. exists size_m, 0%nat.
  eexists. eexists. eexists. eexists. split; [exact size_reach|]. split; [reflexivity|]. split; [eexists; split; reflexivity|].
  split; [vm_compute; reflexivity|]. split; [vm_compute; reflexivity|].
  rewrite <- (check_value_iff x86_64 x86_64_ok). by vm_compute.
Qed.
Print Assumptions C48_size_refuted.

(** evaluating [x + 1] after [inc] was called with 41, and a reference *)
Example C48_hyps : exists f e ty v m', target_ok x86_64 /\ target_std x86_64 /\ strict_program x86_64 ex_prog /\
  reachable x86_64 (BasicOps x86_64) ex_prog ex_c /\ enabled ex_c 0 /\ frame_of ex_c 0 0 f /\
  value_check_wf x86_64 ex_prog (fn_locals (f_func f)) e = Ret ty /\ gap_free x86_64 ex_prog (fn_locals (f_func f)) (inl e) /\
  (forall e1, occurs (inl e) e1 -> size_known x86_64 e1) /\
  eval_value x86_64 (BasicOps x86_64) e (starting ex_c 0) = Ret (v, ty, m') /\
  e = ETuple [EBinOp (BInt IAdd) (ELoad (PLocal 1)) (u32_e 1); EAddrOf (PLocal 1) (ref 4 2)] ex_pair.
Proof.
  eexists. eexists. eexists. eexists. eexists. split; [exact x86_64_ok|]. split; [exact x86_64_std|]. split; [apply strictb_ok, ex_prog_strict|].
  split; [exact ex_c_reach|]. split; [reflexivity|]. split; [eexists; split; reflexivity|].
  split; [|split; [|split; [|split]]]. 5: reflexivity.
  - vm_compute; reflexivity.
  - intros e1 He. apply no_gapb_ok. apply occurs_subs in He. cbn in He. repeat destruct He as [<-|He]; try done; vm_compute; reflexivity.
  - intros e1 He. apply size_knownb_ok. apply occurs_subs in He. cbn in He. repeat destruct He as [<-|He]; done.
  - vm_compute; reflexivity.
Qed.
