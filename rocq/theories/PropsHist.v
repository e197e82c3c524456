(** C99: every execution is a history of memory operations, and so what is proved about histories holds in
    executions. *)
From Verif Require Export HistSpec AliasSpec.
From Verif Require Import HistTree HistEntry PropsTB PropsData ExSim.
From Verif Require Import DataSpec ExprSpec HistSpec AliasSpec.
Local Open Scope Z_scope.

(** Each step does memory operations, and only those its statement or terminator may do. *)
Theorem C99_step {P F M} `{EqDecision P} T (MO : MemOps P F M) cs (m m' : Machine P F M) :
  step T MO cs m = Ret m' ->
  exists fr x ops, about_to m (m_active m') fr x /\
    mem_run MO (cm_mem (m_mem m)) ops = Ret (cm_mem (m_mem m')) /\ forall op, op ∈ ops -> may_do fr x op.
Proof. intros (fr & x & Ha & ops & Hr & Ho)%step_hist. by exists fr, x, ops. Qed.
Print Assumptions C99_step.

(** What happened before the first step, starting from the empty memory. *)
Theorem C99_start {P F M} `{EqDecision P} T (MO : MemOps P F M) prog (m : Machine P F M) :
  starts T MO prog m ->
  exists ops, mem_run MO (mo_new MO) ops = Ret (cm_mem (m_mem m)) /\ forall op, op ∈ ops -> start_op op.
Proof. apply start_hist. Qed.
Print Assumptions C99_start.

(** So the memory of every reachable state has a history from the empty memory. *)
Theorem C99_history {P F M} `{EqDecision P} T (MO : MemOps P F M) prog (m : Machine P F M) :
  reachable T MO prog m -> exists ops, mem_run MO (mo_new MO) ops = Ret (cm_mem (m_mem m)).
Proof. apply reach_hist. Qed.
Print Assumptions C99_history.

(** Every execution is the sequence of the operations of its steps, and that is a history of its memory. *)
Theorem C99_execution {P F M} `{EqDecision P} T (MO : MemOps P F M) (m : Machine P F M) l m' :
  execution T MO m l m' ->
  exists ops, exec_ops T MO m l ops m' /\ mem_run MO (cm_mem (m_mem m)) ops = Ret (cm_mem (m_mem m')).
Proof. intros (ops & He)%exec_has_ops. exists ops. split; [done|by eapply exec_ops_run]. Qed.
Print Assumptions C99_execution.

(** Leaving a function takes exactly its frame away, whatever the memory model. *)
Theorem C99_leave {P F M} `{EqDecision P} T (MO : MemOps P F M) cs (m m' : Machine P F M) fr x :
  step T MO cs m = Ret m' -> about_to m (m_active m') fr x -> leaves x ->
  call_data m ≡ₚ f_extra fr :: call_data m'.
Proof. intros Hs. by apply (kstep T MO (fun _ _ => True) ltac:(done) ltac:(done) ltac:(done) ltac:(done) ltac:(done) cs m m' Hs). Qed.
Print Assumptions C99_leave.

(** The calls on the stacks of the machine are the calls the aliasing model has open. *)
Theorem C99_calls T prog (m : Machine TProv TFrame TMem) :
  reachable T (TreeOps T) prog m ->
  exists ops fs, call_run T (mo_new (TreeOps T), []) ops = Ret (cm_mem (m_mem m), fs) /\ fs ≡ₚ call_data m.
Proof. apply calls_reach. Qed.
Print Assumptions C99_calls.

(** So in every reachable state a reference to live memory is protected exactly if a call on some stack
    protects it, and no two calls protect the same one. *)
Theorem C99_protectors T prog (m : Machine TProv TFrame TMem) :
  reachable T (TreeOps T) prog m ->
  NoDup (concat (call_data m)) /\
  forall id a path ps pr, cm_mem (m_mem m) !! id = Some a -> al_live a = true -> ninfo (al_extra a) path = Some (ps, pr) ->
    (prot_yes pr = true <-> exists f, f ∈ call_data m /\ (id, path) ∈ f).
Proof.
  intros (ops & fs & Hc & E)%calls_reach. apply C35_protectors_exact in Hc as [Hnd Hp]. split.
  - by rewrite <-(concat_perm' _ _ E).
  - intros id a path ps pr Ha Hl Hn. destruct (Hp _ _ _ _ _ Ha Hl Hn) as [-> _]. by setoid_rewrite E.
Qed.
Print Assumptions C99_protectors.

(** In an execution during which some call on some stack protects the reference: the bytes it may only read
    are the same for all loads, through whatever pointers. *)
Theorem C99_shared T prog (m : Machine TProv TFrame TMem) l m' id P x r1 len1 al1 bs1 mem1 Q1 r2 len2 al2 bs2 mem2 Q2 :
  let TO := TreeOps T in
  reachable T TO prog m -> execution T TO m l m' ->
  (forall s, s ∈ l ++ [m'] -> exists f, f ∈ call_data s /\ (id, P) ∈ f) ->
  addr_perm (cm_mem (m_mem m)) id P x = Some (Prot (PFrozen true)) ->
  mo_load TO (cm_mem (m_mem m)) r1 len1 al1 = Ret (bs1, mem1) -> tp_prov r1 = Some (id, Q1) -> TreeSpec.covers r1 len1 x ->
  mo_load TO (cm_mem (m_mem m')) r2 len2 al2 = Ret (bs2, mem2) -> tp_prov r2 = Some (id, Q2) -> TreeSpec.covers r2 len2 x ->
  loaded r1 bs1 x = loaded r2 bs2 x.
Proof.
  intros TO Hr He Hl Ha L1 P1 C1 L2 P2 C2. subst TO.
  destruct (reach_hist _ _ _ _ Hr) as (ops & Ho).
  destruct (exec_has_ops _ _ _ _ _ He) as (ops2 & He2). pose proof (exec_ops_run _ _ _ _ _ _ He2) as Ho2.
  rewrite (load_hist T _ _ _ _ _ _ _ _ _ _ Ho L1 P1 C1).
  assert (mem_run (TreeOps T) (mo_new (TreeOps T)) (ops ++ ops2) = Ret (cm_mem (m_mem m'))) as Hall by by rewrite (mem_run_app T _ _ _ _ Ho).
  rewrite (load_hist T _ _ _ _ _ _ _ _ _ _ Hall L2 P2 C2), last_store_app. f_equal. symmetry. apply last_store_same.
  eapply frozen_untouched; [exact (tb_len_run T _ _ Ho)|exact Ha|exact Ho2|]. exact (listed_only T prog m l m' (id, P) ops2 Hr He2 Hl).
Qed.
Print Assumptions C99_shared.

(** The bytes a protected reference has written, or has read while it may still write them, change only by
    stores through pointers derived from it. *)
Theorem C99_mutable T prog (m : Machine TProv TFrame TMem) l ops2 m' id P x p r1 len1 al1 bs1 mem1 Q1 r2 len2 al2 bs2 mem2 Q2 :
  let TO := TreeOps T in
  reachable T TO prog m -> exec_ops T TO m l ops2 m' -> no_store_through id P ops2 ->
  (forall s, s ∈ l ++ [m'] -> exists f, f ∈ call_data s /\ (id, P) ∈ f) ->
  addr_perm (cm_mem (m_mem m)) id P x = Some p -> (p = Prot PUnique \/ exists c, p = Prot (PReserved true c)) ->
  mo_load TO (cm_mem (m_mem m)) r1 len1 al1 = Ret (bs1, mem1) -> tp_prov r1 = Some (id, Q1) -> TreeSpec.covers r1 len1 x ->
  mo_load TO (cm_mem (m_mem m')) r2 len2 al2 = Ret (bs2, mem2) -> tp_prov r2 = Some (id, Q2) -> TreeSpec.covers r2 len2 x ->
  loaded r1 bs1 x = loaded r2 bs2 x.
Proof.
  intros TO Hr He2 Hn Hl Ha Hp L1 P1 C1 L2 P2 C2. subst TO.
  destruct (reach_hist _ _ _ _ Hr) as (ops & Ho).
  pose proof (exec_ops_run _ _ _ _ _ _ He2) as Ho2.
  rewrite (load_hist T _ _ _ _ _ _ _ _ _ _ Ho L1 P1 C1).
  assert (mem_run (TreeOps T) (mo_new (TreeOps T)) (ops ++ ops2) = Ret (cm_mem (m_mem m'))) as Hall by by rewrite (mem_run_app T _ _ _ _ Ho).
  rewrite (load_hist T _ _ _ _ _ _ _ _ _ _ Hall L2 P2 C2), last_store_app. f_equal. symmetry. apply last_store_same.
  eapply (used_untouched T); [exact (tb_len_run T _ _ Ho)| |exact Ho2| |exact Hn].
  - exists p. split; [exact Ha|]. by destruct Hp as [-> |[c ->]].
  - exact (listed_only T prog m l m' (id, P) ops2 Hr He2 Hl).
Qed.
Print Assumptions C99_mutable.

(** That is the situation after the retag of a shared reference at the beginning of a function: the new
    pointer is stored back, a call protects it, and it may only read its bytes outside of cells. *)
Theorem C99_entry T prog (m m' : Machine TProv TFrame TMem) p :
  let TO := TreeOps T in
  target_ok T -> reachable T TO prog m -> steps_to T TO m m' -> at_statement m (m_active m') (SValidate p true) ->
  exists ptr ty w bs, place_means T (turn m (m_active m')) p ptr true ty /\ encode T ty w = Ret bs /\ stores_at m' (p_thin ptr) bs /\
    forall pi, ty = TPtr (PRef Immutable pi) -> exists q, w = VPtr q /\
      forall id P, tp_prov (p_thin q) = Some (id, P) ->
        (exists f, f ∈ call_data m' /\ (id, P) ∈ f) /\
        forall mask i, freeze_mask (pi_cells pi) (pi_layout pi) (p_meta q) (vtable_lookup m) = Ret mask -> mask !! i = Some true ->
          addr_perm (cm_mem (m_mem m')) id P (tp_addr (p_thin q) + Z.of_nat i) = Some (Prot (PFrozen true)).
Proof. intros TO Tok _. exact (entry_shared T (tree_like T) Tok (model_retag T _ (mm_tree T)) m m' p). Qed.
Print Assumptions C99_entry.

(** So what was loaded through a protected shared reference need not be loaded again, whatever runs in
    between: a later load at the same address and type is undefined behaviour or gives the same value. *)
Theorem C99_reload_shared T prog (m : Machine TProv TFrame TMem) l m' id P ptr Q ty al at_ v m1 ptr' Q' al' at_' v' m1' :
  let TO := TreeOps T in
  reachable T TO prog m -> execution T TO m l m' ->
  (forall s, s ∈ l ++ [m'] -> exists f, f ∈ call_data s /\ (id, P) ∈ f) ->
  (forall size x, size_of T ty = Ret size -> TreeSpec.covers ptr size x ->
     addr_perm (cm_mem (m_mem m)) id P x = Some (Prot (PFrozen true))) ->
  tp_prov ptr = Some (id, Q) -> tp_prov ptr' = Some (id, Q') -> tp_addr ptr' = tp_addr ptr ->
  typed_load T TO m ptr ty al at_ = Ret (v, m1) -> typed_load T TO m' ptr' ty al' at_' = Ret (v', m1') -> v' = v.
Proof.
  intros TO Hr He Hl Ha Hp Hp' Ea L1 L2. eapply (reload T m m'); [exact L1|exact L2|exact Ea|].
  intros sz bs1 mem1 bs2 mem2 x Hs C1 C2 M1 M2.
  exact (C99_shared T prog m l m' id P x ptr sz al bs1 mem1 Q ptr' sz al' bs2 mem2 Q' Hr He Hl (Ha _ _ Hs C1) M1 Hp C1 M2 Hp' C2).
Qed.
Print Assumptions C99_reload_shared.

(** The same for a protected mutable reference that was used, until something is stored through it. *)
Theorem C99_reload_mutable T prog (m : Machine TProv TFrame TMem) l ops2 m' id P ptr Q ty al at_ v m1 ptr' Q' al' at_' v' m1' :
  let TO := TreeOps T in
  reachable T TO prog m -> exec_ops T TO m l ops2 m' -> no_store_through id P ops2 ->
  (forall s, s ∈ l ++ [m'] -> exists f, f ∈ call_data s /\ (id, P) ∈ f) ->
  (forall size x, size_of T ty = Ret size -> TreeSpec.covers ptr size x ->
     exists p, addr_perm (cm_mem (m_mem m)) id P x = Some p /\ (p = Prot PUnique \/ exists c, p = Prot (PReserved true c))) ->
  tp_prov ptr = Some (id, Q) -> tp_prov ptr' = Some (id, Q') -> tp_addr ptr' = tp_addr ptr ->
  typed_load T TO m ptr ty al at_ = Ret (v, m1) -> typed_load T TO m' ptr' ty al' at_' = Ret (v', m1') -> v' = v.
Proof.
  intros TO Hr He Hn Hl Ha Hp Hp' Ea L1 L2. eapply (reload T m m'); [exact L1|exact L2|exact Ea|].
  intros sz bs1 mem1 bs2 mem2 x Hs C1 C2 M1 M2. destruct (Ha _ _ Hs C1) as (p & Hx & Hk).
  exact (C99_mutable T prog m l ops2 m' id P x p ptr sz al bs1 mem1 Q ptr' sz al' bs2 mem2 Q' Hr He Hn Hl Hx Hk M1 Hp C1 M2 Hp' C2).
Qed.
Print Assumptions C99_reload_mutable.

(** fn f(x: &u32) { let y = *x; } fn start() { let x = 5; f(&x); exit() } *)
Definition hi_ref : PtrType := PRef Immutable (mkPointee (LSized 4 (mkAlign 2)) true (CSized []) true true).
Definition hi_main : Function :=
  main [(0%N, unit_ty); (1%N, TInt u32_t)]
    [(0%N, blk [SStorageLive 1; SAssign (PLocal 1) (u32_e 5)]
       (TmCall (EConstant (KFnPointer 1) (TPtr PFnPtr)) CcC [ByValue (EAddrOf (PLocal 1) hi_ref)] (PLocal 0) (Some 1%N) None));
     (1%N, blk [] (TmIntrinsic InExit [] (PLocal 0) None))].
Definition hi_f : Function :=
  mkFunction [(0%N, unit_ty); (1%N, TPtr hi_ref); (2%N, TInt u32_t)] [1%N] 0%N CcC
    [(0%N, blk [SValidate (PLocal 1) true; SStorageLive 2; SAssign (PLocal 2) (ELoad (PDeref (ELoad (PLocal 1)) (TInt u32_t)))] TmReturn)] 0%N.
Definition hi_prog : Program := mkProgram [(0%N, hi_main); (1%N, hi_f)] 0%N [] [] [].
Definition hi_new {P} : list (Choice P) := [ChAddr 1; ChAddr 2; ChAddr 8].
Definition hi_cs {P} : list (list (Choice P)) := [[ChThread 0; ChAddr 16]; [ChThread 0]; [ChThread 0; ChAddr 9; ChAddr 32]; [ChThread 0]].
Definition hi_at (css : list (list (Choice TProv))) (m : MachT) : MachT := out m_dummyT (run x86_64 (TreeOps x86_64) css m).
Definition hi_t0 : MachT := Eval vm_compute in fst (out (m_dummyT, []) (machine_new x86_64 (TreeOps x86_64) hi_prog hi_new)).
(** the reference has been retagged in [f]; then storage for [y] is there; [y] is assigned; [f] has returned *)
Definition hi_t1 : MachT := Eval vm_compute in hi_at hi_cs hi_t0.
Definition hi_t2 : MachT := Eval vm_compute in hi_at [[ChThread 0; ChAddr 48]] hi_t1.
Definition hi_t3 : MachT := Eval vm_compute in hi_at [[ChThread 0]] hi_t2.
Definition hi_t4 : MachT := Eval vm_compute in hi_at [[ChThread 0]] hi_t3.
Lemma hi_reach : reachable x86_64 (TreeOps x86_64) hi_prog hi_t1.
Proof.
  eapply run_reachable; [constructor; exists hi_new, []; instantiate (1 := hi_t0); vm_compute; reflexivity|].
  instantiate (1 := hi_cs). vm_compute. reflexivity.
Qed.

Example C99_hyps :
  let TO := TreeOps x86_64 in
  let pr := (3%nat, [0%nat; 0%nat]) in
  program_check_wf x86_64 hi_prog = Ret tt /\ reachable x86_64 TO hi_prog hi_t1 /\ execution x86_64 TO hi_t1 [hi_t1; hi_t2] hi_t3 /\
  (forall s, s ∈ [hi_t1; hi_t2; hi_t3] -> exists f, f ∈ call_data s /\ pr ∈ f) /\
  addr_perm (cm_mem (m_mem hi_t1)) 3 [0%nat; 0%nat] 16 = Some (Prot (PFrozen true)) /\
  (exists b m1 m2, mo_load TO (cm_mem (m_mem hi_t1)) (mkThin 16 (Some pr)) 1 (mkAlign 0) = Ret ([b], m1) /\
     mo_load TO (cm_mem (m_mem hi_t3)) (mkThin 16 (Some (3%nat, []))) 1 (mkAlign 0) = Ret ([b], m2)) /\
  (exists fr, about_to hi_t3 (m_active hi_t4) fr (inr TmReturn) /\ step x86_64 TO [ChThread 0] hi_t3 = Ret hi_t4 /\ f_extra fr = [pr]) /\
  call_data hi_t4 = [[]].
Proof.
  split; [vm_compute; reflexivity|]. split; [exact hi_reach|].
  split; [econstructor; [eexists; instantiate (2 := [ChThread 0; ChAddr 48]); vm_compute; reflexivity|
          econstructor; [exists [ChThread 0]; vm_compute; reflexivity|constructor]]|].
  split; [|split; [vm_compute; reflexivity|split; [|split; [|vm_compute; reflexivity]]]].
  - intros s Hs. exists [(3%nat, [0%nat; 0%nat])]. split; [|left].
    apply elem_of_list_In in Hs as [<-|[<-|[<-|[]]]]; left.
  - do 3 eexists. split; vm_compute; reflexivity.
  - eexists. split; [|split; [vm_compute; reflexivity|]].
    + eexists _, _, _. split; [reflexivity|]. split; [reflexivity|]. split; [reflexivity|]. done.
    + reflexivity.
Qed.

Example C99_entry_hyps : exists m,
  reachable x86_64 (TreeOps x86_64) hi_prog m /\ steps_to x86_64 (TreeOps x86_64) m hi_t1 /\
  at_statement m (m_active hi_t1) (SValidate (PLocal 1) true) /\
  freeze_mask (CSized []) (LSized 4 (mkAlign 2)) None (vtable_lookup m) = Ret [true; true; true; true].
Proof.
  exists (hi_at (take 3 hi_cs) hi_t0). split; [|split; [|split]].
  - eapply run_reachable; [constructor; exists hi_new, []; instantiate (1 := hi_t0); vm_compute; reflexivity|].
    instantiate (1 := take 3 hi_cs). vm_compute. reflexivity.
  - exists [ChThread 0]. vm_compute. reflexivity.
  - vm_compute. eauto 20.
  - vm_compute. reflexivity.
Qed.

(** The same with a mutable reference: fn f(x: &mut u32) { *x = 7; let y = ...; }. *)
Definition hj_f : Function :=
  mkFunction [(0%N, unit_ty); (1%N, TPtr al_ref); (2%N, TInt u32_t)] [1%N] 0%N CcC
    [(0%N, blk [SValidate (PLocal 1) true; SAssign (PDeref (ELoad (PLocal 1)) (TInt u32_t)) (u32_e 7); SStorageLive 2] TmReturn)] 0%N.
Definition hj_main : Function :=
  main [(0%N, unit_ty); (1%N, TInt u32_t)]
    [(0%N, blk [SStorageLive 1; SAssign (PLocal 1) (u32_e 5)]
       (TmCall (EConstant (KFnPointer 1) (TPtr PFnPtr)) CcC [ByValue (EAddrOf (PLocal 1) al_ref)] (PLocal 0) (Some 1%N) None));
     (1%N, blk [] (TmIntrinsic InExit [] (PLocal 0) None))].
Definition hj_prog : Program := mkProgram [(0%N, hj_main); (1%N, hj_f)] 0%N [] [] [].
Definition hj_t0 : MachT := Eval vm_compute in fst (out (m_dummyT, []) (machine_new x86_64 (TreeOps x86_64) hj_prog hi_new)).
Definition hj_t1 : MachT := Eval vm_compute in hi_at (hi_cs ++ [[ChThread 0]]) hj_t0.
Definition hj_t2 : MachT := Eval vm_compute in hi_at [[ChThread 0; ChAddr 48]] hj_t1.
Example C99_hyps_mutable :
  let TO := TreeOps x86_64 in
  let pr := (3%nat, [0%nat; 0%nat]) in
  let ops : list (MemOp TProv TFrame) := [OpAllocate AStack 4 (mkAlign 2) 48] in
  program_check_wf x86_64 hj_prog = Ret tt /\ reachable x86_64 TO hj_prog hj_t1 /\
  exec_ops x86_64 TO hj_t1 [hj_t1] ops hj_t2 /\ no_store_through 3 [0%nat; 0%nat] ops /\
  (forall s, s ∈ [hj_t1; hj_t2] -> exists f, f ∈ call_data s /\ pr ∈ f) /\
  addr_perm (cm_mem (m_mem hj_t1)) 3 [0%nat; 0%nat] 16 = Some (Prot PUnique) /\
  (exists m1 m2, mo_load TO (cm_mem (m_mem hj_t1)) (mkThin 16 (Some pr)) 1 (mkAlign 0) = Ret ([Init x07 None], m1) /\
     mo_load TO (cm_mem (m_mem hj_t2)) (mkThin 16 (Some pr)) 1 (mkAlign 0) = Ret ([Init x07 None], m2)) /\
  (forall size x, size_of x86_64 (TInt u32_t) = Ret size -> TreeSpec.covers (mkThin 16 (Some pr)) size x ->
     exists p, addr_perm (cm_mem (m_mem hj_t1)) 3 [0%nat; 0%nat] x = Some p /\ (p = Prot PUnique \/ exists c, p = Prot (PReserved true c))) /\
  (exists m1 m2, typed_load x86_64 TO hj_t1 (mkThin 16 (Some pr)) (TInt u32_t) (mkAlign 2) NonAtomic = Ret (VInt 7, m1) /\
     typed_load x86_64 TO hj_t2 (mkThin 16 (Some pr)) (TInt u32_t) (mkAlign 2) NonAtomic = Ret (VInt 7, m2)).
Proof.
  split; [vm_compute; reflexivity|]. split.
  { eapply run_reachable; [constructor; exists hi_new, []; instantiate (1 := hj_t0); vm_compute; reflexivity|].
    instantiate (1 := hi_cs ++ [[ChThread 0]]). vm_compute. reflexivity. }
  split; [|split; [|split; [|split; [vm_compute; reflexivity|split; [|split]]]]].
  - eapply (eo_cons _ _ _ hj_t2 [] _ _ (inl (SStorageLive 2)) [_] []); [exists [ChThread 0; ChAddr 48]; vm_compute; reflexivity| | | |constructor].
    + eexists _, _, _. split; [reflexivity|]. split; [reflexivity|]. split; reflexivity.
    + vm_compute. reflexivity.
    + intros op Hop. apply elem_of_list_singleton in Hop as ->. left. by exists 2%N.
  - intros w b al Hop. apply elem_of_list_singleton in Hop. done.
  - intros s Hs. exists [(3%nat, [0%nat; 0%nat])]. split; [|left].
    apply elem_of_list_In in Hs as [<-|[<-|[]]]; left.
  - do 2 eexists. split; vm_compute; reflexivity.
  - intros size x [= <-] [H1 H2]. cbn in H1, H2. exists (Prot PUnique). split; [|by left].
    assert (x = 16 \/ x = 17 \/ x = 18 \/ x = 19) as [-> |[-> |[-> | ->]]] by lia; vm_compute; reflexivity.
  - do 2 eexists. split; vm_compute; reflexivity.
Qed.
