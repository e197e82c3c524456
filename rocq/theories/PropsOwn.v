(** Properties of memory in whole executions: locals, globals, functions, vtables. *)
From Verif Require Export OwnReach OwnSpec ExSched.

Lemma model_like T {PE AE F} (MO : MemOps (nat * PE) F (BMem PE AE)) : memory_model T MO -> bm_like T MO.
Proof. destruct 1; [apply basic_like|apply tree_like]. Qed.

(** * C49 Stack frames own their locals *)

(** every live local of every frame of every thread is the start of its own live stack allocation, of the size
    and alignment of the local's type *)
Theorem C49_locals {PE AE F} `{EqDecision (nat * PE)} T (MO : MemOps (nat * PE) F (BMem PE AE)) prog
    (m : Machine (nat * PE) F (BMem PE AE)) i k l p :
  target_ok T -> memory_model T MO -> reachable T MO prog m -> local_of m i k l p ->
  exists f id ty s al, frame_of m i k f /\ map_get (fn_locals (f_func f)) l = Some ty /\
    size_of T ty = Ret s /\ align_of T ty = Ret al /\ object_at m p id AStack s al.
Proof. intros Tok MM. exact (reach_local T MO (model_like _ _ MM) Tok prog m i k l p). Qed.
Print Assumptions C49_locals.

(** the return local and the argument locals are always live *)
Theorem C49_params {PE AE F} `{EqDecision (nat * PE)} T (MO : MemOps (nat * PE) F (BMem PE AE)) prog
    (m : Machine (nat * PE) F (BMem PE AE)) i k f l :
  target_ok T -> memory_model T MO -> reachable T MO prog m -> frame_of m i k f ->
  l = fn_ret (f_func f) \/ In l (fn_args (f_func f)) -> exists p, local_of m i k l p.
Proof. intros Tok MM. exact (reach_params T MO (model_like _ _ MM) Tok prog m i k f l). Qed.
Print Assumptions C49_params.

(** different locals, of the same or of different frames and threads, do not overlap *)
Theorem C49_no_alias {PE AE F} `{EqDecision (nat * PE)} T (MO : MemOps (nat * PE) F (BMem PE AE)) prog
    (m : Machine (nat * PE) F (BMem PE AE)) i k l p i' k' l' p' :
  target_ok T -> memory_model T MO -> reachable T MO prog m ->
  local_of m i k l p -> local_of m i' k' l' p' -> (i, k, l) <> (i', k', l') ->
  exists id id' s s' al al', object_at m p id AStack s al /\ object_at m p' id' AStack s' al' /\ id <> id' /\
    tp_addr p <> tp_addr p' /\ ranges_apart (tp_addr p) s (tp_addr p') s'.
Proof. intros Tok MM. exact (reach_no_alias T MO (model_like _ _ MM) Tok prog m i k l p i' k' l' p'). Qed.
Print Assumptions C49_no_alias.

(** there is no other live stack memory *)
Theorem C49_nothing_else {PE AE F} `{EqDecision (nat * PE)} T (MO : MemOps (nat * PE) F (BMem PE AE)) prog
    (m : Machine (nat * PE) F (BMem PE AE)) id :
  target_ok T -> memory_model T MO -> reachable T MO prog m -> live_stack m id ->
  exists i k f, frame_of m i k f /\ frame_owns f id.
Proof. intros Tok MM Hr. exact (minv_all_owned T prog m id (reach_minv T MO (model_like _ _ MM) Tok prog m Hr)). Qed.
Print Assumptions C49_nothing_else.

(** leaving a function, by returning or by unwinding, frees exactly the locals of its frame. The other frames
    keep theirs. *)
Theorem C49_pop {PE AE F} `{EqDecision (nat * PE)} T (MO : MemOps (nat * PE) F (BMem PE AE)) prog
    (m m' : Machine (nat * PE) F (BMem PE AE)) tm :
  target_ok T -> memory_model T MO -> reachable T MO prog m -> steps_to T MO m m' ->
  at_terminator m (m_active m') tm -> tm = TmReturn \/ tm = TmResumeUnwind ->
  exists f, frame_of m (m_active m') 0 f /\
    (forall i k l p, local_of m' i k l p <-> local_of m i (if decide (i = m_active m') then S k else k) l p) /\
    (forall id, live_alloc m' id <-> live_alloc m id /\ ~ frame_owns f id).
Proof.
  intros Tok MM Hr.
  exact (step_pop T MO (model_like _ _ MM) Tok prog m m' tm (reach_minv T MO (model_like _ _ MM) Tok prog m Hr)).
Qed.
Print Assumptions C49_pop.

(** the state of the example program before [inc] returns: two frames, with three and two locals *)
Definition own_m1 : MachB := Eval vm_compute in runB (take 4 ex_run_cs) ex_m0.
Definition own_m2 : MachB := Eval vm_compute in runB [[ChThread 0]] own_m1.
Example C49_hyps : target_ok x86_64 /\ memory_model x86_64 (BasicOps x86_64) /\
  reachable x86_64 (BasicOps x86_64) ex_prog own_m1 /\ steps_to x86_64 (BasicOps x86_64) own_m1 own_m2 /\
  at_terminator own_m1 (m_active own_m2) TmReturn /\
  (exists p, local_of own_m1 0 0 0 p) /\ (exists p, local_of own_m1 0 0 1 p) /\
  (exists p, local_of own_m1 0 1 0 p) /\ (exists p, local_of own_m1 0 1 2 p) /\ live_stack own_m1 6 /\
  live_alloc own_m1 8 /\ ~ live_alloc own_m2 8.
Proof.
  split; [exact x86_64_ok|]. split; [constructor|].
  assert (E1 : run x86_64 B64 (take 4 ex_run_cs) ex_m0 = Ret own_m1) by (vm_compute; reflexivity).
  split; [exact (reachB _ _ _ _ _ _ ex_m0_new E1)|]. split; [exists [ChThread 0]; vm_compute; reflexivity|].
  split. { eexists _, _. split; [eexists _, _; split; [reflexivity|]; split; reflexivity|]. split; reflexivity. }
  repeat split.
  - eexists _, _. split; [eexists; split; reflexivity|reflexivity].
  - eexists _, _. split; [eexists; split; reflexivity|reflexivity].
  - eexists _, _. split; [eexists; split; reflexivity|reflexivity].
  - eexists _, _. split; [eexists; split; reflexivity|reflexivity].
  - eexists. split; [reflexivity|]. split; reflexivity.
  - eexists. split; reflexivity.
  - intros (a & Ha & Hl). vm_compute in Ha. injection Ha as <-. discriminate.
Qed.

(** * C61 Memory is allocated and freed only where the program says so *)

(** every allocation that a step frees is the local of a StorageDead or StorageLive, belongs to the frame that
    the step leaves, or is heap memory and the step is a Deallocate *)
Theorem C61_frees {PE AE F} `{EqDecision (nat * PE)} T (MO : MemOps (nat * PE) F (BMem PE AE)) prog
    (m m' : Machine (nat * PE) F (BMem PE AE)) id :
  target_ok T -> memory_model T MO -> reachable T MO prog m -> steps_to T MO m m' ->
  live_alloc m id -> ~ live_alloc m' id ->
  (exists l p pe, (at_statement m (m_active m') (SStorageDead l) \/ at_statement m (m_active m') (SStorageLive l)) /\
     local_of m (m_active m') 0 l p /\ tp_prov p = Some (id, pe)) \/
  ((at_terminator m (m_active m') TmReturn \/ at_terminator m (m_active m') TmResumeUnwind) /\
     exists f, frame_of m (m_active m') 0 f /\ frame_owns f id) \/
  (at_intrinsic m (m_active m') InDeallocate /\ exists a, cm_mem (m_mem m) !! id = Some a /\ al_kind a = AHeap).
Proof.
  intros Tok MM Hr.
  exact (step_frees T MO (model_like _ _ MM) Tok prog m m' id (reach_minv T MO (model_like _ _ MM) Tok prog m Hr)).
Qed.
Print Assumptions C61_frees.

(** every allocation that a step makes is new (it never was live before), and is heap memory of an Allocate, the
    local of a StorageLive, or a local of the frame that a Call or Spawn creates *)
Theorem C61_allocates {PE AE F} `{EqDecision (nat * PE)} T (MO : MemOps (nat * PE) F (BMem PE AE)) prog
    (m m' : Machine (nat * PE) F (BMem PE AE)) id :
  target_ok T -> memory_model T MO -> reachable T MO prog m -> steps_to T MO m m' ->
  ~ live_alloc m id -> live_alloc m' id -> (length (cm_mem (m_mem m)) <= id)%nat /\
  ((at_intrinsic m (m_active m') InAllocate /\ exists a, cm_mem (m_mem m') !! id = Some a /\ al_kind a = AHeap) \/
   (exists l p pe, at_statement m (m_active m') (SStorageLive l) /\ local_of m' (m_active m') 0 l p /\ tp_prov p = Some (id, pe)) \/
   ((exists callee conv args ret nb ub, at_terminator m (m_active m') (TmCall callee conv args ret nb ub)) /\
      exists f, frame_of m' (m_active m') 0 f /\ frame_owns f id) \/
   (at_intrinsic m (m_active m') InSpawn /\ exists f, frame_of m' (length (m_threads m)) 0 f /\ frame_owns f id)).
Proof.
  intros Tok MM Hr.
  exact (step_allocs T MO (model_like _ _ MM) Tok prog m m' id (reach_minv T MO (model_like _ _ MM) Tok prog m Hr)).
Qed.
Print Assumptions C61_allocates.

(** the call of [inc] allocates two locals, its return frees them *)
Definition own_m0 : MachB := Eval vm_compute in runB (take 2 ex_run_cs) ex_m0.
Definition own_m0' : MachB := Eval vm_compute in runB [[ChThread 0; ChAddr 8200; ChAddr 8204]] own_m0.
Example C61_hyps : reachable x86_64 (BasicOps x86_64) ex_prog own_m0 /\ steps_to x86_64 (BasicOps x86_64) own_m0 own_m0' /\
  ~ live_alloc own_m0 8 /\ live_alloc own_m0' 8 /\
  reachable x86_64 (BasicOps x86_64) ex_prog own_m1 /\ steps_to x86_64 (BasicOps x86_64) own_m1 own_m2 /\
  live_alloc own_m1 8 /\ ~ live_alloc own_m2 8.
Proof.
  assert (E0 : run x86_64 B64 (take 2 ex_run_cs) ex_m0 = Ret own_m0) by (vm_compute; reflexivity).
  split; [exact (reachB _ _ _ _ _ _ ex_m0_new E0)|].
  split; [exists [ChThread 0; ChAddr 8200; ChAddr 8204]; vm_compute; reflexivity|].
  split; [intros (a & Ha & Hl); vm_compute in Ha; discriminate|].
  split; [eexists; split; reflexivity|].
  destruct C49_hyps as (_ & _ & H1 & H2 & _ & _ & _ & _ & _ & _ & H3 & H4). done.
Qed.

(** * C53 Initial memory matches the program *)

(** in every reachable state each global, function and vtable is a live allocation of its own, of the right size and
    alignment, and not at address zero *)
Theorem C53_objects {PE AE F} `{EqDecision (nat * PE)} T (MO : MemOps (nat * PE) F (BMem PE AE)) prog
    (m : Machine (nat * PE) F (BMem PE AE)) o k s al :
  target_ok T -> memory_model T MO -> names_unique prog -> reachable T MO prog m -> obj_desc prog o = Some (k, s, al) ->
  exists p id, obj_ptr m o = Some p /\ object_at m p id k s al /\ 0 < tp_addr p /\
    tp_addr p mod Z.of_N (align_bytes al) = 0 /\ tp_addr p + Z.of_N s < 2 ^ (8 * Z.of_N (PTR_SIZE T)).
Proof. intros Tok MM. exact (reach_objects T MO (model_like _ _ MM) Tok prog m o k s al). Qed.
Print Assumptions C53_objects.
(** and the machine knows no others *)
Theorem C53_no_others {PE AE F} `{EqDecision (nat * PE)} T (MO : MemOps (nat * PE) F (BMem PE AE)) prog
    (m : Machine (nat * PE) F (BMem PE AE)) o :
  target_ok T -> memory_model T MO -> names_unique prog -> reachable T MO prog m -> obj_desc prog o = None -> obj_ptr m o = None.
Proof. intros Tok MM. exact (reach_no_objects T MO (model_like _ _ MM) Tok prog m o). Qed.
Print Assumptions C53_no_others.
(** different objects have different addresses and different provenance *)
Theorem C53_distinct {PE AE F} `{EqDecision (nat * PE)} T (MO : MemOps (nat * PE) F (BMem PE AE)) prog
    (m : Machine (nat * PE) F (BMem PE AE)) o o' p p' :
  target_ok T -> memory_model T MO -> names_unique prog -> reachable T MO prog m ->
  obj_ptr m o = Some p -> obj_ptr m o' = Some p' -> o <> o' ->
  tp_addr p <> tp_addr p' /\ option_map fst (tp_prov p) <> option_map fst (tp_prov p').
Proof. intros Tok MM. exact (reach_distinct T MO (model_like _ _ MM) Tok prog m o o' p p'). Qed.
Print Assumptions C53_distinct.
(** in the initial state each global holds its bytes, with the relocations replaced by the addresses *)
Theorem C53_contents {PE AE F} `{EqDecision (nat * PE)} T (MO : MemOps (nat * PE) F (BMem PE AE)) prog
    (m : Machine (nat * PE) F (BMem PE AE)) n g :
  target_ok T -> memory_model T MO -> names_unique prog -> starts T MO prog m -> map_get (pr_globals prog) n = Some g ->
  exists p id pe a, obj_ptr m (OGlobal n) = Some p /\ tp_prov p = Some (id, pe) /\ cm_mem (m_mem m) !! id = Some a /\
    length (al_data a) = length (g_bytes g) /\
    forall i b, al_data a !! i = Some b -> global_byte T (m_globals m) (g_bytes g) (g_relocations g) i b.
Proof. intros Tok MM. exact (start_contents T MO (model_like _ _ MM) Tok prog m n g). Qed.
Print Assumptions C53_contents.
(** the objects stay where they are *)
Theorem C53_constant {PE AE F} `{EqDecision (nat * PE)} T (MO : MemOps (nat * PE) F (BMem PE AE))
    (m m' : Machine (nat * PE) F (BMem PE AE)) o :
  steps_to T MO m m' -> obj_ptr m' o = obj_ptr m o.
Proof. exact (step_objects T MO m m' o). Qed.
Print Assumptions C53_constant.

(** bytes 8 to 15 of the example's global hold its own address plus 4 *)
Example C53_hyps : names_unique ex_prog /\ starts x86_64 (BasicOps x86_64) ex_prog ex_m0 /\
  obj_desc ex_prog (OGlobal 0) = Some (AGlobal, 16%N, mkAlign 3) /\ obj_desc ex_prog (OFn 1) = Some (AFunction, 0%N, align_one) /\
  obj_desc ex_prog (OVTable 0) = Some (AVTable, 0%N, align_one) /\
  map_get (pr_globals ex_prog) 0%N = Some ex_global /\ last_cover x86_64 (g_relocations ex_global) 8 (8%N, mkReloc 0 4) /\
  Forall (fun r => ~ covers x86_64 7 r) (g_relocations ex_global).
Proof.
  split; [repeat split; apply NoDup_ListNoDup; repeat constructor; cbn; intuition discriminate|].
  split; [by eexists _, _; exact ex_m0_new|]. do 4 (split; [reflexivity|]). split.
  - exists [], []. split; [reflexivity|]. split; [|constructor]. unfold covers. cbn. lia.
  - repeat constructor. unfold covers. cbn. lia.
Qed.

(** * C54 Function and vtable pointers resolve exactly *)

(** a value denotes function [f] iff it is the thin pointer to [f]; anything else is undefined behaviour *)
Theorem C54_functions {PE AE F} `{EqDecision (nat * PE)} T (MO : MemOps (nat * PE) F (BMem PE AE)) prog
    (m : Machine (nat * PE) F (BMem PE AE)) v :
  target_ok T -> memory_model T MO -> names_unique prog -> reachable T MO prog m ->
  (forall f, fn_from_ptr m v = Ret f <-> exists n p, v = VPtr (mkPtr p None) /\ obj_ptr m (OFn n) = Some p /\
     map_get (pr_functions prog) n = Some f) /\
  ((forall n p, v = VPtr (mkPtr p None) -> obj_ptr m (OFn n) <> Some p) -> is_ub (fn_from_ptr m v)).
Proof. intros Tok MM. exact (fn_lookup T MO (model_like _ _ MM) Tok prog m v). Qed.
Print Assumptions C54_functions.
Theorem C54_vtables {PE AE F} `{EqDecision (nat * PE)} T (MO : MemOps (nat * PE) F (BMem PE AE)) prog
    (m : Machine (nat * PE) F (BMem PE AE)) p :
  target_ok T -> memory_model T MO -> names_unique prog -> reachable T MO prog m ->
  (forall vt, vtable_from_ptr m p = Ret vt <-> exists n, obj_ptr m (OVTable n) = Some p /\ map_get (pr_vtables prog) n = Some vt) /\
  (forall vt, vtable_lookup m p = Ret vt <-> exists n, obj_ptr m (OVTable n) = Some p /\ map_get (pr_vtables prog) n = Some vt) /\
  ((forall n, obj_ptr m (OVTable n) <> Some p) -> is_ub (vtable_from_ptr m p)).
Proof. intros Tok MM. exact (vt_lookup T MO (model_like _ _ MM) Tok prog m p). Qed.
Print Assumptions C54_vtables.
(** looking up a method in a vtable gives the pointer to the function the vtable names *)
Theorem C54_methods {PE AE F} `{EqDecision (nat * PE)} T (MO : MemOps (nat * PE) F (BMem PE AE)) prog
    (m : Machine (nat * PE) F (BMem PE AE)) method p meta pt vt n fn q :
  target_ok T -> memory_model T MO -> names_unique prog -> reachable T MO prog m ->
  obj_ptr m (OVTable n) = Some p -> map_get (pr_vtables prog) n = Some vt ->
  map_get (vt_methods vt) method = Some fn -> obj_ptr m (OFn fn) = Some q ->
  eval_un_op T MO m (UVTableMethodLookup method) (VPtr (mkPtr p meta), TPtr pt) = Ret (VPtr (mkPtr q None), TPtr PFnPtr).
Proof. intros Tok MM. exact (method_lookup T MO (model_like _ _ MM) Tok prog m method p meta pt vt n fn q). Qed.
Print Assumptions C54_methods.
(** a call that is executed enters the function whose pointer the callee expression evaluates to *)
Theorem C54_calls {PE AE F} `{EqDecision (nat * PE)} T (MO : MemOps (nat * PE) F (BMem PE AE)) prog
    (m m' : Machine (nat * PE) F (BMem PE AE)) callee conv args ret nb ub :
  target_ok T -> memory_model T MO -> names_unique prog -> reachable T MO prog m -> steps_to T MO m m' ->
  at_terminator m (m_active m') (TmCall callee conv args ret nb ub) ->
  exists pl rty ma m1 n p ty mb f,
    eval_place T MO ret (begin_step m (m_active m')) = Ret (pl, rty, ma) /\
    prepare_for_inplace_passing T MO ma pl rty = Ret m1 /\
    eval_value T MO callee m1 = Ret (VPtr (mkPtr p None), ty, mb) /\ obj_ptr m (OFn n) = Some p /\
    frame_of m' (m_active m') 0 f /\ map_get (pr_functions prog) n = Some (f_func f).
Proof. intros Tok MM. exact (step_call T MO (model_like _ _ MM) Tok prog m m' callee conv args ret nb ub). Qed.
Print Assumptions C54_calls.

Example C54_hyps : names_unique ex_prog /\ reachable x86_64 (BasicOps x86_64) ex_prog own_m0 /\
  obj_ptr own_m0 (OFn 1) = Some (mkThin 2 (Some (2%nat, tt))) /\
  fn_from_ptr own_m0 (VPtr (mkPtr (mkThin 2 (Some (2%nat, tt))) None)) = Ret ex_inc /\
  is_ub (fn_from_ptr own_m0 (VPtr (mkPtr (mkThin 2 None) None))) /\
  obj_ptr own_m0 (OVTable 0) = Some (mkThin 4 (Some (4%nat, tt))) /\
  map_get (pr_vtables ex_prog) 0%N = Some ex_vtable /\ map_get (vt_methods ex_vtable) 0%N = Some 1%N /\
  steps_to x86_64 (BasicOps x86_64) own_m0 own_m0' /\
  exists callee conv args ret nb ub, at_terminator own_m0 (m_active own_m0') (TmCall callee conv args ret nb ub).
Proof.
  split; [apply C53_hyps|]. split; [apply C61_hyps|]. split; [reflexivity|]. split; [reflexivity|].
  split; [by eexists|]. do 3 (split; [reflexivity|]). split; [apply C61_hyps|].
  do 6 eexists. eexists _, _. split; [eexists _, _; split; [reflexivity|]; split; reflexivity|]. split; reflexivity.
Qed.
