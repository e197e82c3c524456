(** What the steps of a program do: data (C62 to C64, C68, C69), control (C65), threads (C66), and the meaning of
    expressions (C67). *)
From Verif Require Import MeanProofs ExData PropsOwn.
From Verif Require Import DataSpec ExprSpec.
From Coq Require Import Init.Byte.
Local Open Scope Z_scope.

(** retagging changes only the permissions of a pointer *)
Lemma model_retag T {PE AE F} (MO : MemOps (nat * PE) F (BMem PE AE)) : memory_model T MO ->
  forall mem f ptr pt fe lk q mem' f', mo_retag MO mem f ptr pt fe lk = Ret (q, mem', f') -> same_dest ptr q.
Proof.
  destruct 1; intros mem f ptr pt fe lk q mem' f' E.
  - injection E as <- _ _. done.
  - simpl in E. apply tb_retag_ret in E as [(_ & -> & _)|(s & p' & Hs & Hr & ->)]; [done|].
    apply reborrow_ret in Hr as [(_ & _ & -> & _)|(id & parent & a & a' & cp & Hp & _ & _ & _ & -> & _)]; [done|].
    split; [done|]. split; [done|]. simpl. by rewrite Hp.
Qed.

(** * C67 Expressions mean what the language says *)

(** If evaluation of an expression yields a value, this is a value the expression stands for (ExprSpec.v), and
    evaluation has changed neither bytes nor objects nor control. *)
Theorem C67_values {PE AE F} `{EqDecision (nat * PE)} T (MO : MemOps (nat * PE) F (BMem PE AE))
    (m m' : Machine (nat * PE) F (BMem PE AE)) e v ty :
  target_ok T -> memory_model T MO -> eval_value T MO e m = Ret (v, ty, m') ->
  value_means T m e v ty /\ (forall id i, cell m' id i = cell m id i) /\ same_control m m' /\
  (forall p id k s al, object_at m' p id k s al <-> object_at m p id k s al).
Proof.
  intros Tok MM E. destruct (value_meaning T MO (model_like _ _ MM) Tok (model_retag _ _ MM) m m m' e v ty (still_refl m) E) as [H1 H2].
  split; [done|]. exact (still_only m m' H2).
Qed.
Print Assumptions C67_values.
(** ... and the same for places *)
Theorem C67_places {PE AE F} `{EqDecision (nat * PE)} T (MO : MemOps (nat * PE) F (BMem PE AE))
    (m m' : Machine (nat * PE) F (BMem PE AE)) p pl ty :
  target_ok T -> memory_model T MO -> eval_place T MO p m = Ret (pl, ty, m') ->
  place_means T m p (pl_ptr pl) (pl_aligned pl) ty /\ (forall id i, cell m' id i = cell m id i) /\ same_control m m' /\
  (forall p id k s al, object_at m' p id k s al <-> object_at m p id k s al).
Proof.
  intros Tok MM E. destruct (place_meaning T MO (model_like _ _ MM) Tok (model_retag _ _ MM) m m m' p pl ty (still_refl m) E) as [H1 H2].
  split; [done|]. exact (still_only m m' H2).
Qed.
Print Assumptions C67_places.
(** in the example: the sum of an element of an array and a constant *)
Example C67_hyps : exists m', eval_value x86_64 B64 (EBinOp (BInt IAdd) (ELoad (PIndex (PLocal 4) (u32_e 1))) (u32_e 4)) (da_at 7) =
  Ret (VInt 9, TInt u32_t, m').
Proof. eexists. vm_compute. reflexivity. Qed.

(** * C62 Statements write their destination, and nothing else *)

(** An assignment writes the representation of the value to the place, and no other byte. *)
Theorem C62_assign {PE AE F} `{EqDecision (nat * PE)} T (MO : MemOps (nat * PE) F (BMem PE AE)) prog
    (m m' : Machine (nat * PE) F (BMem PE AE)) d e :
  target_ok T -> memory_model T MO -> reachable T MO prog m -> steps_to T MO m m' ->
  at_statement m (m_active m') (SAssign d e) ->
  exists ptr ty v vt bs, place_means T (turn m (m_active m')) d ptr true ty /\ value_means T (turn m (m_active m')) e v vt /\
    encode T ty v = Ret bs /\ writes m m' (p_thin ptr) bs.
Proof. intros Tok MM _. exact (mean_assign T MO (model_like _ _ MM) Tok (model_retag _ _ MM) m m' d e). Qed.
Print Assumptions C62_assign.

(** Deinitialising a place erases its bytes, and no other byte. *)
Theorem C62_deinit {PE AE F} `{EqDecision (nat * PE)} T (MO : MemOps (nat * PE) F (BMem PE AE)) prog
    (m m' : Machine (nat * PE) F (BMem PE AE)) p :
  target_ok T -> memory_model T MO -> reachable T MO prog m -> steps_to T MO m m' ->
  at_statement m (m_active m') (SDeinit p) ->
  exists ptr ty s, place_means T (turn m (m_active m')) p ptr true ty /\ size_of T ty = Ret s /\ erases m m' (p_thin ptr) s.
Proof. intros Tok MM _. exact (mean_deinit T MO (model_like _ _ MM) Tok (model_retag _ _ MM) m m' p). Qed.
Print Assumptions C62_deinit.

(** Setting the discriminant writes the tags of the variant, and no other byte. Tags that later ones do not
    overwrite are stored afterwards. *)
Theorem C62_set_discriminant {PE AE F} `{EqDecision (nat * PE)} T (MO : MemOps (nat * PE) F (BMem PE AE)) prog
    (m m' : Machine (nat * PE) F (BMem PE AE)) p v :
  target_ok T -> memory_model T MO -> reachable T MO prog m -> steps_to T MO m m' ->
  at_statement m (m_active m') (SSetDiscriminant p v) ->
  exists ptr variants dty d s al vty tags, place_means T (turn m (m_active m')) p ptr true (TEnum variants dty d s al) /\
    map_get variants v = Some (vty, tags) /\ keeps m m' (tag_cells m (p_thin ptr) tags) /\
    forall l1 o it x l2, tags = l1 ++ (o, (it, x)) :: l2 ->
      Forall (fun e => (o + it_size it <= fst e)%N \/ (fst e + it_size (fst (snd e)) <= o)%N) l2 ->
      exists bs, encode T (TInt it) (VInt x) = Ret bs /\ stores_at m' (past (p_thin ptr) o) bs.
Proof. intros Tok MM _. exact (mean_set_discr T MO (model_like _ _ MM) Tok (model_retag _ _ MM) m m' p v). Qed.
Print Assumptions C62_set_discriminant.

(** Validating a place stores the value it holds back, with pointers whose permissions may have changed. *)
Theorem C62_validate {PE AE F} `{EqDecision (nat * PE)} T (MO : MemOps (nat * PE) F (BMem PE AE)) prog
    (m m' : Machine (nat * PE) F (BMem PE AE)) p fe :
  target_ok T -> memory_model T MO -> reachable T MO prog m -> steps_to T MO m m' ->
  at_statement m (m_active m') (SValidate p fe) ->
  exists ptr ty v w bs, place_means T (turn m (m_active m')) p ptr true ty /\ holds T m (p_thin ptr) ty v /\
    valid T (turn m (m_active m')) ty v /\ retagged v w /\
    encode T ty w = Ret bs /\ writes m m' (p_thin ptr) bs.
Proof. intros Tok MM _. exact (mean_validate T MO (model_like _ _ MM) Tok (model_retag _ _ MM) m m' p fe). Qed.
Print Assumptions C62_validate.

(** Mentions of places and the start and end of variables change no byte that exists. *)
Theorem C62_silent_statements {PE AE F} `{EqDecision (nat * PE)} T (MO : MemOps (nat * PE) F (BMem PE AE)) prog
    (m m' : Machine (nat * PE) F (BMem PE AE)) s :
  target_ok T -> memory_model T MO -> reachable T MO prog m -> steps_to T MO m m' ->
  at_statement m (m_active m') s ->
  match s with SPlaceMention _ | SStorageLive _ | SStorageDead _ => True | _ => False end -> keeps_all m m'.
Proof. intros _ MM _. exact (step_silent_stmt T MO (model_like _ _ MM) m m' s). Qed.
Print Assumptions C62_silent_statements.

(** Neither do jumps and unwinding. *)
Theorem C62_silent_terminators {PE AE F} `{EqDecision (nat * PE)} T (MO : MemOps (nat * PE) F (BMem PE AE)) prog
    (m m' : Machine (nat * PE) F (BMem PE AE)) tm :
  target_ok T -> memory_model T MO -> reachable T MO prog m -> steps_to T MO m m' ->
  at_terminator m (m_active m') tm ->
  match tm with TmGoto _ | TmSwitch _ _ _ | TmStartUnwind _ _ | TmStopUnwind _ | TmResumeUnwind => True | _ => False end ->
  keeps_all m m'.
Proof. intros _ MM _. exact (step_silent_term T MO (model_like _ _ MM) m m' tm). Qed.
Print Assumptions C62_silent_terminators.

(** steps of the example with the five kinds of statement; the second assignment turns four uninitialised bytes into 5 *)

Example C62_assign_hyps : reachable x86_64 B64 da_prog (da_at 6) /\ steps_to x86_64 B64 (da_at 6) (da_at 7) /\
  at_statement (da_at 6) (m_active (da_at 7)) (SAssign (PIndex (PLocal 4) (u32_e 1)) (u32_e 5)).
Proof. apply (da_stmt 6); [lia|vm_compute; reflexivity]. Qed.

Example C62_assign_bytes : List.map (cell (da_at 6) 6) [3; 4; 5]%nat = [Some Uninit; Some Uninit; Some Uninit] /\
  List.map (cell (da_at 7) 6) [3; 4; 5]%nat = [Some Uninit; Some (Init x05 None); Some (Init x00 None)].
Proof. split; vm_compute; reflexivity. Qed.

Example C62_deinit_hyps : reachable x86_64 B64 da_prog (da_at 10) /\ steps_to x86_64 B64 (da_at 10) (da_at 11) /\
  at_statement (da_at 10) (m_active (da_at 11)) (SDeinit (PLocal 2)).
Proof. apply (da_stmt 10); [lia|vm_compute; reflexivity]. Qed.

Example C62_set_discriminant_hyps : reachable x86_64 B64 da_prog (da_at 8) /\ steps_to x86_64 B64 (da_at 8) (da_at 9) /\
  at_statement (da_at 8) (m_active (da_at 9)) (SSetDiscriminant (PLocal 5) 1).
Proof. apply (da_stmt 8); [lia|vm_compute; reflexivity]. Qed.

Example C62_validate_hyps : reachable x86_64 B64 da_prog (da_at 9) /\ steps_to x86_64 B64 (da_at 9) (da_at 10) /\
  at_statement (da_at 9) (m_active (da_at 10)) (SValidate (PLocal 1) false).
Proof. apply (da_stmt 9); [lia|vm_compute; reflexivity]. Qed.

Example C62_silent_statements_hyps : reachable x86_64 B64 da_prog (da_at 11) /\ steps_to x86_64 B64 (da_at 11) (da_at 12) /\
  at_statement (da_at 11) (m_active (da_at 12)) (SPlaceMention (PLocal 1)).
Proof. apply (da_stmt 11); [lia|vm_compute; reflexivity]. Qed.

Example C62_silent_terminators_hyps : reachable x86_64 B64 da_prog (da_at 22) /\ steps_to x86_64 B64 (da_at 22) (da_at 23) /\
  at_terminator (da_at 22) (m_active (da_at 23)) (TmGoto 8).
Proof. apply (da_term 22); [lia|vm_compute; reflexivity]. Qed.

(** * C63 Calls hand over the arguments *)

(** A call enters the function the callee expression points to, which has the calling convention of the call, and whose
    return type and parameter types fit. It starts at its first block, in a frame on top of the frames there were. Its
    parameters hold the values of the arguments. Nothing that existed is overwritten, except that the return place and
    the places passed in place are erased. *)
Theorem C63_call {PE AE F} `{EqDecision (nat * PE)} T (MO : MemOps (nat * PE) F (BMem PE AE)) prog
    (m m' : Machine (nat * PE) F (BMem PE AE)) callee conv args ret nb ub :
  target_ok T -> memory_model T MO -> reachable T MO prog m -> steps_to T MO m m' ->
  at_terminator m (m_active m') (TmCall callee conv args ret nb ub) ->
  exists rptr al rty rs m1 fv fty func vals moved f st st',
    place_means T (turn m (m_active m')) ret rptr al rty /\ size_of T rty = Ret rs /\
    only_writes (turn m (m_active m')) m1 (p_thin rptr) (repeat Uninit (N.to_nat rs)) /\
    value_means T m1 callee fv fty /\ designates m fv func /\ args_mean T m1 args vals moved /\
    stack_of m (m_active m') st /\ stack_of m' (m_active m') (f :: st') /\ Forall2 same_frame st st' /\
    f_func f = func /\ f_block f = fn_start func /\ f_stmt f = 0%nat /\ f_action f = BackToCaller nb ub (p_thin rptr) /\
    Forall2 (local_holds T m' f) (fn_args func) vals /\
    keeps m m' (fun id j => cell_in m (p_thin rptr) (N.to_nat rs) id j \/
                  exists q s, In (q, s) moved /\ cell_in m q (N.to_nat s) id j) /\
    conv = fn_conv func /\
    (exists rt, map_get (fn_locals func) (fn_ret func) = Some rt /\ check_abi_compatibility rty rt = Ret true) /\
    Forall2 (fun l arg => exists ty, map_get (fn_locals func) l = Some ty /\ check_abi_compatibility (snd arg) ty = Ret true)
      (fn_args func) vals.
Proof. intros Tok MM Hr. exact (mean_call T MO (model_like _ _ MM) Tok (model_retag _ _ MM) prog m m' callee conv args ret nb ub (reach_minv T MO (model_like _ _ MM) Tok prog m Hr)). Qed.
Print Assumptions C63_call.

Example C63_hyps : reachable x86_64 B64 da_prog (da_at 13) /\ steps_to x86_64 B64 (da_at 13) (da_at 14) /\
  at_terminator (da_at 13) (m_active (da_at 14)) (TmCall (fn_e 1) CcC [ByValue (ELoad (PLocal 1)); InPlace (PLocal 4)] (PLocal 2) (Some 2%N) None).
Proof. apply (da_term 13); [lia|vm_compute; reflexivity]. Qed.

(** * C64 Returns hand over the return value *)

(** A return leaves the top frame. The value in its return variable is stored in the return place of the call, and
    nothing else is written; the caller goes on at the block given in the call. In the first frame of a thread the value
    is dropped, and the thread is left without a frame. *)
Theorem C64_return {PE AE F} `{EqDecision (nat * PE)} T (MO : MemOps (nat * PE) F (BMem PE AE)) prog
    (m m' : Machine (nat * PE) F (BMem PE AE)) :
  target_ok T -> memory_model T MO -> reachable T MO prog m -> steps_to T MO m m' ->
  at_terminator m (m_active m') TmReturn ->
  exists f r rty p v, stack_of m (m_active m') (f :: r) /\ map_get (fn_locals (f_func f)) (fn_ret (f_func f)) = Some rty /\
    map_get (f_locals f) (fn_ret (f_func f)) = Some p /\ holds T m p rty v /\
    match f_action f with
    | BottomOfStack => keeps_all m m' /\ stack_of m' (m_active m') []
    | BackToCaller nb _ rp => exists b g r1 g' r1' bs, nb = Some b /\ r = g :: r1 /\ stack_of m' (m_active m') (g' :: r1') /\
        jumped b g g' /\ Forall2 same_frame r1 r1' /\ encode T rty v = Ret bs /\ writes m m' rp bs
    end.
Proof. intros _ MM _. exact (step_return_data T MO (model_like _ _ MM) m m'). Qed.
Print Assumptions C64_return.

Example C64_hyps : reachable x86_64 B64 da_prog (da_at 15) /\ steps_to x86_64 B64 (da_at 15) (da_at 16) /\
  at_terminator (da_at 15) (m_active (da_at 16)) TmReturn.
Proof. apply (da_term 15); [lia|vm_compute; reflexivity]. Qed.

(** the caller's variable [y] gets the second element of the array it passed *)
Example C64_bytes : List.map (cell (da_at 15) 4) [0; 1]%nat = [Some Uninit; Some Uninit] /\
  List.map (cell (da_at 16) 4) [0; 1]%nat = [Some (Init x05 None); Some (Init x00 None)].
Proof. split; vm_compute; reflexivity. Qed.
(** the end of a thread *)
Example C64_end_hyps : reachable x86_64 B64 lk_prog lk_m3 /\ steps_to x86_64 B64 lk_m3 lk_m4 /\
  at_terminator lk_m3 (m_active lk_m4) TmReturn.
Proof.
  split; [exact lk_m3_reach|]. split; [exists [ChThread 1]; vm_compute; reflexivity|]. apply next_term. vm_compute. reflexivity.
Qed.

(** * C65 Control goes where the program says *)

(** A goto leads to its block; other frames, variables and payloads stay as they are. *)
Theorem C65_goto {PE AE F} `{EqDecision (nat * PE)} T (MO : MemOps (nat * PE) F (BMem PE AE)) prog
    (m m' : Machine (nat * PE) F (BMem PE AE)) b :
  target_ok T -> memory_model T MO -> reachable T MO prog m -> steps_to T MO m m' ->
  at_terminator m (m_active m') (TmGoto b) -> top_moves m m' (m_active m') (jumped b) (fun x y => y = x).
Proof. intros _ _ _. exact (step_goto T MO m m' b). Qed.
Print Assumptions C65_goto.

(** A switch leads to the block of the first case for its value, or to the fallback. *)
Theorem C65_switch {PE AE F} `{EqDecision (nat * PE)} T (MO : MemOps (nat * PE) F (BMem PE AE)) prog
    (m m' : Machine (nat * PE) F (BMem PE AE)) e cases fb :
  target_ok T -> memory_model T MO -> reachable T MO prog m -> steps_to T MO m m' ->
  at_terminator m (m_active m') (TmSwitch e cases fb) ->
  exists i ty b, value_means T (turn m (m_active m')) e (VInt i) ty /\ selects cases fb i b /\
    top_moves m m' (m_active m') (jumped b) (fun x y => y = x).
Proof. intros Tok MM _. exact (mean_switch T MO (model_like _ _ MM) Tok (model_retag _ _ MM) m m' e cases fb). Qed.
Print Assumptions C65_switch.

(** An intrinsic leads to its next block. *)
Theorem C65_intrinsic {PE AE F} `{EqDecision (nat * PE)} T (MO : MemOps (nat * PE) F (BMem PE AE)) prog
    (m m' : Machine (nat * PE) F (BMem PE AE)) op args ret nb :
  target_ok T -> memory_model T MO -> reachable T MO prog m -> steps_to T MO m m' ->
  at_terminator m (m_active m') (TmIntrinsic op args ret nb) ->
  exists b, nb = Some b /\ top_moves m m' (m_active m') (jumped b) (fun x y => y = x).
Proof. intros _ _ _. exact (step_intrinsic_jumps T MO m m' op args ret nb). Qed.
Print Assumptions C65_intrinsic.

(** A statement leads to the next one; only the start and end of variables change the variables. *)
Theorem C65_statement {PE AE F} `{EqDecision (nat * PE)} T (MO : MemOps (nat * PE) F (BMem PE AE)) prog
    (m m' : Machine (nat * PE) F (BMem PE AE)) s :
  target_ok T -> memory_model T MO -> reachable T MO prog m -> steps_to T MO m m' ->
  at_statement m (m_active m') s -> match s with SStorageLive _ | SStorageDead _ => False | _ => True end ->
  top_moves m m' (m_active m') (advanced eq) (fun x y => y = x).
Proof. intros _ _ _. exact (step_statement T MO m m' s). Qed.
Print Assumptions C65_statement.

(** The start of a variable puts it into a new object with the size and alignment of its type. *)
Theorem C65_storage_live {PE AE F} `{EqDecision (nat * PE)} T (MO : MemOps (nat * PE) F (BMem PE AE)) prog
    (m m' : Machine (nat * PE) F (BMem PE AE)) l :
  target_ok T -> memory_model T MO -> reachable T MO prog m -> steps_to T MO m m' ->
  at_statement m (m_active m') (SStorageLive l) ->
  exists p s al, object_at m' p (length (cm_mem (m_mem m))) AStack s al /\ stores_at m' p (repeat Uninit (N.to_nat s)) /\
    top_moves m m' (m_active m') (fun f g => advanced (moves_local l (Some p)) f g /\
      exists ty, map_get (fn_locals (f_func f)) l = Some ty /\ size_of T ty = Ret s /\ align_of T ty = Ret al) (fun x y => y = x).
Proof. intros Tok MM _. exact (step_storage_live T MO (model_like _ _ MM) Tok m m' l). Qed.
Print Assumptions C65_storage_live.

(** The end of a variable removes it. *)
Theorem C65_storage_dead {PE AE F} `{EqDecision (nat * PE)} T (MO : MemOps (nat * PE) F (BMem PE AE)) prog
    (m m' : Machine (nat * PE) F (BMem PE AE)) l :
  target_ok T -> memory_model T MO -> reachable T MO prog m -> steps_to T MO m m' ->
  at_statement m (m_active m') (SStorageDead l) ->
  top_moves m m' (m_active m') (advanced (moves_local l None)) (fun x y => y = x).
Proof. intros _ _ _. exact (step_storage_dead T MO m m' l). Qed.
Print Assumptions C65_storage_dead.

(** The start of unwinding adds the payload and leads to the given block. *)
Theorem C65_start_unwind {PE AE F} `{EqDecision (nat * PE)} T (MO : MemOps (nat * PE) F (BMem PE AE)) prog
    (m m' : Machine (nat * PE) F (BMem PE AE)) e b :
  target_ok T -> memory_model T MO -> reachable T MO prog m -> steps_to T MO m m' ->
  at_terminator m (m_active m') (TmStartUnwind e b) ->
  exists p, value_means T (turn m (m_active m')) e (VPtr p) (TPtr (PRaw MKNone)) /\
    top_moves m m' (m_active m') (jumped b) (fun x y => y = p_thin p :: x).
Proof. intros Tok MM _. exact (mean_start_unwind T MO (model_like _ _ MM) Tok (model_retag _ _ MM) m m' e b). Qed.
Print Assumptions C65_start_unwind.

(** The end of unwinding drops the latest payload and leads to the given block. *)
Theorem C65_stop_unwind {PE AE F} `{EqDecision (nat * PE)} T (MO : MemOps (nat * PE) F (BMem PE AE)) prog
    (m m' : Machine (nat * PE) F (BMem PE AE)) b :
  target_ok T -> memory_model T MO -> reachable T MO prog m -> steps_to T MO m m' ->
  at_terminator m (m_active m') (TmStopUnwind b) ->
  top_moves m m' (m_active m') (jumped b) (fun x y => exists p, x = p :: y).
Proof. intros _ _ _. exact (step_stop_unwind T MO m m' b). Qed.
Print Assumptions C65_stop_unwind.

(** Resuming leaves the top frame and leads to the unwind block of the call. *)
Theorem C65_resume_unwind {PE AE F} `{EqDecision (nat * PE)} T (MO : MemOps (nat * PE) F (BMem PE AE)) prog
    (m m' : Machine (nat * PE) F (BMem PE AE)) :
  target_ok T -> memory_model T MO -> reachable T MO prog m -> steps_to T MO m m' ->
  at_terminator m (m_active m') TmResumeUnwind ->
  exists t f g r nb b p t' g' r', m_threads m !! m_active m' = Some t /\ t_stack t = f :: g :: r /\
    f_action f = BackToCaller nb (Some b) p /\ m_threads m' !! m_active m' = Some t' /\ t_stack t' = g' :: r' /\
    jumped b g g' /\ Forall2 same_frame r r' /\ t_payloads t' = t_payloads t.
Proof. intros _ _ _. exact (step_resume T MO m m'). Qed.
Print Assumptions C65_resume_unwind.

Example C65_goto_hyps : reachable x86_64 B64 da_prog (da_at 22) /\ steps_to x86_64 B64 (da_at 22) (da_at 23) /\
  at_terminator (da_at 22) (m_active (da_at 23)) (TmGoto 8).
Proof. apply (da_term 22); [lia|vm_compute; reflexivity]. Qed.

Example C65_switch_hyps : reachable x86_64 B64 da_prog (da_at 12) /\ steps_to x86_64 B64 (da_at 12) (da_at 13) /\
  at_terminator (da_at 12) (m_active (da_at 13)) (TmSwitch (ELoad (PLocal 1)) [(6, 2%N); (7, 1%N)] 2).
Proof. apply (da_term 12); [lia|vm_compute; reflexivity]. Qed.

Example C65_intrinsic_hyps : reachable x86_64 B64 da_prog (da_at 18) /\ steps_to x86_64 B64 (da_at 18) (da_at 19) /\
  at_terminator (da_at 18) (m_active (da_at 19)) (intr InAtomicLoad [da_x] 2 5).
Proof. apply (da_term 18); [lia|vm_compute; reflexivity]. Qed.

Example C65_statement_hyps : reachable x86_64 B64 da_prog (da_at 14) /\ steps_to x86_64 B64 (da_at 14) (da_at 15) /\
  at_statement (da_at 14) (m_active (da_at 15)) (SAssign (PLocal 0) (ELoad (PIndex (PLocal 2) (EBinOp (BInt ISub) (ELoad (PLocal 1)) (u32_e 6))))).
Proof. apply (da_stmt 14); [lia|vm_compute; reflexivity]. Qed.

Example C65_storage_live_hyps : reachable x86_64 B64 da_prog (da_at 3) /\ steps_to x86_64 B64 (da_at 3) (da_at 4) /\
  at_statement (da_at 3) (m_active (da_at 4)) (SStorageLive 4).
Proof. apply (da_stmt 3); [lia|vm_compute; reflexivity]. Qed.

Example C65_storage_dead_hyps : reachable x86_64 B64 da_prog (da_at 21) /\ steps_to x86_64 B64 (da_at 21) (da_at 22) /\
  at_statement (da_at 21) (m_active (da_at 22)) (SStorageDead 5).
Proof. apply (da_stmt 21); [lia|vm_compute; reflexivity]. Qed.

Example C65_start_unwind_hyps : reachable x86_64 B64 uw_prog (uw_at 1) /\ steps_to x86_64 B64 (uw_at 1) (uw_at 2) /\
  at_terminator (uw_at 1) (m_active (uw_at 2)) (TmStartUnwind (EConstant (KPointerWithoutProvenance 8) (TPtr (PRaw MKNone))) 1%N).
Proof. apply (uw_term 1); [lia|vm_compute; reflexivity]. Qed.

Example C65_resume_unwind_hyps : reachable x86_64 B64 uw_prog (uw_at 2) /\ steps_to x86_64 B64 (uw_at 2) (uw_at 3) /\
  at_terminator (uw_at 2) (m_active (uw_at 3)) TmResumeUnwind.
Proof. apply (uw_term 2); [lia|vm_compute; reflexivity]. Qed.

Example C65_stop_unwind_hyps : reachable x86_64 B64 uw_prog (uw_at 3) /\ steps_to x86_64 B64 (uw_at 3) (uw_at 4) /\
  at_terminator (uw_at 3) (m_active (uw_at 4)) (TmStopUnwind 2%N).
Proof. apply (uw_term 3); [lia|vm_compute; reflexivity]. Qed.

(** * C66 A step concerns its own thread only *)

(** The frames and payloads of the other threads stay as they are. They may be enabled, if they waited for a lock or for
    the end of the thread that takes the step; their state does not change otherwise. *)
Theorem C66_others {PE AE F} `{EqDecision (nat * PE)} T (MO : MemOps (nat * PE) F (BMem PE AE)) prog
    (m m' : Machine (nat * PE) F (BMem PE AE)) i t :
  target_ok T -> memory_model T MO -> reachable T MO prog m -> steps_to T MO m m' ->
  i <> m_active m' -> m_threads m !! i = Some t ->
  exists t', m_threads m' !! i = Some t' /\ Forall2 same_frame (t_stack t) (t_stack t') /\ t_payloads t' = t_payloads t /\
    (t_state t' = t_state t \/
     t_state t' = Enabled /\ (t_state t = BlockedOnJoin (m_active m') \/ exists l, t_state t = BlockedOnLock l)).
Proof. intros _ _ _. exact (step_others T MO m m' i t). Qed.
Print Assumptions C66_others.

(** The program and the addresses of globals, functions and vtables never change; exposed provenances and locks only by the
    intrinsics for them. *)
Theorem C66_fixed {PE AE F} `{EqDecision (nat * PE)} T (MO : MemOps (nat * PE) F (BMem PE AE)) prog
    (m m' : Machine (nat * PE) F (BMem PE AE)) :
  target_ok T -> memory_model T MO -> reachable T MO prog m -> steps_to T MO m m' ->
  m_prog m' = m_prog m /\ m_globals m' = m_globals m /\ m_fnptrs m' = m_fnptrs m /\ m_vtptrs m' = m_vtptrs m /\
  (~ at_intrinsic m (m_active m') InPointerExposeProvenance -> m_exposed m' = m_exposed m) /\
  ((forall k, ~ at_intrinsic m (m_active m') (InLock k)) -> m_locks m' = m_locks m).
Proof. intros _ _ _. exact (step_fixed T MO m m'). Qed.
Print Assumptions C66_fixed.

(** two threads, of which one waits for the other to end; the other one returns *)
Example C66_hyps : reachable x86_64 B64 lk_prog lk_m3 /\ steps_to x86_64 B64 lk_m3 lk_m4 /\ m_active lk_m4 = 1%nat /\
  exists t, m_threads lk_m3 !! 0%nat = Some t /\ t_state t = BlockedOnJoin 1.
Proof.
  split; [exact lk_m3_reach|]. split; [exists [ChThread 1]; vm_compute; reflexivity|]. split; [reflexivity|].
  eexists. split; reflexivity.
Qed.

(** * C68 Intrinsics yield what they say *)

(** All intrinsics but the comparison of memory and the atomic accesses: the arguments have values for which the intrinsic
    yields a result ([intr_gives] of DataSpec.v), and this is written to the return place. Nothing else is written. *)
Theorem C68_results {PE AE F} `{EqDecision (nat * PE)} T (MO : MemOps (nat * PE) F (BMem PE AE)) prog
    (m m' : Machine (nat * PE) F (BMem PE AE)) op args ret nb :
  target_ok T -> memory_model T MO -> reachable T MO prog m -> steps_to T MO m m' ->
  at_terminator m (m_active m') (TmIntrinsic op args ret nb) ->
  match op with InRawEq | InAtomicStore | InAtomicLoad | InAtomicCompareExchange | InAtomicFetchAndOp _ => False | _ => True end ->
  exists rptr rty vals v mid bs, place_means T (turn m (m_active m')) ret rptr true rty /\
    all_mean T (turn m (m_active m')) args vals /\ intr_gives T (m_active m') m mid op vals v /\ keeps_all m mid /\
    encode T rty v = Ret bs /\ writes mid m' (p_thin rptr) bs.
Proof. intros Tok MM Hr. exact (mean_intr_gives T MO (model_like _ _ MM) Tok (model_retag _ _ MM) prog m m' op args ret nb (reach_minv T MO (model_like _ _ MM) Tok prog m Hr)). Qed.
Print Assumptions C68_results.

(** An atomic load yields the value in memory. *)
Theorem C68_atomic_load {PE AE F} `{EqDecision (nat * PE)} T (MO : MemOps (nat * PE) F (BMem PE AE)) prog
    (m m' : Machine (nat * PE) F (BMem PE AE)) args ret nb :
  target_ok T -> memory_model T MO -> reachable T MO prog m -> steps_to T MO m m' ->
  at_terminator m (m_active m') (TmIntrinsic InAtomicLoad args ret nb) ->
  exists rptr rty p pty v bs, place_means T (turn m (m_active m')) ret rptr true rty /\
    all_mean T (turn m (m_active m')) args [(VPtr (mkPtr p None), pty)] /\ holds T m p rty v /\
    encode T rty v = Ret bs /\ writes m m' (p_thin rptr) bs.
Proof. intros Tok MM _. exact (mean_atomic_load T MO (model_like _ _ MM) Tok (model_retag _ _ MM) m m' args ret nb). Qed.
Print Assumptions C68_atomic_load.

(** An atomic store writes its argument. *)
Theorem C68_atomic_store {PE AE F} `{EqDecision (nat * PE)} T (MO : MemOps (nat * PE) F (BMem PE AE)) prog
    (m m' : Machine (nat * PE) F (BMem PE AE)) args ret nb :
  target_ok T -> memory_model T MO -> reachable T MO prog m -> steps_to T MO m m' ->
  at_terminator m (m_active m') (TmIntrinsic InAtomicStore args ret nb) ->
  exists rptr rty p pty v ty bs, place_means T (turn m (m_active m')) ret rptr true rty /\
    all_mean T (turn m (m_active m')) args [(VPtr (mkPtr p None), pty); (v, ty)] /\ encode T ty v = Ret bs /\ writes m m' p bs.
Proof. intros Tok MM _. exact (mean_atomic_store T MO (model_like _ _ MM) Tok (model_retag _ _ MM) m m' args ret nb). Qed.
Print Assumptions C68_atomic_store.

(** A compare-exchange writes the new value if memory held the expected one, and else nothing. It yields what memory held. *)
Theorem C68_compare_exchange {PE AE F} `{EqDecision (nat * PE)} T (MO : MemOps (nat * PE) F (BMem PE AE)) prog
    (m m' : Machine (nat * PE) F (BMem PE AE)) args ret nb :
  target_ok T -> memory_model T MO -> reachable T MO prog m -> steps_to T MO m m' ->
  at_terminator m (m_active m') (TmIntrinsic InAtomicCompareExchange args ret nb) ->
  exists rptr it p pty cur next old bs mid, place_means T (turn m (m_active m')) ret rptr true (TInt it) /\
    all_mean T (turn m (m_active m')) args [(VPtr (mkPtr p None), pty); (cur, TInt it); (next, TInt it)] /\
    holds T m p (TInt it) old /\
    (cur = old -> exists bs', encode T (TInt it) next = Ret bs' /\ writes m mid p bs') /\ (cur <> old -> keeps_all m mid) /\
    encode T (TInt it) old = Ret bs /\ writes mid m' (p_thin rptr) bs.
Proof. intros Tok MM _. exact (mean_compare_exchange T MO (model_like _ _ MM) Tok (model_retag _ _ MM) m m' args ret nb). Qed.
Print Assumptions C68_compare_exchange.

(** An atomic read-modify-write applies the operator to the value in memory and the operand, in this order. It yields what memory held. *)
Theorem C68_fetch_and_op {PE AE F} `{EqDecision (nat * PE)} T (MO : MemOps (nat * PE) F (BMem PE AE)) prog
    (m m' : Machine (nat * PE) F (BMem PE AE)) op args ret nb :
  target_ok T -> memory_model T MO -> reachable T MO prog m -> steps_to T MO m m' ->
  at_terminator m (m_active m') (TmIntrinsic (InAtomicFetchAndOp op) args ret nb) ->
  exists rptr it p pty x old new bs bs' mid, place_means T (turn m (m_active m')) ret rptr true (TInt it) /\
    all_mean T (turn m (m_active m')) args [(VPtr (mkPtr p None), pty); (VInt x, TInt it)] /\ holds T m p (TInt it) (VInt old) /\
    eval_int_bin_op op old x it = Ret new /\
    encode T (TInt it) (VInt new) = Ret bs' /\ writes m mid p bs' /\
    encode T (TInt it) (VInt old) = Ret bs /\ writes mid m' (p_thin rptr) bs.
Proof. intros Tok MM _. exact (mean_fetch_op T MO (model_like _ _ MM) Tok (model_retag _ _ MM) m m' op args ret nb). Qed.
Print Assumptions C68_fetch_and_op.

(** a spawned thread *)
Example C68_results_hyps : let m := runB (take 3 lk_cs1) lk_m0 in let m' := runB (take 4 lk_cs1) lk_m0 in
  reachable x86_64 B64 lk_prog m /\ steps_to x86_64 B64 m m' /\
  at_terminator m (m_active m') (intr InSpawn [fn_e 1; EAddrOf (PLocal 1) (PRaw MKNone)] 1 2).
Proof.
  intros m m'. split; [apply (reachB lk_prog _ (take 3 lk_cs1) _ _ _ lk_m0_new); vm_compute; reflexivity|].
  split; [exists [ChThread 0; ChAddr 6; ChAddr 8208]; vm_compute; reflexivity|]. apply next_term. vm_compute. reflexivity.
Qed.

Example C68_atomic_load_hyps : reachable x86_64 B64 da_prog (da_at 18) /\ steps_to x86_64 B64 (da_at 18) (da_at 19) /\
  at_terminator (da_at 18) (m_active (da_at 19)) (intr InAtomicLoad [da_x] 2 5).
Proof. apply (da_term 18); [lia|vm_compute; reflexivity]. Qed.

Example C68_atomic_store_hyps : reachable x86_64 B64 da_prog (da_at 19) /\ steps_to x86_64 B64 (da_at 19) (da_at 20) /\
  at_terminator (da_at 19) (m_active (da_at 20)) (intr InAtomicStore [da_x; u32_e 3] 0 6).
Proof. apply (da_term 19); [lia|vm_compute; reflexivity]. Qed.

Example C68_compare_exchange_hyps : reachable x86_64 B64 da_prog (da_at 16) /\ steps_to x86_64 B64 (da_at 16) (da_at 17) /\
  at_terminator (da_at 16) (m_active (da_at 17)) (intr InAtomicCompareExchange [da_x; u32_e 7; u32_e 8] 2 3).
Proof. apply (da_term 16); [lia|vm_compute; reflexivity]. Qed.

Example C68_fetch_and_op_hyps : reachable x86_64 B64 da_prog (da_at 17) /\ steps_to x86_64 B64 (da_at 17) (da_at 18) /\
  at_terminator (da_at 17) (m_active (da_at 18)) (intr (InAtomicFetchAndOp ISub) [da_x; u32_e 1] 2 4).
Proof. apply (da_term 17); [lia|vm_compute; reflexivity]. Qed.

(** memory goes from 7 to 8 and to 7 again; the results are 7 and 8 *)
Example C68_bytes : cell (da_at 16) 3 0 = Some (Init x07 None) /\ cell (da_at 17) 3 0 = Some (Init x08 None) /\ cell (da_at 18) 3 0 = Some (Init x07 None) /\
  cell (da_at 17) 4 0 = Some (Init x07 None) /\ cell (da_at 18) 4 0 = Some (Init x08 None).
Proof. repeat split; vm_compute; reflexivity. Qed.

(** * C69 Comparison of memory *)

(** The comparison of what two references of one type point to yields whether the bytes are equal. They are all
    initialised; their provenance does not matter. *)
Theorem C69_raw_eq {PE AE F} `{EqDecision (nat * PE)} T (MO : MemOps (nat * PE) F (BMem PE AE)) prog
    (m m' : Machine (nat * PE) F (BMem PE AE)) args ret nb :
  target_ok T -> memory_model T MO -> reachable T MO prog m -> steps_to T MO m m' ->
  at_terminator m (m_active m') (TmIntrinsic InRawEq args ret nb) ->
  exists rptr p q mu pi s al bs1 d1 bs2 d2 bs, place_means T (turn m (m_active m')) ret rptr true TBool /\
    all_mean T (turn m (m_active m')) args [(VPtr p, TPtr (PRef mu pi)); (VPtr q, TPtr (PRef mu pi))] /\ pi_layout pi = LSized s al /\
    length bs1 = N.to_nat s /\ stores_at m (p_thin p) bs1 /\ Forall2 (fun b x => exists o, b = Init x o) bs1 d1 /\
    length bs2 = N.to_nat s /\ stores_at m (p_thin q) bs2 /\ Forall2 (fun b x => exists o, b = Init x o) bs2 d2 /\
    encode T TBool (VBool (bool_decide (d1 = d2))) = Ret bs /\ writes m m' (p_thin rptr) bs.
Proof. intros Tok MM _. exact (mean_raw_eq T MO (model_like _ _ MM) Tok (model_retag _ _ MM) m m' args ret nb). Qed.
Print Assumptions C69_raw_eq.

Example C69_hyps : reachable x86_64 B64 da_prog (da_at 20) /\ steps_to x86_64 B64 (da_at 20) (da_at 21) /\
  at_terminator (da_at 20) (m_active (da_at 21)) (intr InRawEq [EAddrOf (PLocal 1) (PRef Immutable pi4); EAddrOf (PLocal 2) (PRef Immutable pi4)] 3 7).
Proof. apply (da_term 20); [lia|vm_compute; reflexivity]. Qed.
