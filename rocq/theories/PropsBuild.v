(** C73: functions made with the builder run the structured programs they were written as. C74: which structured programs
    can be written, and their variables. C75: when the functions are well-formed. C76: the expressions for booleans. *)
From Verif Require Export BuildSpec PlanSpec BuildWfSpec BuildExpr PropsOwn.
From Verif Require Import BuildTotal PlanProofs BuildWf ExBuild SafeTy.
Local Open Scope Z_scope.

(** C73, for the code of a function: from its first block on it executes its body. *)
Theorem C73_code name h c func : build_function name h c = Ret func -> follows func (fn_start func) 0 [c].
Proof. intros E. pose proof (build_total name h c) as H. rewrite E in H. apply H. Qed.
Print Assumptions C73_code.

(** C73, for executions. In a program whose functions were all made with the builder, every state is reached by an
    execution in which each step is the next thing to do in the plan of some thread, and every frame is at a point from
    where the code executes what is left of its plan. *)
Theorem C73_run T {PE AE F} `{EqDecision (nat * PE)} (MO : MemOps (nat * PE) F (BMem PE AE)) prog m :
  target_ok T -> memory_model T MO -> built_program prog -> reachable T MO prog m ->
  exists ps, runs_as T MO prog m ps /\
    Forall2 (fun t ks => Forall2 (fun p k => follows (po_func p) (po_block p) (po_stmt p) k) (positions t) ks) (m_threads m) ps.
Proof. exact (runs_plan T MO prog m). Qed.
Print Assumptions C73_run.

(** The program has a loop, branches, calls and unwinding. After 16 steps the second call has unwound, and the catching
    handler is to run. *)
Example C73_hyps : target_ok x86_64 /\ memory_model x86_64 (BasicOps x86_64) /\ built_program bd_prog /\
  (forall k, (k <= 16)%nat -> reachable x86_64 (BasicOps x86_64) bd_prog (bd_at k)) /\
  next_of (bd_at 12) 0 = Some (inr (b_if (bd_lt 2) 1 2)) /\ next_of (bd_at 14) 0 = Some (inr (TmStartUnwind bd_payload 4)) /\ next_of (bd_at 15) 0 = Some (inr TmResumeUnwind) /\
  next_of (bd_at 16) 0 = Some (inr b_exit).
Proof.
  split; [exact x86_64_ok|]. split; [constructor|]. split; [exact bd_prog_built|]. split; [|by vm_compute].
  intros k Hk. apply (reachB bd_prog _ (take k bd_cs) _ _ _ bd_m0_new). do 17 (destruct k as [|k]; [vm_compute; reflexivity|]). lia.
Qed.

(** C74. The builder makes a function exactly if nothing is written after code that cannot get to its end, handlers and
    the body as a whole cannot get to their end, and the cases of switches differ. Otherwise it panics. *)
Theorem C74_accepts name h c : (exists func, build_function name h c = Ret func) <-> proper_cmd c = true /\ falls c = false.
Proof.
  pose proof (build_total name h c) as H. destruct (build_function name h c) as [func|t| |]; simpl in H; try done.
  - destruct H as [H _]. apply andb_true_iff in H as [H1 H2]. apply negb_true_iff in H2. split; [done|]. intros _. by exists func.
  - split; [by intros [? ?]|]. intros [H1 H2]. rewrite H1, H2 in H. discriminate.
Qed.
Print Assumptions C74_accepts.
Theorem C74_panics name h c : proper_cmd c = false \/ falls c = true -> build_function name h c = Panic.
Proof.
  intros Hp. pose proof (build_total name h c) as H. destruct (build_function name h c) as [func|t| |]; simpl in H; try done.
  destruct H as [H _]. apply andb_true_iff in H as [H1 H2]. apply negb_true_iff in H2. destruct Hp; congruence.
Qed.
Print Assumptions C74_panics.

(** C74, variables: they are numbered from 0 in the order of their declarations, arguments first; the return variable
    comes after the arguments, or last if it is not declared. *)
Theorem C74_variables name h c func : build_function name h c = Ret func ->
  (forall n ty, map_get (fn_locals func) n = Some ty <-> variables h c !! N.to_nat n = Some ty) /\
  fn_args func = List.map N.of_nat (seq 0 (length (hd_args h))) /\
  fn_ret func = N.of_nat (match hd_ret h with Some _ => length (hd_args h) | None => length (hd_args h) + length (declared c) end) /\
  fn_conv func = hd_conv h.
Proof.
  intros E. pose proof (build_total name h c) as H. rewrite E in H. destruct H as (_ & _ & H1 & H2 & H3 & H4). rewrite H1.
  split; [|done]. intros n ty. rewrite numbered_lookup. done.
Qed.
Print Assumptions C74_variables.

Example C74_hyps : proper_cmd bd_main_body = true /\ falls bd_main_body = false /\ build_function 0 bd_main_header bd_main_body = Ret bd_main /\
  proper_cmd (CmSeq (CmEnd EnReturn) (CmEnd EnReturn)) = false /\ falls (CmWhile (b_const_bool true) CmSkip) = true /\
  variables bd_thrower_header bd_thrower_body = [TInt u32_t; unit_ty].
Proof. vm_compute. done. Qed.

(** C75. The check accepts a built function exactly if it accepts its variables and the parts of its body, and code is left
    and unwinds as its kind allows. In particular everything the builder adds itself is well-formed. *)
Theorem C75_wf T prog name h c func : target_std T -> build_function name h c = Ret func ->
  function_check_wf T prog func = Ret tt <->
  Forall (variable_ok T prog) (variables h c) /\ body_ok T prog func BkRegular c.
Proof. exact (build_wf T prog name h c func). Qed.
Print Assumptions C75_wf.

Example C75_hyps : target_std x86_64 /\ build_function 0 bd_main_header bd_main_body = Ret bd_main /\
  function_check_wf x86_64 bd_prog bd_main = Ret tt /\
  exists func, build_function 0 bd_main_header (CmThrow bd_payload HkTerminate (CmEnd EnAbort)) = Ret func /\
    function_check_wf x86_64 bd_prog func <> Ret tt.
Proof.
  split; [exact x86_64_std|]. split; [exact bd_main_built|]. split; [by vm_compute|]. eexists. split; [by vm_compute|]. by vm_compute.
Qed.

(** C76. If the operands are booleans, so are their negation, conjunction, disjunction and exclusive disjunction, and as
    an integer they are 0 or 1. Both operands are evaluated, the left one first. *)
Theorem C76_not {P F M} `{EqDecision P} (T : Target) (MO : MemOps P F M) m e a m1 : eval_value T MO e m = Ret (VBool a, TBool, m1) -> eval_value T MO (b_not e) m = Ret (VBool (negb a), TBool, m1).
Proof. exact (not_ret T MO m m1 e a). Qed.

Theorem C76_ops {P F M} `{EqDecision P} (T : Target) (MO : MemOps P F M) m e1 e2 a b m1 m2 : eval_value T MO e1 m = Ret (VBool a, TBool, m1) -> eval_value T MO e2 m1 = Ret (VBool b, TBool, m2) ->
  eval_value T MO (b_bool_and e1 e2) m = Ret (VBool (a && b), TBool, m2) /\
  eval_value T MO (b_bool_or e1 e2) m = Ret (VBool (a || b), TBool, m2) /\
  eval_value T MO (b_bool_xor e1 e2) m = Ret (VBool (xorb a b), TBool, m2).
Proof.
  intros H1 H2. split; [exact (and_ret T MO m m1 m2 e1 e2 a b H1 H2)|]. split; [exact (or_ret T MO m m1 m2 e1 e2 a b H1 H2)|].
  exact (xor_ret T MO m m1 m2 e1 e2 a b H1 H2).
Qed.

Theorem C76_to_int {P F M} `{EqDecision P} (T : Target) (MO : MemOps P F M) m e a m1 it : int_ok it -> eval_value T MO e m = Ret (VBool a, TBool, m1) ->
  exists e', b_bool_to_int (TInt it) e = Ret e' /\ eval_value T MO e' m = Ret (VInt (if a then 1 else 0), TInt it, m1).
Proof. intros Hit H1. exact (to_int_ret T MO m m1 e a H1 it Hit). Qed.

(** There is no short circuit: what happens in an operand happens in the whole. *)
Theorem C76_strict {P F M} `{EqDecision P} (T : Target) (MO : MemOps P F M) m e1 e2 t e : e ∈ [b_bool_and e1 e2; b_bool_or e1 e2; b_bool_xor e1 e2] ->
  eval_value T MO e1 m = Stop t \/
  (exists a m1, eval_value T MO e1 m = Ret (VBool a, TBool, m1) /\ eval_value T MO e2 m1 = Stop t) ->
  eval_value T MO e m = Stop t.
Proof.
  intros He Hs. rewrite !elem_of_cons, elem_of_nil in He.
  destruct He as [-> | [-> | [-> | [] ] ] ]; destruct Hs as [Hs | (a & m1 & H1 & H2)];
    first [exact (first_stop T MO m e1 e2 _ t Hs) | exact (second_stop T MO m m1 e1 e2 a _ t H1 H2)].
Qed.
Print Assumptions C76_not.
Print Assumptions C76_ops.
Print Assumptions C76_to_int.
Print Assumptions C76_strict.

(** C76, types: the check gives them the type of booleans. *)
Theorem C76_typed T prog locals e1 e2 : target_std T ->
  value_check_wf T prog locals e1 = Ret TBool -> value_check_wf T prog locals e2 = Ret TBool ->
  value_check_wf T prog locals (b_not e1) = Ret TBool /\
  value_check_wf T prog locals (b_bool_and e1 e2) = Ret TBool /\
  value_check_wf T prog locals (b_bool_or e1 e2) = Ret TBool /\
  value_check_wf T prog locals (b_bool_xor e1 e2) = Ret TBool.
Proof.
  intros Ts H1 H2. split; [by apply not_typed|]. split; [by apply op_typed|]. split; by apply op_typed.
Qed.
Print Assumptions C76_typed.

(** x < 2 in a state where x is 1 *)
Example C76_hyps : exists m1, eval_value x86_64 B64 (bd_lt 2) (bd_at 5) = Ret (VBool true, TBool, m1) /\
  value_check_wf x86_64 bd_prog (fn_locals bd_main) (bd_lt 2) = Ret TBool.
Proof. eexists. split; vm_compute; reflexivity. Qed.
