(** C78: a step is undefined behaviour exactly if it is not allowed. *)
From Verif Require Export UbSpec LiveSpec.
From Verif Require Import UbStep PropsSafe PropsLive ExData ExSafe.
Local Open Scope Z_scope.

(** C78. In the basic memory model, a thread goes on only with a step that is allowed (UbSpec.v lists what is allowed), ... *)
Theorem C78_goes_on T prog m m' a cs :
  target_ok T -> target_std T -> strict_program T prog -> reachable T (BasicOps T) prog m -> enabled m a ->
  step T (BasicOps T) (ChThread a :: cs) m = Ret m' -> step_allowed T m a.
Proof. intros Tok Std Hs Hr Hen E. pose proof (goes_allowed T Tok Std prog Hs m a cs Hr Hen) as Hg. by rewrite E in Hg. Qed.
Print Assumptions C78_goes_on.

(** ... and so is a step that ends the execution in another way than by undefined behaviour. *)
Theorem C78_ends T prog m a cs t :
  target_ok T -> target_std T -> strict_program T prog -> reachable T (BasicOps T) prog m -> enabled m a ->
  step T (BasicOps T) (ChThread a :: cs) m = Stop t -> (exists msg, t = TUb msg) \/ step_allowed T m a.
Proof.
  intros Tok Std Hs Hr Hen E. pose proof (goes_allowed T Tok Std prog Hs m a cs Hr Hen) as Hg. rewrite E in Hg.
  destruct t; [left; by eexists|right; exact Hg..].
Qed.
Print Assumptions C78_ends.

(** C78. A step that is undefined behaviour is not allowed, or races with the step before. *)
Theorem C78_ub T prog m a cs :
  target_ok T -> target_std T -> strict_program T prog -> reachable T (BasicOps T) prog m -> enabled m a ->
  is_ub (step T (BasicOps T) (ChThread a :: cs) m) -> ~ step_allowed T m a \/ races_before T (BasicOps T) m a cs.
Proof. intros Tok Std Hs Hr Hen [msg E]. pose proof (goes_allowed T Tok Std prog Hs m a cs Hr Hen) as Hg. by rewrite E in Hg. Qed.
Print Assumptions C78_ub.

(** C78. Programs that never panic (C47): whatever is chosen, a step that is not allowed, or races with the step before,
    is undefined behaviour. *)
Theorem C78_not_allowed T prog m a cs :
  target_ok T -> target_std T -> strict_program T prog -> simple_program T prog -> reachable T (BasicOps T) prog m ->
  (length (m_threads m) <= 127)%nat -> (length (m_locks m) <= 127)%nat -> enabled m a ->
  ~ step_allowed T m a \/ races_before T (BasicOps T) m a cs ->
  is_ub (step T (BasicOps T) (ChThread a :: cs) m) \/ step T (BasicOps T) (ChThread a :: cs) m = NoBehavior.
Proof.
  intros Tok Std Hs Hsim Hr Hth Hlk Hen [Hna|Hra]; [|left; by apply (races_ub_step T prog)].
  pose proof (goes_allowed T Tok Std prog Hs m a cs Hr Hen) as Hg.
  pose proof (C47_no_panic_basic T prog m (ChThread a :: cs) Tok Std Hs Hsim Hr Hth Hlk) as Hp.
  destruct (step _ _ _ m) as [m'|t| |]; [done| |done|by right]. left. destruct t; try done. by eexists.
Qed.
Print Assumptions C78_not_allowed.

(** C78. So for these programs the list is exact, as long as there is room for what the step allocates: some choices
    make the step undefined behaviour exactly if it is not allowed, or some choices make it race with the step before. *)
Theorem C78_exact T prog m a :
  target_ok T -> target_std T -> strict_program T prog -> simple_program T prog -> reachable T (BasicOps T) prog m ->
  (length (m_threads m) <= 127)%nat -> (length (m_locks m) <= 127)%nat -> enabled m a ->
  (forall rs, asks T m a rs -> room T m (takes_all rs)) ->
  (exists cs, is_ub (step T (BasicOps T) (ChThread a :: cs) m)) <->
  ~ step_allowed T m a \/ exists cs, races_before T (BasicOps T) m a cs.
Proof.
  intros Tok Std Hs Hsim Hr Hth Hlk Hen Hroom. split.
  - intros [cs Hub]. apply (C78_ub T prog m a cs Tok Std Hs Hr Hen) in Hub as [?|?]; [by left|right; by exists cs].
  - intros [Hna|[cs Hra]]; [|exists cs; by apply (races_ub_step T prog)].
    destruct (C77_step T (BasicOps T) prog m a Tok (mm_basic T) Hr Hen Hroom) as [cs Hcs]. exists cs.
    by destruct (C78_not_allowed T prog m a cs Tok Std Hs Hsim Hr Hth Hlk Hen ltac:(by left)).
Qed.
Print Assumptions C78_exact.

(** let x: u32; let y: u32 = x; *)
Definition un_prog : Program := one_fn (main [(1%N, TInt u32_t); (2%N, TInt u32_t)]
  [(0%N, blk [SStorageLive 1; SStorageLive 2; SAssign (PLocal 2) (ELoad (PLocal 1))] (TmGoto 1)); (1%N, exit_blk)]).
Definition un_m0 : MachB := Eval vm_compute in newB un_prog [ChAddr 1; ChAddr 5].
Lemma un_m0_new : machine_new x86_64 B64 un_prog [ChAddr 1; ChAddr 5] = Ret (un_m0, []).
Proof. vm_compute. reflexivity. Qed.
Definition un_m1 : MachB := runB [[ChThread 0; ChAddr 8192]; [ChThread 0; ChAddr 8196]] un_m0.
Lemma un_m1_run : run x86_64 B64 [[ChThread 0; ChAddr 8192]; [ChThread 0; ChAddr 8196]] un_m0 = Ret un_m1.
Proof. vm_compute. reflexivity. Qed.
Lemma un_at : at_statement un_m1 0 (SAssign (PLocal 2) (ELoad (PLocal 1))).
Proof. apply next_stmt. vm_compute. reflexivity. Qed.

(** a program that reads a variable without a value: the step that does so meets the hypotheses of C78_exact, and is
    undefined behaviour; and a step, the call in the example program, that goes on *)
Example C78_hyps :
  strict_program x86_64 un_prog /\ simple_program x86_64 un_prog /\ reachable x86_64 B64 un_prog un_m1 /\
  length (m_threads un_m1) = 1%nat /\ m_locks un_m1 = [] /\ enabled un_m1 0 /\
  (forall rs, asks x86_64 un_m1 0 rs -> room x86_64 un_m1 (takes_all rs)) /\
  is_ub (step x86_64 B64 [ChThread 0] un_m1) /\ ~ step_allowed x86_64 un_m1 0 /\
  strict_program x86_64 da_prog /\ reachable x86_64 B64 da_prog (da_at 13) /\ enabled (da_at 13) 0 /\
  step_allowed x86_64 (da_at 13) 0.
Proof.
  assert (strict_program x86_64 un_prog) as Hs by (apply strictb_ok; vm_compute; reflexivity).
  assert (reachable x86_64 B64 un_prog un_m1) as Hr by exact (reachB _ _ _ _ _ _ un_m0_new un_m1_run).
  assert (enabled un_m1 0) as Hen by (vm_compute; reflexivity).
  assert (is_ub (step x86_64 B64 [ChThread 0] un_m1)) as Hub by (eexists; vm_compute; reflexivity).
  assert (strict_program x86_64 da_prog) as Hs' by (apply strictb_ok; vm_compute; reflexivity).
  destruct (da_go 13 ltac:(lia)) as [Hr' Hstep]. assert (enabled (da_at 13) 0) as Hen' by (vm_compute; reflexivity).
  split; [exact Hs|]. split; [apply simpleb_ok; vm_compute; reflexivity|]. split; [exact Hr|]. split; [vm_compute; reflexivity|].
  split; [vm_compute; reflexivity|]. split; [exact Hen|]. split.
  { intros rs Hask. destruct Hask as [l f r Hat|callee conv args ret nb ub n func rs Ht|args ret nb n func rs Ht|e1 e2 ret nb s al ty1 ty2 Ht].
    - destruct Hat as (g & b & (t & r' & H1 & H2 & H3) & H4), un_at as (g' & b' & (t' & r'' & H1' & H2' & H3') & H4'). congruence.
    - by destruct (at_term_stmt _ _ _ _ Ht un_at).
    - by destruct (at_term_stmt _ _ _ _ Ht un_at).
    - by destruct (at_term_stmt _ _ _ _ Ht un_at). }
  split; [exact Hub|]. split.
  { destruct (C78_ub x86_64 un_prog un_m1 0 [] x86_64_ok x86_64_std Hs Hr Hen Hub) as [Hna|(Hne & _)]; [exact Hna|]. destruct Hne. vm_compute. reflexivity. }
  split; [exact Hs'|]. split; [exact Hr'|]. split; [exact Hen'|]. destruct Hstep as [cs Hstep]. pose proof Hstep as Hp. apply step_picks in Hp as [rest ->].
  assert (m_active (da_at 14) = 0%nat) as E by (vm_compute; reflexivity). rewrite E in Hstep.
  exact (C78_goes_on x86_64 da_prog _ _ 0 rest x86_64_ok x86_64_std Hs' Hr' Hen' Hstep).
Qed.

(** a step that is allowed, and is undefined behaviour because it races with the step before *)
Example C78_race : strict_program x86_64 race_prog /\ simple_program x86_64 race_prog /\ reachable x86_64 B64 race_prog race_m4 /\
  enabled race_m4 0 /\ races_before x86_64 B64 race_m4 0 [] /\ step x86_64 B64 [ChThread 0] race_m4 = Stop (TUb "Data race").
Proof.
  split; [apply strictb_ok; vm_compute; reflexivity|]. split; [apply simpleb_ok; vm_compute; reflexivity|].
  split; [eapply reach_step; [exact race_m1_reach|]; eexists; exact race_m4_step|]. split; [vm_compute; reflexivity|].
  split; [|vm_compute; reflexivity]. split; [discriminate|]. split.
  { change (0%nat ∉ [1%nat]). intros H. apply elem_of_list_In in H as [H|[]]. discriminate. }
  exists race_m5, (mkAccess AcLoad NonAtomic 4096 4), (mkAccess AcStore NonAtomic 4096 4).
  split; [exact race_m5_step|]. split; [apply elem_of_list_In; left; reflexivity|]. split; [apply elem_of_list_In; left; reflexivity|].
  vm_compute. reflexivity.
Qed.
