(** C77: the machine can always go on, unless memory is full. *)
From Verif Require Export LiveSpec.
From Verif Require Import LiveProofs PlanProofs PropsOwn PropsData ExData.
Local Open Scope Z_scope.

Lemma model_acts T {PE AE F} (MO : MemOps (nat * PE) F (BMem PE AE)) : memory_model T MO -> act_ops MO.
Proof. destruct 1; [apply basic_acts|apply tree_acts]. Qed.

(** C77. A program that passes the checks can start, if its globals, functions, vtables and the first frame fit into
    the address space. *)
Theorem C77_start T {PE AE F} `{EqDecision (nat * PE)} (MO : MemOps (nat * PE) F (BMem PE AE)) prog :
  target_ok T -> memory_model T MO -> program_check_wf T prog = Ret tt -> start_room T prog ->
  exists cs, machine_new T MO prog cs <> NoBehavior.
Proof. intros Tok MM. exact (new_room T MO (model_like T MO MM) (model_acts T MO MM) Tok (model_retag T MO MM) prog). Qed.
Print Assumptions C77_start.

(** C77. In every state an execution reaches, every enabled thread can be scheduled and can take a step, if there is room
    for what the step allocates: there are choices with which the step goes on or ends the execution. *)
Theorem C77_step T {PE AE F} `{EqDecision (nat * PE)} (MO : MemOps (nat * PE) F (BMem PE AE)) prog m a :
  target_ok T -> memory_model T MO -> reachable T MO prog m -> enabled m a ->
  (forall rs, asks T m a rs -> room T m (takes_all rs)) ->
  exists cs, step T MO (ChThread a :: cs) m <> NoBehavior.
Proof.
  intros Tok MM Hr. exact (step_room T MO (model_like T MO MM) (model_acts T MO MM) Tok (model_retag T MO MM) prog m a
    (mi_prog _ _ _ (reach_minv T MO (model_like T MO MM) Tok prog m Hr)) (reach_wf T MO prog m Hr)).
Qed.
Print Assumptions C77_step.

(** C77. So no state is without behaviour, if there is room for what its threads allocate. *)
Theorem C77_never_stuck T {PE AE F} `{EqDecision (nat * PE)} (MO : MemOps (nat * PE) F (BMem PE AE)) prog m :
  target_ok T -> memory_model T MO -> reachable T MO prog m ->
  (forall a rs, enabled m a -> asks T m a rs -> room T m (takes_all rs)) ->
  exists cs, step T MO cs m <> NoBehavior.
Proof.
  intros Tok MM Hr Hroom. destruct (some_thread_in m Enabled) eqn:Es.
  - unfold some_thread_in in Es. apply existsb_exists in Es as (t & Ht & Hst). apply elem_of_list_In, elem_of_list_lookup in Ht as [a Ha].
    apply bool_decide_eq_true in Hst. assert (Hen : enabled m a).
    { unfold enabled, state_of. rewrite Ha. cbn. congruence. }
    destruct (C77_step T MO prog m a Tok MM Hr Hen) as [cs Hcs]; [intros rs; by apply Hroom|]. by eexists.
  - exists []. unfold step. by rewrite Es.
Qed.
Print Assumptions C77_never_stuck.

Lemma room_check (m : MachB) top n : 0 < top -> top + n <= 2 ^ 64 ->
  forallb (fun o => negb (al_live o) || (al_addr o + Z.of_N (al_size o) <? top)) (cm_mem (m_mem m)) = true -> room x86_64 m n.
Proof.
  intros H0 Hn Hc. exists top. split; [done|]. split; [exact Hn|]. intros id o Ho Hl. rewrite forallb_forall in Hc.
  specialize (Hc o). rewrite Hl in Hc. cbn in Hc. apply Z.ltb_lt, Hc. apply elem_of_list_In, elem_of_list_lookup. by exists id.
Qed.

Lemma da13_prog : m_prog (da_at 13) = da_prog.
Proof. vm_compute. reflexivity. Qed.
Lemma small_fits func : func = da_start \/ func = da_second -> forall rs, frame_fits x86_64 func rs -> 1 + takes_all rs <= 100.
Proof.
  intros [-> | ->] rs Hf.
  - inversion Hf as [|? [s al] ? ? (ty & Hty & Hs & Ha) Hr]; subst. inversion Hr; subst. injection Hty as <-. vm_compute in Hs, Ha.
    injection Hs as <-. injection Ha as <-. vm_compute. done.
  - inversion Hf as [|? [s al] ? ? (ty & Hty & Hs & Ha) Hr]; subst. injection Hty as <-. vm_compute in Hs, Ha. injection Hs as <-. injection Ha as <-.
    inversion Hr as [|? [s al] ? ? (ty & Hty & Hs & Ha) Hr2]; subst. injection Hty as <-. vm_compute in Hs, Ha. injection Hs as <-. injection Ha as <-.
    inversion Hr2 as [|? [s al] ? ? (ty & Hty & Hs & Ha) Hr3]; subst. injection Hty as <-. vm_compute in Hs, Ha. injection Hs as <-. injection Ha as <-.
    inversion Hr3; subst. vm_compute. done.
Qed.
Lemma da_start_room : start_room x86_64 da_prog.
Proof.
  intros rs (func & frame & Hf & Hfr & ->). injection Hf as <-. apply small_fits in Hfr; [|by left].
  change (2 ^ (8 * Z.of_N (PTR_SIZE x86_64))) with (2 ^ 64). cbn [da_prog pr_globals pr_functions pr_vtables List.map app takes_all].
  unfold takes. cbn [fst snd]. change (Z.of_N (align_bytes (mkAlign 0))) with 1. lia.
Qed.
Lemma da_second_fn : map_get (pr_functions da_prog) 1%N = Some da_second.
Proof. vm_compute. reflexivity. Qed.
Lemma da13_at : at_terminator (da_at 13) 0 (TmCall (fn_e 1) CcC [ByValue (ELoad (PLocal 1)); InPlace (PLocal 4)] (PLocal 2) (Some 2%N) None).
Proof. apply next_term. vm_compute. reflexivity. Qed.
Lemma da13_one a : enabled (da_at 13) a -> a = 0%nat.
Proof.
  unfold enabled, state_of. destruct (m_threads (da_at 13) !! a) eqn:Et; [|done]. apply lookup_lt_Some in Et.
  assert (E : length (m_threads (da_at 13)) = 1%nat) by (vm_compute; reflexivity). lia.
Qed.
Lemma da13_room n : n <= 100 -> room x86_64 (da_at 13) n.
Proof. intros Hn. apply (room_check _ 10000); [lia|lia|vm_compute; reflexivity]. Qed.

(** at the call of [da_second], there is room for its three variables; at the start there is room as well *)
Example C77_hyps : start_room x86_64 da_prog /\
  reachable x86_64 B64 da_prog (da_at 13) /\ enabled (da_at 13) 0 /\
  asks x86_64 (da_at 13) 0 [(4%N, mkAlign 2); (4%N, mkAlign 2); (8%N, mkAlign 2)] /\
  (forall a rs, enabled (da_at 13) a -> asks x86_64 (da_at 13) a rs -> room x86_64 (da_at 13) (takes_all rs)).
Proof.
  split; [apply da_start_room|]. split; [apply da_go; lia|]. split; [vm_compute; reflexivity|]. split.
  - eapply as_call; [apply da13_at|rewrite da13_prog; apply da_second_fn|].
    repeat constructor; eexists; (split; [vm_compute; reflexivity|]); by split.
  - intros a rs Hen%da13_one Hask. subst a. pose proof da13_at as Hat.
    destruct Hask as [l f r Hs|callee conv args ret nb ub n func rs Ht Hg Hf|args ret nb n func rs Ht|e1 e2 ret nb s al ty1 ty2 Ht].
    + by destruct (at_term_stmt _ _ _ _ Hat Hs).
    + apply da13_room. rewrite da13_prog in Hg. assert (func = da_start \/ func = da_second) as Hfn.
      { unfold map_get in Hg. cbn [da_prog pr_functions find fst snd] in Hg.
        repeat (case_decide || case_bool_decide || destruct (decide _)); naive_solver. }
      pose proof (small_fits _ Hfn _ Hf). lia.
    + by pose proof (at_terminator_fun _ _ _ _ Hat Ht).
    + by pose proof (at_terminator_fun _ _ _ _ Hat Ht).
Qed.
