(** Properties of running programs (tooling/miniutil/src/{run,mock_write,cli}.rs, tooling/minirun, tooling/minitest/src/lib.rs). *)
From Coq Require Import Ascii String.
From stdpp Require Import relations.
From Verif Require Import Run RunSpec RunProofs IllProofs EndProofs OwnSpec ExMach ExSched.

Lemma model_ub T {PE AE F} (MO : MemOps (nat * PE) F (BMem PE AE)) : memory_model T MO -> ub_ops MO.
Proof. intros []; [apply basic_ub|apply tree_ub]. Qed.
Lemma model_like T {PE AE F} (MO : MemOps (nat * PE) F (BMem PE AE)) : memory_model T MO -> bm_like T MO.
Proof. intros []; [apply basic_like|apply tree_like]. Qed.

(** ** C85: running a program gives exactly its behaviours *)

(** The interpreter can report an ending, after writing the given texts, if and only if the program can end so, or is
    refused and nothing has been written. *)
Theorem C85_runs {P F M} `{EqDecision P} T (MO : MemOps P F M) prog t out err :
  (exists rounds o, run_with T MO rounds o prog = Done (t, out, err)) <->
  can_end T MO prog out err t \/ (refused T MO prog t /\ out = EmptyString /\ err = EmptyString).
Proof. exact (run_ends T MO prog t out err). Qed.
Print Assumptions C85_runs.

(** The ending that it reports without the texts. *)
Theorem C85_program {PE AE F} `{EqDecision PE} T (MO : MemOps (nat * PE) F (BMem PE AE)) prog t :
  (exists rounds o, run_program T MO rounds o prog = Done t) <->
  (exists out err, can_end T MO prog out err t) \/ refused T MO prog t.
Proof. exact (program_ends T MO prog t). Qed.
Print Assumptions C85_program.

(** It panics if and only if the machine does. *)
Theorem C85_crash {P F M} `{EqDecision P} T (MO : MemOps P F M) prog :
  (exists rounds o, run_with T MO rounds o prog = Crashed) <-> can_crash T MO prog.
Proof. exact (run_crash T MO prog). Qed.
Print Assumptions C85_crash.

(** It goes on for ever with some choices if and only if these are the choices of an execution that does not end. *)
Theorem C85_forever {P F M} `{EqDecision P} T (MO : MemOps P F M) prog o :
  (forall rounds, run_with T MO rounds o prog = Running) <->
  exists tr rest, machine_new T MO prog (or_start o) = Ret (tr 0%nat, rest) /\ forall i, step T MO (or_step o i) (tr i) = Ret (tr (S i)).
Proof. exact (run_forever T MO prog o). Qed.
Print Assumptions C85_forever.

(** What it does is determined by the choices: more rounds do not change it. *)
Theorem C85_rounds {P F M} `{EqDecision P} T (MO : MemOps P F M) prog o r r' c :
  (r <= r')%nat -> run_with T MO r o prog = c -> c <> Running -> run_with T MO r' o prog = c.
Proof. exact (run_more T MO r r' o prog c). Qed.
Print Assumptions C85_rounds.

(** It says that the program is ill-formed if and only if the check of the program says so, in the same words. *)
Theorem C85_ill_formed {PE AE F} `{EqDecision PE} T (MO : MemOps (nat * PE) F (BMem PE AE)) prog msg : memory_model T MO ->
  (exists rounds o, run_program T MO rounds o prog = Done (TIllFormed msg)) <-> program_check_wf T prog = Stop (TIllFormed msg).
Proof. intros MM. exact (ill_formed_iff T MO (model_like T MO MM) (model_ub T MO MM) prog msg). Qed.
Print Assumptions C85_ill_formed.

(** The check of a program accepts it, finds it ill-formed, or panics; it has no other ending. *)
Theorem C85_check T prog : program_check_wf T prog = Ret tt \/ (exists msg, program_check_wf T prog = Stop (TIllFormed msg)) \/
  program_check_wf T prog = Panic.
Proof.
  pose proof (il_program T prog) as Hi. destruct (program_check_wf T prog) as [[]|t| |]; auto; [|done].
  destruct Hi as [msg ->]. right; left. by exists msg.
Qed.
Print Assumptions C85_check.

(** A program that is refused is ill-formed, or accepted and already its start is undefined behaviour. *)
Theorem C85_refused {PE AE F} `{EqDecision PE} T (MO : MemOps (nat * PE) F (BMem PE AE)) prog t : memory_model T MO ->
  refused T MO prog t ->
  (program_check_wf T prog = Stop t /\ exists msg, t = TIllFormed msg) \/ (program_check_wf T prog = Ret tt /\ exists msg, t = TUb msg).
Proof. intros MM (cs & Hn). exact (new_stop T MO (model_ub T MO MM) prog cs t Hn). Qed.
Print Assumptions C85_refused.

(** the choices that make the example print 42 and stop *)
Definition cli_choices : list (list (Choice (nat * unit))) := ex_run_cs ++ ex_run2_cs ++ [[ChThread 0]].
Definition cli_oracle : Oracle (nat * unit) := mkOracle ex_new_cs (fun i => List.nth i cli_choices []).
Lemma cli_run : run_with x86_64 B64 20 cli_oracle ex_prog = Done (TMachineStop, ("42" ++ line_end)%string, EmptyString).
Proof. vm_compute. reflexivity. Qed.
Example C85_hyps : exists rounds o, run_with x86_64 B64 rounds o ex_prog = Done (TMachineStop, ("42" ++ line_end)%string, EmptyString).
Proof. exists 20%nat, cli_oracle. exact cli_run. Qed.
(** a program that is ill-formed: there is no start function *)
Definition cli_ill : Program := mkProgram [] 0%N [] [] [].
Example C85_ill_hyps : program_check_wf x86_64 cli_ill = Stop (TIllFormed "Program: start function does not exist") /\
  run_program x86_64 B64 0 (mkOracle [] (fun _ => [])) cli_ill = Done (TIllFormed "Program: start function does not exist").
Proof. split; vm_compute; reflexivity. Qed.
(** a program that is accepted whose start is undefined behaviour: the start function returns an empty array *)
Definition cli_start : Program :=
  mkProgram [(0%N, mkFunction [(0%N, TArray (TInt u8_t) 0)] [] 0%N CcC [(0%N, blk [] TmReturn)] 0%N)] 0%N [] [] [].
Example C85_refused_hyps : program_check_wf x86_64 cli_start = Ret tt /\
  refused x86_64 B64 cli_start (TUb "call ABI violation: return types are not compatible").
Proof. split; [vm_compute; reflexivity|]. exists [ChAddr 1; ChAddr 5]. vm_compute. reflexivity. Qed.

(** ** C86: captured output is what the program printed *)

(** The lines [ls] can be captured if and only if there is an execution that ends normally and prints values, in this order,
    that are shown as these lines: [prints] and [shows] of RunSpec.v. *)
Theorem C86_captured {PE AE F} `{EqDecision PE} T (MO : MemOps (nat * PE) F (BMem PE AE)) prog ls : memory_model T MO ->
  (exists rounds o, get_stdout T MO rounds o prog = Done (inl ls)) <->
  exists m0 m cs vs, starts T MO prog m0 /\ prints T MO m0 m vs /\ step T MO cs m = Stop TMachineStop /\ Forall2 shows vs ls.
Proof.
  intros MM. split.
  - intros (r & o & H). exact (stdout_sound T MO (model_ub T MO MM) prog r o ls H).
  - intros (m0 & m & cs & vs & H0 & Hp & Hs & Hv). destruct (stdout_complete T MO prog m0 m cs vs H0 Hp Hs) as (r & o & ls' & Hg & Hv').
    exists r, o. rewrite Hg. do 2 f_equal. clear -Hv Hv'. revert ls Hv. induction Hv' as [|v s vs ls' H1 _ IH]; inversion 1; subst; [done|].
    f_equal; [by eapply shows_unique|by apply IH].
Qed.
Print Assumptions C86_captured.

(** Every execution has values that it prints; *)
Theorem C86_prints {P F M} `{EqDecision P} T (MO : MemOps P F M) (m m' : Machine P F M) :
  rtc (steps_to T MO) m m' -> exists vs, prints T MO m m' vs.
Proof. exact (prints_of T MO m m'). Qed.
Print Assumptions C86_prints.

(** a value is shown in one way only, and different values are shown differently. *)
Theorem C86_shown {P} (v v' : Value P) s s' : shows v s -> shows v' s' -> v = v' <-> s = s'.
Proof. intros H H'. split; [intros ->; by eapply shows_unique|intros ->; by eapply shows_value]. Qed.
Print Assumptions C86_shown.

(** Another ending is reported as it is, and capturing the output does not panic where running the program does not. *)
Theorem C86_other {P F M} `{EqDecision P} T (MO : MemOps P F M) prog rounds o t : t <> TMachineStop ->
  get_stdout T MO rounds o prog = Done (inr t) <-> run_program T MO rounds o prog = Done t.
Proof. exact (stdout_other T MO prog rounds o t). Qed.
Print Assumptions C86_other.
Theorem C86_crash {P F M} `{EqDecision P} T (MO : MemOps P F M) prog rounds o :
  get_stdout T MO rounds o prog = Crashed <-> run_with T MO rounds o prog = Crashed.
Proof. exact (stdout_crash T MO prog rounds o). Qed.
Print Assumptions C86_crash.

Example C86_hyps : memory_model x86_64 B64 /\ get_stdout x86_64 B64 20 cli_oracle ex_prog = Done (inl ["42"%string]) /\
  shows (P := nat * unit) (VInt 42) "42" /\ shows (P := nat * unit) (VInt (-7)) "-7" /\ shows (P := nat * unit) (VBool true) "true".
Proof.
  split; [apply mm_basic|]. split; [vm_compute; reflexivity|]. split; [|split].
  - constructor. left. split; [lia|]. split; [reflexivity|]. split; [done|]. right. intros r E. discriminate E.
  - constructor. right. split; [lia|]. exists "7"%string. split; [done|]. split; [reflexivity|]. split; [done|]. right. intros r E. discriminate E.
  - constructor.
Qed.
(** an ending that is not the normal one *)
Definition cli_race (css : list (list (Choice (nat * unit)))) : Oracle (nat * unit) :=
  mkOracle [ChAddr 4096; ChAddr 1; ChAddr 2; ChAddr 5] (fun i => List.nth i (race_cs1 ++ css) []).
Example C86_other_hyps : get_stdout x86_64 B64 20 (cli_race [[ChThread 1]; [ChThread 0]]) race_prog = Done (inr (TUb "Data race")).
Proof. vm_compute. reflexivity. Qed.

(** ** C87: the command line *)

(** The arguments are accepted if and only if all that are for the machine are the one that it knows. Then that argument,
    and no other, is taken out, and Tree Borrows is on if and only if it occurs. *)
Theorem C87_arguments args cf rest : consume_args config_default args = Returns (cf, rest) <->
  Forall (fun a => for_machine a -> a = tree_borrows_arg) args /\
  rest = List.filter (fun a => negb (a =? tree_borrows_arg)%string) args /\
  (cf_tree_borrows cf = true <-> tree_borrows_arg ∈ args).
Proof.
  pose proof (consume_spec args config_default) as H. destruct (consume_args config_default args) as [[cf' rest']|msg].
  - cbn [config_default cf_tree_borrows] in H. destruct H as (H1 & H2 & H3). split.
    + intros [= <- <-]. split; [done|]. split; [done|]. rewrite H3. split; [by intros [?|?]|by right].
    + intros (_ & -> & H4). do 2 f_equal; [|done]. destruct cf as [b], cf' as [b']. cbn in *. f_equal.
      destruct b, b'; try done; exfalso.
      * assert (false = true) by (apply H3; right; by apply H4). done.
      * assert (false = true) by (apply H4; by destruct (proj1 H3 eq_refl)). done.
  - split; [done|]. intros (Hf & _). exfalso. apply Exists_exists in H as (a & Ha & Hm & Hn). rewrite Forall_forall in Hf. apply Hn. by apply Hf.
Qed.
Print Assumptions C87_arguments.

(** The command ends without a message if and only if the command line is in order and asks for a program that can stop
    normally; *)
Theorem C87_silent T load args : (exists rounds ob ot, minirun T load args rounds ob ot = Done (Returns tt)) <->
  exists prog, asks load args prog /\ possible T args prog TMachineStop.
Proof. exact (minirun_iff T load args TMachineStop). Qed.
Print Assumptions C87_silent.
(** it ends with the message for another ending if and only if it asks for a program that can end so. *)
Theorem C87_messages T load args t : t <> TMachineStop ->
  (exists rounds ob ot, minirun T load args rounds ob ot = Done (Fatal (message t))) <->
  exists prog, asks load args prog /\ possible T args prog t.
Proof. intros Ht. rewrite <- (minirun_iff T load args t). by destruct t. Qed.
Print Assumptions C87_messages.

(** If a program has an ending that is not undefined behaviour with Tree Borrows, then it has it with the same choices
    without, with the same output. *)
Theorem C87_tree_borrows T rounds o prog t out err : proper t -> run_with T (TreeOps T) rounds o prog = Done (t, out, err) ->
  exists o', run_with T (BasicOps T) rounds o' prog = Done (t, out, err).
Proof. intros Hp H. exists (erase_oracle o). by apply tree_run. Qed.
Print Assumptions C87_tree_borrows.

Definition cli_load (src : option string) : option Program := match src with Some "prog.json"%string => Some ex_prog | _ => None end.
Example C87_hyps : asks cli_load ["--minirust-tree-borrows"; "prog.json"]%string ex_prog /\
  minirun x86_64 cli_load ["--minirust-tree-borrows"; "prog.json"]%string 20 (mkOracle [] (fun _ => []))
    (mkOracle ex_new_cs (fun i => List.nth i (ex_run_cs ++ ex_run2_cs ++ [[ChThread 0]]) [])) = Done (Returns tt) /\
  minirun x86_64 (fun _ => Some race_prog) [] 20 (cli_race [[ChThread 1]; [ChThread 0]]) (mkOracle [] (fun _ => [])) =
    Done (Fatal (message (TUb "Data race"))) /\
  consume_args config_default ["--minirust-stacked-borrows"]%string = Fatal "Unknown argument --minirust-stacked-borrows!".
Proof.
  split; [|split; [|split]]; [|vm_compute; reflexivity..]. split.
  - constructor; [done|]. constructor; [|constructor]. intros (r & E). discriminate E.
  - exists (Some "prog.json"%string). split; [constructor|reflexivity].
Qed.

(** ** C88: the assertions of the tests *)

(** An assertion about one run can pass if and only if the program can end so. *)
Theorem C88_once {PE AE F} `{EqDecision PE} T (MO : MemOps (nat * PE) F (BMem PE AE)) prog : memory_model T MO ->
  ((exists r o, assert_stop T MO r o prog = Done tt) <-> exists out err, can_end T MO prog out err TMachineStop) /\
  ((exists r o, assert_abort T MO r o prog = Done tt) <-> exists out err, can_end T MO prog out err TAbort) /\
  ((exists r o, assert_deadlock T MO r o prog = Done tt) <-> exists out err, can_end T MO prog out err TDeadlock) /\
  ((exists r o, assert_memory_leak T MO r o prog = Done tt) <-> exists out err, can_end T MO prog out err TMemoryLeak) /\
  (forall msg, (exists r o, assert_ill_formed T MO r o prog msg = Done tt) <-> program_check_wf T prog = Stop (TIllFormed msg)) /\
  (forall msg, (exists r o, assert_ub T MO r o prog msg = Done tt) <->
     (exists out err, can_end T MO prog out err (TUb msg)) \/ refused T MO prog (TUb msg)).
Proof.
  intros MM.
  assert (Hone : forall t, (forall msg, t <> TUb msg) -> (forall msg, t <> TIllFormed msg) ->
    (exists r o, after (run_program T MO r o prog) (fun t' => assert_eq t' t) = Done tt) <-> exists out err, can_end T MO prog out err t).
  { intros t H1 H2. transitivity (exists r o, run_program T MO r o prog = Done t).
    - split; intros (r & o & E); exists r, o; by apply assert_run.
    - rewrite C85_program. split; [|by left]. intros [?|Hr]; [done|]. exfalso.
      destruct (C85_refused T MO prog t MM Hr) as [(_ & msg & E)|(_ & msg & E)]; [by eapply H2|by eapply H1]. }
  split; [by apply Hone|]. split; [by apply Hone|]. split; [by apply Hone|]. split; [by apply Hone|]. split.
  - intros msg. rewrite <- (C85_ill_formed T MO prog msg MM). unfold assert_ill_formed. split; intros (r & o & E); exists r, o.
    + apply after_done in E as (t & -> & E). destruct t; try done. destruct (String.eqb_spec msg0 msg); [by subst|done].
    + rewrite E. cbn. by rewrite String.eqb_refl.
  - intros msg. rewrite <- C85_program. split; intros (r & o & E); exists r, o; by apply assert_run.
Qed.
Print Assumptions C88_once.

(** The assertion that a program is undefined behaviour in some run can pass if and only if it is; *)
Theorem C88_eventually {PE AE F} `{EqDecision PE} T (MO : MemOps (nat * PE) F (BMem PE AE)) prog msg :
  (exists r os, assert_ub_eventually T MO r os prog msg = Done tt) <->
  (exists out err, can_end T MO prog out err (TUb msg)) \/ refused T MO prog (TUb msg).
Proof.
  rewrite <- C85_program. split.
  - intros (r & os & E). apply eventually_iff in E as (_ & o & _ & _ & _ & E). by exists r, o.
  - intros (r & o & E). exists r, [o]. apply eventually_iff. by exists [], o, [].
Qed.
Print Assumptions C88_eventually.
(** it passes if and only if one of the runs is, and the runs before it stop normally. *)
Theorem C88_attempts {P F M} `{EqDecision P} T (MO : MemOps P F M) r os prog msg :
  assert_ub_eventually T MO r os prog msg = Done tt <->
  exists os1 o os2, os = os1 ++ o :: os2 /\ Forall (fun o => run_program T MO r o prog = Done TMachineStop) os1 /\
    run_program T MO r o prog = Done (TUb msg).
Proof. exact (eventually_iff T MO r os prog msg). Qed.
Print Assumptions C88_attempts.

(** The test for data races says that there is one only if there is one, *)
Theorem C88_race {PE AE F} `{EqDecision PE} T (MO : MemOps (nat * PE) F (BMem PE AE)) prog :
  (exists r os, has_data_race T MO r os prog = Done true) <->
  (exists out err, can_end T MO prog out err (TUb "Data race")) \/ refused T MO prog (TUb "Data race").
Proof.
  rewrite <- C88_eventually. split; intros (r & os & E); exists r, os; by apply (race_iff T MO r os prog true).
Qed.
Print Assumptions C88_race.
(** and that there is none only if every run stops normally. *)
Theorem C88_no_race {P F M} `{EqDecision P} T (MO : MemOps P F M) r os prog :
  has_data_race T MO r os prog = Done false <-> Forall (fun o => run_program T MO r o prog = Done TMachineStop) os.
Proof. exact (race_iff T MO r os prog false). Qed.
Print Assumptions C88_no_race.

(** A program that stops normally whatever is chosen passes the assertion that it always stops, and no test finds a race. *)
Theorem C88_always {P F M} `{EqDecision P} T (MO : MemOps P F M) r os prog :
  (forall o, In o os -> run_program T MO r o prog = Done TMachineStop) <-> assert_stop_always T MO r os prog = Done tt.
Proof. rewrite always_iff, Forall_forall. split; intros H' o Ho; apply H'; by apply elem_of_list_In. Qed.
Print Assumptions C88_always.

(** But the tests can miss undefined behaviour: there is a program with a data race such that 32 runs stop normally and
    the assertion that it always stops passes. *)
Theorem C88_can_miss : exists prog (os : list (Oracle (nat * unit))), length os = 32%nat /\
  has_data_race x86_64 B64 20 os prog = Done false /\ assert_stop_always x86_64 B64 20 os prog = Done tt /\
  exists out err, can_end x86_64 B64 prog out err (TUb "Data race").
Proof.
  exists race_prog, (repeat (cli_race [[ChThread 0]; [ChThread 0]; [ChThread 1]; [ChThread 1]; [ChThread 0]; [ChThread 0]]) 32).
  split; [reflexivity|]. split; [vm_compute; reflexivity|]. split; [vm_compute; reflexivity|].
  exists EmptyString, EmptyString, race_m4, [ChThread 0].
  split; [eapply reach_step; [exact race_m1_reach|]; eexists; exact race_m4_step|]. split; [reflexivity|]. split; [reflexivity|]. vm_compute. reflexivity.
Qed.
Print Assumptions C88_can_miss.
Example C88_hyps : memory_model x86_64 B64 /\ assert_stop x86_64 B64 20 cli_oracle ex_prog = Done tt /\
  assert_ub_eventually x86_64 B64 20 [cli_race [[ChThread 0]; [ChThread 0]; [ChThread 1]; [ChThread 1]; [ChThread 0]; [ChThread 0]];
    cli_race [[ChThread 1]; [ChThread 0]]] race_prog "Data race" = Done tt.
Proof. split; [apply mm_basic|]. split; vm_compute; reflexivity. Qed.
