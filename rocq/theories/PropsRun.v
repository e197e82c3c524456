(** Properties of the translation of Rust programs (tooling/minimize): executions of translated programs are executions of MIR. *)
From Verif Require Import MirRunProofs ExMini ExSched ExData PropsMini PropsMir.

Lemma mir_executions {PE AE F} `{EqDecision (nat * PE)} (MO : MemOps (nat * PE) F (BMem PE AE)) R fuel entry P :
  memory_model x86_64 MO -> mir_ok x86_64 R -> mir_covered x86_64 R -> enough R fuel -> discr_ok R -> translated fuel R x86_64 entry P ->
  exists fn glob vtab, names x86_64 fuel R entry P fn glob vtab /\
    forall m, reachable x86_64 MO P m -> exists ps, runs_mir x86_64 MO R (mkNaming fn glob vtab N.of_nat N.of_nat) entry P m ps /\
      Forall2 (fun t ks => length ks = length (t_stack t)) (m_threads m) ps /\ stops_right R m ps.
Proof.
  intros MM Hmir Hcov Hfuel HD Ht. destruct (translated_code R fuel Hmir Hcov Hfuel HD entry P Ht) as (fn & glob & vtab & Hn & Hcode).
  exists fn, glob, vtab. split; [done|]. intros m Hr. destruct (na_entry _ _ _ _ _ _ _ _ Hn) as (n0 & Hentry & Hstart).
  destruct (mir_runs MO MM R (mkNaming fn glob vtab N.of_nat N.of_nat) entry n0 P (proj2 Hmir) HD (na_fn_distinct _ _ _ _ _ _ _ _ Hn)
    (na_fn_in _ _ _ _ _ _ _ _ Hn) Hcode Hentry Hstart (C79_well_formed_partial R fuel entry P Hmir Hcov Hfuel Ht)
    (translated_unique R fuel Hmir Hcov Hfuel entry P Ht) m Hr) as (ps & Hps & Hks).
  exists ps. split; [done|]. split; [|by eapply tasks_stop]. eapply Forall2_impl; [exact Hks|]. intros t ks Hk. apply Forall2_length in Hk. rewrite <- Hk.
  unfold positions. by rewrite map_length.
Qed.

(** ** C82: executions of translated programs are executions of MIR *)

(** Whatever state a machine with either memory model that runs a translated program is in, it has come there by steps of MIR:
    [runs_mir] (MirRunSpec.v) says what these are. Every frame has a task there. Where MIR stops, the machine is about to stop in the same way
    ([stops_right]). *)
Theorem C82_executions {PE AE F} `{EqDecision (nat * PE)} (MO : MemOps (nat * PE) F (BMem PE AE)) R fuel entry P :
  memory_model x86_64 MO -> mir_ok x86_64 R -> mir_covered x86_64 R -> enough R fuel -> discr_ok R -> translated fuel R x86_64 entry P ->
  exists fn glob vtab, names x86_64 fuel R entry P fn glob vtab /\
    forall m, reachable x86_64 MO P m -> exists ps, runs_mir x86_64 MO R (mkNaming fn glob vtab N.of_nat N.of_nat) entry P m ps /\
      Forall2 (fun t ks => length ks = length (t_stack t)) (m_threads m) ps /\ stops_right R m ps.
Proof. exact (mir_executions MO R fuel entry P). Qed.
Print Assumptions C82_executions.

(** the example runs; after 37 steps the panic in the function that catch_unwind calls is being handled *)
Definition ru_cs0 : list (Choice (nat * unit)) := List.map (fun k => ChAddr (4096 + 64 * Z.of_nat k)) (seq 0 40).
Definition ru_cs : list (list (Choice (nat * unit))) :=
  List.map (fun k => ChThread 0 :: List.map (fun j => ChAddr (16384 + 1024 * Z.of_nat k + 64 * Z.of_nat j)) (seq 0 12)) (seq 0 37).
Definition ru_m0 : MachB := newB ex_program ru_cs0.
Definition ru_m : MachB := runB ru_cs ru_m0.
Definition ru_rest : list (Choice (nat * unit)) := snd (out (m_dummyB, []) (machine_new x86_64 B64 ex_program ru_cs0)).
Lemma ru_new : machine_new x86_64 B64 ex_program ru_cs0 = Ret (ru_m0, ru_rest).
Proof. vm_compute. reflexivity. Qed.
Lemma ru_run : run x86_64 B64 ru_cs ru_m0 = Ret ru_m.
Proof. vm_compute. reflexivity. Qed.
Example C82_hyps : memory_model x86_64 B64 /\ mir_ok x86_64 ex_rustc /\ mir_covered x86_64 ex_rustc /\ enough ex_rustc 2 /\ discr_ok ex_rustc /\
  translated 2 ex_rustc x86_64 0 ex_program /\ reachable x86_64 B64 ex_program ru_m /\
  List.map (fun t => length (t_stack t)) (m_threads ru_m) = [3%nat] /\ at_terminator ru_m 0 TmResumeUnwind.
Proof.
  split_and!; [apply mm_basic|apply ex_mir_ok|apply ex_mir_covered|apply ex_enough|apply ex_discr_ok|eapply mini_translated, ex_program_eq| | |].
  - exact (reachB _ _ _ _ _ _ ru_new ru_run).
  - vm_compute. reflexivity.
  - apply next_term. vm_compute. reflexivity.
Qed.
