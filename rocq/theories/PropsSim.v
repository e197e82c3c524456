(** C71: Tree Borrows only adds undefined behaviour. C72: initialising memory never adds undefined
    behaviour. *)
From Verif Require Export SimSpec TreeRefine.
From Verif Require Import SimRun StopProofs ExSim.
Local Open Scope Z_scope.

(** the relation between a state of the machine with Tree Borrows and one with the basic memory *)
Notation tree_sim := (mach_sim er_prov (bmem_sim er_prov) (fun p => snd p = [])).

(** C71. Every state the machine with Tree Borrows reaches is matched by a state that the machine with
    the basic memory reaches. *)
Theorem C71_states T prog m : reachable T (TreeOps T) prog m ->
  exists n, reachable T (BasicOps T) prog n /\ tree_sim m n.
Proof. exact (reach_sim T _ _ _ _ _ (tree_basic T) prog m). Qed.
Print Assumptions C71_states.

(** C71, step by step: the same choices lead to matching states. *)
Theorem C71_steps T m n cs m' : tree_sim m n -> step T (TreeOps T) cs m = Ret m' ->
  exists n', step T (BasicOps T) (List.map (choice_sim er_prov) cs) n = Ret n' /\ tree_sim m' n'.
Proof. intros H. exact (step_sim T _ _ _ _ _ (tree_basic T) m n cs H m'). Qed.
Print Assumptions C71_steps.

Theorem C71_starts T prog cs m rest : machine_new T (TreeOps T) prog cs = Ret (m, rest) ->
  exists n, machine_new T (BasicOps T) prog (List.map (choice_sim er_prov) cs) = Ret (n, List.map (choice_sim er_prov) rest) /\
    tree_sim m n.
Proof.
  intros H. destruct (new_sim T _ _ _ _ _ (tree_basic T) prog cs _ H) as ([n r] & Hn & Hm & Hr). cbn [fst snd] in *. subst. eauto.
Qed.
Print Assumptions C71_starts.

(** C71, endings: from matching states the same choices lead to the same ending, except where Tree
    Borrows finds undefined behaviour. *)
Theorem C71_stops T m n cs t : tree_sim m n -> step T (TreeOps T) cs m = Stop t -> proper t ->
  step T (BasicOps T) (List.map (choice_sim er_prov) cs) n = Stop t.
Proof. exact (stop_sim T _ _ _ _ _ (tree_basic T) m n cs t (tree_ub T)). Qed.
Print Assumptions C71_stops.

(** C71, behaviours: what a program can write and how it can end with Tree Borrows, it can with the basic
    memory. *)
Theorem C71_behaviours T prog out err t : proper t -> can_end T (TreeOps T) prog out err t ->
  can_end T (BasicOps T) prog out err t.
Proof. exact (can_end_sim T _ _ _ _ _ (tree_basic T) prog out err t (tree_ub T)). Qed.
Print Assumptions C71_behaviours.

(** C71, executions that do not end. *)
Theorem C71_forever T prog tr ch : forever T (TreeOps T) prog tr ch ->
  exists tr', forever T (BasicOps T) prog tr' (fun i => List.map (choice_sim er_prov) (ch i)) /\
    forall i, tree_sim (tr i) (tr' i) /\ m_stdout (tr' i) = m_stdout (tr i) /\ m_stderr (tr' i) = m_stderr (tr i).
Proof.
  intros H. destruct (forever_sim T _ _ _ _ _ (tree_basic T) prog tr ch H) as (tr' & H1 & H2). exists tr'. split; [done|].
  intros i. specialize (H2 i). split; [done|]. split; symmetry; [apply (sim_stdout _ _ _ _ _ H2)|apply (sim_stderr _ _ _ _ _ H2)].
Qed.
Print Assumptions C71_forever.

(** a reachable state that matches one of the basic memory; here Tree Borrows finds undefined behaviour
    and the basic memory does not *)
Example C71_hyps : exists m, reachable x86_64 (TreeOps x86_64) al_prog m /\
  is_ub (step x86_64 (TreeOps x86_64) [ChThread 0] m) /\
  exists n n', reachable x86_64 (BasicOps x86_64) al_prog n /\ tree_sim m n /\
    step x86_64 (BasicOps x86_64) [ChThread 0] n = Ret n' /\
    step x86_64 (BasicOps x86_64) [ChThread 0] n' = Stop TMachineStop.
Proof.
  exists al_t. split; [exact al_t_reach|]. split; [eexists; vm_compute; reflexivity|].
  exists al_b, (runB [[ChThread 0]] al_b). split; [|split; [|split; vm_compute; reflexivity]].
  - apply (reachB al_prog al_new al_cs (newB al_prog al_new) []); vm_compute; reflexivity.
  - apply (exec_sim x86_64 _ _ _ _ _ (tree_basic x86_64) al_prog al_new al_cs al_t0 [] al_t (newB al_prog al_new) [] al_b);
      try apply run_runs; vm_compute; reflexivity.
Qed.

(** C72. If some uninitialised bytes of memory are given values, the execution with the same choices
    goes on as before. *)
Theorem C72_initialise T prog m mem' css m' :
  reachable T (BasicOps T) prog m -> more_init (cm_mem (m_mem m)) mem' ->
  runs T (BasicOps T) m css m' ->
  exists n', runs T (BasicOps T) (set_mem m (mkConc mem' (cm_accesses (m_mem m)))) css n' /\
    mach_sim (fun p => p) (bmem_sim (fun p => p)) (fun _ => True) m' n' /\
    m_stdout n' = m_stdout m' /\ m_stderr n' = m_stderr m' /\
    (forall cs t, step T (BasicOps T) cs m' = Stop t -> proper t -> step T (BasicOps T) cs n' = Stop t).
Proof.
  intros Hr Hi Hrun. destruct (runs_sim T m css m' (set_mem m (mkConc mem' (cm_accesses (m_mem m))))) as (n' & Hn & Hs); [|done|].
  - destruct (bsim_refl _ _ _ Hr). split; try done. split; [by apply more_init_sim|done].
  - exists n'. split; [done|]. split; [done|]. split; [symmetry; apply (sim_stdout _ _ _ _ _ Hs)|].
    split; [symmetry; apply (sim_stderr _ _ _ _ _ Hs)|]. intros cs t H Ht.
    rewrite <-(choices_id cs). by eapply (stop_sim T _ _ _ _ _ (basic_basic T) m' n' cs t (basic_ub T)).
Qed.
Print Assumptions C72_initialise.

(** C72, for the relation: a state that is at least as defined has undefined behaviour only if the other
    does not go on. *)
Theorem C72_undefined T m n cs : mach_sim (fun p => p) (bmem_sim (fun p => p)) (fun _ => True) m n ->
  is_ub (step T (BasicOps T) cs n) ->
  match step T (BasicOps T) cs m with
  | Ret _ => False
  | Stop t => exists msg, t = TUb msg
  | Panic | NoBehavior => True
  end.
Proof.
  intros H [msg Hu]. destruct (step T (BasicOps T) cs m) as [m'|t| |] eqn:E; try done.
  - destruct (step_sim T _ _ _ _ _ (basic_basic T) m n cs H _ E) as (n' & Hn & _). rewrite choices_id in Hn. congruence.
  - destruct t as [s| | | | |]; eauto; exfalso;
      (assert (step T (BasicOps T) cs n = Stop (TUb msg)) as Hu' by done;
       pose proof (stop_sim T _ _ _ _ _ (basic_basic T) m n cs _ (basic_ub T) H E) as Hn; rewrite choices_id in Hn;
       rewrite Hn in Hu'; [discriminate|done]).
Qed.
Print Assumptions C72_undefined.

(** the memory of the state has uninitialised bytes; [fill] sets them to zero *)
Example C72_hyps : reachable x86_64 (BasicOps x86_64) da_prog (da_at 5) /\
  more_init (cm_mem (m_mem (da_at 5))) (fill (cm_mem (m_mem (da_at 5)))) /\
  fill (cm_mem (m_mem (da_at 5))) <> cm_mem (m_mem (da_at 5)) /\
  exists css, length css = 17%nat /\ runs x86_64 (BasicOps x86_64) (da_at 5) css (da_at 22).
Proof.
  split; [exact (proj1 (da_go 5 ltac:(lia)))|]. split; [apply fill_init|]. split; [vm_compute; discriminate|].
  exists (take 17 (drop 5 da_cs)). split; [reflexivity|]. apply run_runs. vm_compute. reflexivity.
Qed.
