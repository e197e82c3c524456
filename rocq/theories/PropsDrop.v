(** C94: leaving out reads of memory never adds undefined behaviour. *)
From Verif Require Export DropSpec SimSpec.
From Verif Require Import XSim TreeDrop ReadExpr ExSim.
Local Open Scope Z_scope.

(** C94. If a load succeeds in some state, everything that can happen after the load can happen without
    it: the same choices lead to the same state except for the trees, with the same endings. *)
Theorem C94_load T m ptr len al at_ b c css m' :
  cm_load (TreeOps T) (m_mem m) ptr len al at_ = Ret (b, c) ->
  runs T (TreeOps T) (set_mem m c) css m' ->
  exists n', runs T (TreeOps T) m css n' /\ same_but_reads m' n' /\
    m_stdout n' = m_stdout m' /\ m_stderr n' = m_stderr m' /\
    (forall cs t, step T (TreeOps T) cs m' = Stop t -> proper t -> step T (TreeOps T) cs n' = Stop t).
Proof.
  intros Hl Hr. pose proof (mr_load (TreeOps T) mmore (load_more T) _ _ _ _ _ _ _ Hl) as H.
  destruct (runs_x T _ _ (tree_drop T) _ _ _ _ H Hr) as (n' & Hn & Hx). exists n'. split; [done|]. split; [by apply mr_same|].
  pose proof (mr_same _ _ Hx) as (c' & -> & _). split; [done|]. split; [done|]. intros cs t. by apply (stop_x T _ _ (tree_drop T)).
Qed.
Print Assumptions C94_load.

(** C94, for an expression that makes no references, with any number of loads in it: whatever can happen
    after it was evaluated can happen where it was not evaluated. *)
Theorem C94_expression T e m v m1 css m' : only_reads e = true ->
  eval_value T (TreeOps T) e m = Ret (v, m1) -> runs T (TreeOps T) m1 css m' ->
  same_but_reads m1 m /\
  exists n', runs T (TreeOps T) m css n' /\ same_but_reads m' n' /\
    m_stdout n' = m_stdout m' /\ m_stderr n' = m_stderr m' /\
    (forall cs t, step T (TreeOps T) cs m' = Stop t -> proper t -> step T (TreeOps T) cs n' = Stop t).
Proof.
  intros He Hl Hr.
  pose proof (mr_eval T (TreeOps T) mmore mmore_refl mmore_trans (load_more T) (tree_retag_raw T) _ _ _ _ He Hl) as H.
  split; [by apply mr_same|].
  destruct (runs_x T _ _ (tree_drop T) _ _ _ _ H Hr) as (n' & Hn & Hx). exists n'. split; [done|]. split; [by apply mr_same|].
  pose proof (mr_same _ _ Hx) as (c' & -> & _). split; [done|]. split; [done|]. intros cs t. by apply (stop_x T _ _ (tree_drop T)).
Qed.
Print Assumptions C94_expression.

(** C94, for a statement of a program: leaving out the mention of a place. *)
Theorem C94_mention T p m cs m1 cs1 css m' : only_reads_place p = true ->
  eval_statement T (TreeOps T) (SPlaceMention p) m cs = Ret (m1, cs1) -> runs T (TreeOps T) m1 css m' ->
  cs1 = cs /\ same_but_reads m1 m /\
  exists n', runs T (TreeOps T) m css n' /\ same_but_reads m' n' /\
    m_stdout n' = m_stdout m' /\ m_stderr n' = m_stderr m' /\
    (forall cs t, step T (TreeOps T) cs m' = Stop t -> proper t -> step T (TreeOps T) cs n' = Stop t).
Proof.
  intros He Hl Hr. cbn in Hl. apply obind_ret in Hl as ([[pl ty] m2] & Hl & [= <- <-]). split; [done|].
  pose proof (mr_eval_place T (TreeOps T) mmore mmore_refl mmore_trans (load_more T) (tree_retag_raw T) _ _ _ _ He Hl) as H.
  split; [by apply mr_same|].
  destruct (runs_x T _ _ (tree_drop T) _ _ _ _ H Hr) as (n' & Hn & Hx). exists n'. split; [done|]. split; [by apply mr_same|].
  pose proof (mr_same _ _ Hx) as (c' & -> & _). split; [done|]. split; [done|]. intros cs' t. by apply (stop_x T _ _ (tree_drop T)).
Qed.
Print Assumptions C94_mention.

(** C94 with the basic memory, where the final memories are the same. *)
Theorem C94_basic T e m v m1 css m' : only_reads e = true ->
  eval_value T (BasicOps T) e m = Ret (v, m1) -> runs T (BasicOps T) m1 css m' ->
  same_but_accesses m1 m /\
  exists n', runs T (BasicOps T) m css n' /\ same_but_accesses m' n' /\
    m_stdout n' = m_stdout m' /\ m_stderr n' = m_stderr m' /\
    (forall cs t, step T (BasicOps T) cs m' = Stop t -> proper t -> step T (BasicOps T) cs n' = Stop t).
Proof.
  intros He Hl Hr.
  pose proof (mr_eval T (BasicOps T) eq (fun _ => eq_refl) (eq_trans (A := BMem unit unit)) (basic_load T) (basic_retag_raw T) _ _ _ _ He Hl) as H.
  split; [by apply mr_same_basic|].
  destruct (runs_x T _ _ (basic_drop T) _ _ _ _ H Hr) as (n' & Hn & Hx). exists n'. split; [done|]. split; [by apply mr_same_basic|].
  pose proof (mr_same_basic _ _ Hx) as (c' & -> & _). split; [done|]. split; [done|]. intros cs t. by apply (stop_x T _ _ (basic_drop T)).
Qed.
Print Assumptions C94_basic.

(** a mutable reference is written, read and written again *)
Definition dr_prog : Program :=
  mkProgram
    [(0%N, main [(0%N, unit_ty); (1%N, TInt u32_t); (2%N, TPtr al_ref); (3%N, TInt u32_t)]
       [(0%N, blk [SStorageLive 1; SStorageLive 2; SStorageLive 3; SAssign (PLocal 1) (u32_e 5);
                   SAssign (PLocal 2) (EAddrOf (PLocal 1) al_ref);
                   SAssign (PDeref (ELoad (PLocal 2)) (TInt u32_t)) (u32_e 6);
                   SAssign (PLocal 3) (ELoad (PDeref (ELoad (PLocal 2)) (TInt u32_t)));
                   SAssign (PDeref (ELoad (PLocal 2)) (TInt u32_t)) (u32_e 7)]
                (TmIntrinsic InExit [] (PLocal 0) None))])]
    0%N [] [] [].
Definition dr_cs {P} : list (list (Choice P)) :=
  [[ChThread 0; ChAddr 16]; [ChThread 0; ChAddr 32]; [ChThread 0; ChAddr 48]; [ChThread 0]; [ChThread 0]; [ChThread 0]].
Definition dr_t0 : MachT := Eval vm_compute in fst (out (m_dummyT, []) (machine_new x86_64 (TreeOps x86_64) dr_prog al_new)).
Definition dr_t : MachT := Eval vm_compute in out m_dummyT (run x86_64 (TreeOps x86_64) dr_cs dr_t0).
Lemma dr_reach : reachable x86_64 (TreeOps x86_64) dr_prog dr_t.
Proof.
  eapply run_reachable; [constructor; exists al_new, []; instantiate (1 := dr_t0); vm_compute; reflexivity|].
  instantiate (1 := dr_cs). vm_compute. reflexivity.
Qed.

(** reading the local between the first write and the read through the reference: the read through the
    reference still works, the second write does not. Without the first read all of it works. *)
Example C94_hyps : exists m v m1 m2,
  reachable x86_64 (TreeOps x86_64) dr_prog m /\ only_reads (ELoad (PLocal 1)) = true /\
  eval_value x86_64 (TreeOps x86_64) (ELoad (PLocal 1)) m = Ret (v, m1) /\
  runs x86_64 (TreeOps x86_64) m1 [[ChThread 0]] m2 /\ is_ub (step x86_64 (TreeOps x86_64) [ChThread 0] m2) /\
  exists n, runs x86_64 (TreeOps x86_64) m [[ChThread 0]; [ChThread 0]] n /\
    step x86_64 (TreeOps x86_64) [ChThread 0] n = Stop TMachineStop.
Proof.
  exists dr_t. eexists. eexists. eexists. split; [exact dr_reach|]. split; [done|]. split; [vm_compute; reflexivity|].
  split; [apply run_runs; vm_compute; reflexivity|]. split; [eexists; vm_compute; reflexivity|].
  eexists. split; [apply run_runs; vm_compute; reflexivity|]. vm_compute. reflexivity.
Qed.

(** The other direction fails: adding a load can add undefined behaviour, also a load that succeeds. *)
Theorem C94_converse_fails : exists T prog m e v m1 cs m', reachable T (TreeOps T) prog m /\ only_reads e = true /\
  eval_value T (TreeOps T) e m = Ret (v, m1) /\ runs T (TreeOps T) m cs m' /\
  ~ exists n', runs T (TreeOps T) m1 cs n'.
Proof.
  exists x86_64, dr_prog, dr_t, (ELoad (PLocal 1)). eexists. eexists. exists [[ChThread 0]; [ChThread 0]]. eexists. split; [exact dr_reach|].
  split; [done|]. split; [vm_compute; reflexivity|]. split; [apply run_runs; vm_compute; reflexivity|].
  intros (n' & Hn). inversion Hn as [|? a ? ? ? H1 H2]; subst. vm_compute in H1. injection H1 as <-.
  inversion H2 as [|? b ? ? ? H3 H4]; subst. vm_compute in H3. done.
Qed.
Print Assumptions C94_converse_fails.
