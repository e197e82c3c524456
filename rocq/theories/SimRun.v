(** Executions of related machines. *)
From Verif Require Export SimMach SimInst.
From Verif Require Import Wp BaseProofs StopProofs.

Section Run.
  Context {P1 F1 M1 P2 F2 M2 : Type} `{EqDecision P1} `{EqDecision P2}.
  Variable T : Target.
  Variables (MO1 : MemOps P1 F1 M1) (MO2 : MemOps P2 F2 M2).
  Variables (h : P1 -> P2) (MR : M1 -> M2 -> Prop) (root : P1 -> Prop).
  Hypothesis MS : mem_sim MO1 MO2 h MR root.
  Notation msim := (mach_sim (F1 := F1) (F2 := F2) h MR root).

  Lemma reach_sim prog m : reachable T MO1 prog m -> exists n, reachable T MO2 prog n /\ msim m n.
  Proof.
    induction 1 as [m (cs & r & H)|m m' _ (n & Hn & Hmn) (cs & H)].
    - destruct (new_sim T MO1 MO2 h MR root MS prog cs _ H) as ([n r'] & Hn & Hs & _). exists n. split; [|done].
      constructor. by eexists _, _.
    - destruct (step_sim T MO1 MO2 h MR root MS m n cs Hmn _ H) as (n' & Hs & Hmn'). exists n'. split; [|done].
      eapply reach_step; [done|]. by eexists.
  Qed.

  Lemma can_end_sim prog out err t : ub_ops MO1 -> proper t -> can_end T MO1 prog out err t -> can_end T MO2 prog out err t.
  Proof.
    intros UO Ht (m & cs & Hr & <- & <- & Hs). destruct (reach_sim _ _ Hr) as (n & Hn & Hmn).
    exists n, (List.map (choice_sim h) cs). split; [done|]. split; [symmetry; apply (sim_stdout _ _ _ _ _ Hmn)|].
    split; [symmetry; apply (sim_stderr _ _ _ _ _ Hmn)|]. by eapply (stop_sim T MO1 MO2 h MR root MS).
  Qed.

  Lemma exec_sim prog cs css m0 rest m n0 rest' n : machine_new T MO1 prog cs = Ret (m0, rest) -> runs T MO1 m0 css m ->
    machine_new T MO2 prog (List.map (choice_sim h) cs) = Ret (n0, rest') ->
    runs T MO2 n0 (List.map (List.map (choice_sim h)) css) n -> msim m n.
  Proof.
    intros H Hr H' Hr'. destruct (new_sim T MO1 MO2 h MR root MS prog cs _ H) as ([n1 r1] & Hn & Hs & _).
    rewrite H' in Hn. injection Hn as <- <-. cbn [fst] in Hs. clear H H'. revert n0 Hs Hr'.
    induction Hr as [m|m m1 m2 cs1 css Hst _ IH]; intros n0 Hs Hr'; inversion Hr'; subst; [done|].
    destruct (step_sim T MO1 MO2 h MR root MS _ _ cs1 Hs _ Hst) as (n2 & Hn2 & Hs2).
    eapply IH; [|eassumption]. congruence.
  Qed.

  (** the run of the second machine that follows a given run of the first *)
  Fixpoint follow (n : Machine P2 F2 M2) (ch : nat -> list (Choice P1)) (i : nat) : Machine P2 F2 M2 :=
    match i with
    | O => n
    | S i => match step T MO2 (List.map (choice_sim h) (ch i)) (follow n ch i) with Ret n' => n' | _ => n end
    end.
  Lemma forever_sim prog tr ch : forever T MO1 prog tr ch ->
    exists tr', forever T MO2 prog tr' (fun i => List.map (choice_sim h) (ch i)) /\ forall i, msim (tr i) (tr' i).
  Proof.
    intros [(cs & r & H0) Hs]. destruct (new_sim T MO1 MO2 h MR root MS prog cs _ H0) as ([n r'] & Hn & Hm & _).
    exists (follow n ch). assert (forall i, msim (tr i) (follow n ch i)) as Hall.
    { induction i as [|i IH]; [done|]. simpl. destruct (step_sim T MO1 MO2 h MR root MS _ _ (ch i) IH _ (Hs i)) as (n' & -> & ?). done. }
    split; [|done]. split; [by eexists _, _|]. intros i. simpl.
    destruct (step_sim T MO1 MO2 h MR root MS _ _ (ch i) (Hall i) _ (Hs i)) as (n' & -> & ?). done.
  Qed.
End Run.

(** the basic memory *)
Lemma choices_id {P} (cs : list (Choice P)) : List.map (choice_sim (fun p => p)) cs = cs.
Proof.
  induction cs as [|[a|t|[p|]] cs IH]; simpl; congruence.
Qed.
Notation bsim := (mach_sim (fun p : nat * unit => p) (bmem_sim (fun p => p)) (fun _ => True)).

Lemma bsim_refl T prog m : reachable T (BasicOps T) prog m -> bsim m m.
Proof.
  induction 1 as [m (cs & r & H)|m m' _ IH (cs & H)].
  - destruct (new_sim T _ _ _ _ _ (basic_basic T) prog cs _ H) as ([n r'] & Hn & Hs & _). rewrite choices_id, H in Hn.
    by injection Hn as <- <-.
  - destruct (step_sim T _ _ _ _ _ (basic_basic T) m m cs IH _ H) as (n' & Hn & Hs). rewrite choices_id, H in Hn.
    by injection Hn as <-.
Qed.
Lemma more_init_sim mem mem' : more_init mem mem' -> bmem_sim (fun p => p) mem mem'.
Proof.
  intros H. eapply Forall2_impl; [exact H|]. intros a b (? & ? & ? & ? & Hl & Hd). split; [|done].
  apply Forall2_same_length_lookup. split; [done|]. intros i x y Hx Hy. destruct (Hd i x y Hx Hy) as [-> | ->]; [constructor|].
  destruct y as [|d [[p i']|]]; repeat constructor.
Qed.

Lemma runs_sim T m css m' n : bsim m n -> runs T (BasicOps T) m css m' -> exists n', runs T (BasicOps T) n css n' /\ bsim m' n'.
Proof.
  intros H Hr. revert n H. induction Hr as [m|m m1 m2 cs css Hs _ IH]; intros n H; [exists n; split; [constructor|done]|].
  destruct (step_sim T _ _ _ _ _ (basic_basic T) m n cs H _ Hs) as (n1 & Hn & H1). rewrite choices_id in Hn.
  destruct (IH _ H1) as (n2 & Hn2 & H2). exists n2. split; [|done]. by econstructor.
Qed.
