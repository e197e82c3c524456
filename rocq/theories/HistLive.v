(** Proofs: references stay protected until their call ends. *)
From Verif Require Export HistEntry KeepSpec.
From Verif Require Import PropsTB.
From stdpp Require Import relations.
From Coq Require Import ZifyBool ZifyN ZifyNat.
Local Open Scope Z_scope.

Section Live.
  Variable T : Target.
  Notation TO := (TreeOps T).
  Notation Mach := (Machine TProv TFrame TMem).

  Lemma without_end_exec {P F M} `{EqDecision P} (MO : MemOps P F M) has (m : Machine P F M) l m' :
    without_end T MO has m l m' -> execution T MO m l m'.
  Proof. induction 1; econstructor; eauto. Qed.

  Lemma kept_listed prog (m : Mach) id P x : reachable T TO prog m -> kept (cm_mem (m_mem m)) id P x ->
    exists f, f ∈ call_data m /\ (id, P) ∈ f.
  Proof.
    intros (ops & fs & Hc & E)%calls_reach (Hp & _ & a & Ha & Hl). apply C35_protectors_exact in Hc as [_ Hc].
    unfold mem_prot in Hp. rewrite Ha in Hp. destruct (ninfo (al_extra a) P) as [[ps pr]|] eqn:En; [|done]. injection Hp as ->.
    destruct (Hc _ _ _ _ _ Ha Hl En) as [[H _] _]. destruct (H eq_refl) as (f & Hf & Hin). exists f. by rewrite <-E.
  Qed.

  Lemma kept_next (m m1 : Mach) id P x : steps_to T TO m m1 ->
    (forall fr x, about_to m (m_active m1) fr x -> leaves x -> (id, P) ∉ f_extra fr) ->
    kept (cm_mem (m_mem m)) id P x -> kept (cm_mem (m_mem m1)) id P x.
  Proof.
    intros [cs Hs] Hn Hk. apply step_hist in Hs as (fr & y & Hab & ops & Hr & Hop).
    eapply kept_steps; [exact (mem_run_steps T _ _ _ Hr)| |exact Hk]. apply not_released_all.
    intros f Hin. apply Hop in Hin as [Hx ->]. by eapply Hn.
  Qed.
  Lemma stays_listed prog (m m' : Mach) l id P x : reachable T TO prog m ->
    without_end T TO (fun f => (id, P) ∈ f) m l m' -> kept (cm_mem (m_mem m)) id P x ->
    forall s, s ∈ l ++ [m'] -> exists f, f ∈ call_data s /\ (id, P) ∈ f.
  Proof.
    intros Hr He. revert Hr. induction He as [m|m m1 l m' Hs Hn He IH]; intros Hr Hk s Hin.
    - apply elem_of_list_singleton in Hin as ->. by eapply kept_listed.
    - apply elem_of_cons in Hin as [->|Hin]; [by eapply kept_listed|].
      apply IH; [by eapply reach_step|by eapply kept_next|done].
  Qed.
End Live.
