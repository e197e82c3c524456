(** Evaluation is exact in the basic memory model (C70). *)
From Verif Require Import ActProofs ExprDefined SafeProg StrictCheck ExData PropsOwn PropsData.
From Verif Require Import DataSpec ExprSpec.
From Coq Require Import Init.Byte.
Local Open Scope Z_scope.

Lemma reach_vtptrs T prog (m : Machine (nat * unit) unit (BMem unit unit)) : target_ok T -> names_unique prog ->
  reachable T (BasicOps T) prog m -> forall n n' p, In (n, p) (m_vtptrs m) -> In (n', p) (m_vtptrs m) -> n = n'.
Proof.
  intros Tok Hu Hr n n' p H1 H2. destruct (reach_keys T (BasicOps T) (basic_like T) Tok prog m Hr) as [_ Hd].
  apply map_get_nodup in H1, H2; try done. destruct (decide (n = n')) as [|Hne]; [done|].
  destruct (reach_distinct T (BasicOps T) (basic_like T) Tok prog m (OVTable n) (OVTable n') p p Hu Hr H1 H2); congruence.
Qed.

(** * C70 Expressions that have a meaning evaluate to it *)

(** In the basic memory model, evaluation of an expression that stands for a value (ExprSpec.v) yields this value, or
    the machine panics: it is never undefined behaviour. *)
Theorem C70_values T prog m a e v ty :
  target_ok T -> names_unique prog -> reachable T (BasicOps T) prog m -> value_means T (turn m a) e v ty ->
  eval_value T (BasicOps T) e (turn m a) = Panic \/ exists m', eval_value T (BasicOps T) e (turn m a) = Ret (v, ty, m').
Proof.
  intros Tok Hu Hr Hm. destruct (eval_defined T Tok (turn m a) (reach_vtptrs T prog m Tok Hu Hr)) as (H & _ & _).
  specialize (H e v ty Hm (turn m a) (still_refl _)). destruct (eval_value _ _ _ _) as [[[v' t'] m']| | |]; cbn in H; try done; [|by left].
  destruct H as [[= -> ->] _]. right. by eexists.
Qed.
Print Assumptions C70_values.
Theorem C70_places T prog m a p ptr b ty :
  target_ok T -> names_unique prog -> reachable T (BasicOps T) prog m -> place_means T (turn m a) p ptr b ty ->
  eval_place T (BasicOps T) p (turn m a) = Panic \/
  exists m', eval_place T (BasicOps T) p (turn m a) = Ret (mkPlace ptr b, ty, m').
Proof.
  intros Tok Hu Hr Hm. destruct (eval_defined T Tok (turn m a) (reach_vtptrs T prog m Tok Hu Hr)) as (_ & _ & H).
  specialize (H p ptr b ty Hm (turn m a) (still_refl _)). destruct (eval_place _ _ _ _) as [[[v' t'] m']| | |]; cbn in H; try done; [|by left].
  destruct H as [[= -> ->] _]. right. by eexists.
Qed.
Print Assumptions C70_places.

(** So evaluation that does not panic yields exactly the meaning of the expression, and is undefined behaviour exactly
    if there is none. *)
Lemma values_exact T prog m a e : target_ok T -> names_unique prog -> reachable T (BasicOps T) prog m ->
  eval_value T (BasicOps T) e (turn m a) <> Panic ->
  (forall v ty, (exists m', eval_value T (BasicOps T) e (turn m a) = Ret (v, ty, m')) <-> value_means T (turn m a) e v ty) /\
  (is_ub (eval_value T (BasicOps T) e (turn m a)) <-> forall v ty, ~ value_means T (turn m a) e v ty).
Proof.
  intros Tok Hu Hr Hp.
  assert (forall v ty, (exists m', eval_value T (BasicOps T) e (turn m a) = Ret (v, ty, m')) <-> value_means T (turn m a) e v ty) as Hx.
  { intros v ty. split; [intros [m' E]; by destruct (C67_values T _ _ _ _ _ _ Tok (mm_basic T) E)|].
    intros Hm. by destruct (C70_values T prog m a e v ty Tok Hu Hr Hm) as [E|E]. }
  split; [exact Hx|]. split.
  - intros [msg E] v ty [m' E']%Hx. congruence.
  - intros Hno. destruct (eval_value _ _ _ _) as [[[v ty] m']|t| |] eqn:E.
    + destruct (Hno v ty). apply Hx. by eexists.
    + destruct (ub_eval_value T (BasicOps T) (basic_ub T) e (turn m a) t E) as [msg ->]. by exists msg.
    + done.
    + by destruct (ac_eval_value T (BasicOps T) (basic_acts T) e (turn m a)).
Qed.
Lemma places_exact T prog m a p : target_ok T -> names_unique prog -> reachable T (BasicOps T) prog m ->
  eval_place T (BasicOps T) p (turn m a) <> Panic ->
  (forall ptr b ty, (exists m', eval_place T (BasicOps T) p (turn m a) = Ret (mkPlace ptr b, ty, m')) <-> place_means T (turn m a) p ptr b ty) /\
  (is_ub (eval_place T (BasicOps T) p (turn m a)) <-> forall ptr b ty, ~ place_means T (turn m a) p ptr b ty).
Proof.
  intros Tok Hu Hr Hp.
  assert (forall ptr b ty, (exists m', eval_place T (BasicOps T) p (turn m a) = Ret (mkPlace ptr b, ty, m')) <-> place_means T (turn m a) p ptr b ty) as Hx.
  { intros ptr b ty. split; [intros [m' E]; by destruct (C67_places T _ _ _ _ _ _ Tok (mm_basic T) E)|].
    intros Hm. by destruct (C70_places T prog m a p ptr b ty Tok Hu Hr Hm) as [E|E]. }
  split; [exact Hx|]. split.
  - intros [msg E] ptr b ty [m' E']%Hx. congruence.
  - intros Hno. destruct (eval_place _ _ _ _) as [[[[ptr b] ty] m']|t| |] eqn:E.
    + destruct (Hno ptr b ty). apply Hx. by eexists.
    + destruct (ub_eval_place T (BasicOps T) (basic_ub T) p (turn m a) t E) as [msg ->]. by exists msg.
    + done.
    + by destruct (ac_eval_place T (BasicOps T) (basic_acts T) p (turn m a)).
Qed.

(** This holds for all expressions of programs that are accepted and have no gaps, and that do not ask for sizes that
    are not known. *)
Theorem C70_values_exact T prog m a f e ty :
  target_ok T -> target_std T -> strict_program T prog -> reachable T (BasicOps T) prog m -> enabled m a -> frame_of m a 0 f ->
  value_check_wf T prog (fn_locals (f_func f)) e = Ret ty -> gap_free T prog (fn_locals (f_func f)) (inl e) ->
  (forall e1, occurs (inl e) e1 -> size_known T e1) ->
  (forall v t, (exists m', eval_value T (BasicOps T) e (turn m a) = Ret (v, t, m')) <-> value_means T (turn m a) e v t) /\
  (is_ub (eval_value T (BasicOps T) e (turn m a)) <-> forall v t, ~ value_means T (turn m a) e v t).
Proof.
  intros Tok Std Hs Hr Hen Hf Hw Hg Hk. eapply values_exact; [done|by apply st_unique in Hs|done|]. intros Hp.
  destruct (value_sound T (BasicOps T) _ (rc_basic T) Tok Std prog Hs m a f e ty Hr Hen Hf Hw Hg) as [H1 _].
  destruct (H1 Hp) as (m1 & e1 & He & [Hb|(p & pt & pl & t1 & m2 & _ & _ & [])]). apply evaluates_occurs in He.
  by apply (not_too_big T (BasicOps T) m1 e1 (Hk e1 He)).
Qed.
Print Assumptions C70_values_exact.
Theorem C70_places_exact T prog m a f p ty :
  target_ok T -> target_std T -> strict_program T prog -> reachable T (BasicOps T) prog m -> enabled m a -> frame_of m a 0 f ->
  place_check_wf T prog (fn_locals (f_func f)) p = Ret ty -> gap_free T prog (fn_locals (f_func f)) (inr p) ->
  (forall e1, occurs (inr p) e1 -> size_known T e1) ->
  (forall ptr b t, (exists m', eval_place T (BasicOps T) p (turn m a) = Ret (mkPlace ptr b, t, m')) <-> place_means T (turn m a) p ptr b t) /\
  (is_ub (eval_place T (BasicOps T) p (turn m a)) <-> forall ptr b t, ~ place_means T (turn m a) p ptr b t).
Proof.
  intros Tok Std Hs Hr Hen Hf Hw Hg Hk. eapply places_exact; [done|by apply st_unique in Hs|done|]. intros Hp.
  destruct (place_sound T (BasicOps T) _ (rc_basic T) Tok Std prog Hs m a f p ty Hr Hen Hf Hw Hg) as [H1 _].
  destruct (H1 Hp) as (m1 & e1 & He & [Hb|(p' & pt & pl & t1 & m2 & _ & _ & [])]). apply evaluates_occurs in He.
  by apply (not_too_big T (BasicOps T) m1 e1 (Hk e1 He)).
Qed.
Print Assumptions C70_places_exact.
(** In the example program, which has no gaps: the sum of an element of an array and a constant has a meaning, and a
    local that has not been written has none. *)
Example C70_hyps : exists f, let e := EBinOp (BInt IAdd) (ELoad (PIndex (PLocal 4) (u32_e 1))) (u32_e 4) in
  target_ok x86_64 /\ target_std x86_64 /\ strict_program x86_64 da_prog /\ reachable x86_64 B64 da_prog (da_at 7) /\
  enabled (da_at 7) 0 /\ frame_of (da_at 7) 0 0 f /\
  (forall e1, e1 = e \/ e1 = ELoad (PLocal 2) ->
     value_check_wf x86_64 da_prog (fn_locals (f_func f)) e1 = Ret (TInt u32_t) /\
     gap_free x86_64 da_prog (fn_locals (f_func f)) (inl e1) /\ forall e2, occurs (inl e1) e2 -> size_known x86_64 e2) /\
  (exists m', eval_value x86_64 B64 e (turn (da_at 7) 0) = Ret (VInt 9, TInt u32_t, m')) /\
  is_ub (eval_value x86_64 B64 (ELoad (PLocal 2)) (turn (da_at 7) 0)).
Proof.
  eexists. split; [exact x86_64_ok|]. split; [exact x86_64_std|]. split; [apply strictb_ok; vm_compute; reflexivity|].
  split; [exact (proj1 (da_go 7 ltac:(lia)))|]. split; [vm_compute; reflexivity|].
  split; [eexists; split; vm_compute; reflexivity|]. split.
  - intros e1 [-> | ->]; (split; [vm_compute; reflexivity|]); (split; intros e2 He; [apply no_gapb_ok|]; apply occurs_subs in He; cbn in He;
      repeat destruct He as [<-|He]; try done; vm_compute; reflexivity).
  - split; [eexists; vm_compute; reflexivity|]. eexists. vm_compute. reflexivity.
Qed.
