(** The translation of well-typed MIR does what MIR does. *)
From Verif Require Export MirRvMeans MirCode MiniNames.
From Verif Require Import ExprProofs.
From Coq Require Import ZifyBool ZifyN ZifyNat.

Lemma rets_machines {A} (o : Outcome A) (Q : forall (PE AE FX : Type) (D : EqDecision (nat * PE)), Machine (nat * PE) FX (BMem PE AE) -> StackFrame (nat * PE) FX -> A -> Prop) :
  (forall PE AE FX D m f, top_frame m f -> rets o (Q PE AE FX D m f)) -> rets o (fun a => forall PE AE FX D m f, top_frame m f -> Q PE AE FX D m f a).
Proof. destruct o; cbn; auto. Qed.

Section Stmt.
  Context (R : Rustc) (HR : rustc_ok T R) (HD : discr_ok R) (fuel : nat) (Hfuel : enough R fuel) (B : RBody) (F : Function) (cf : Cx).
  Notation iv := (iv R B).
  (** the names that functions, allocations and vtables have in the end *)
  Definition the_names : Naming := mkNaming (map_get (cx_fns cf)) (map_get (cx_alloc_map cf)) (map_get (cx_vtable_map cf)) N.of_nat N.of_nat.
  Notation N := the_names.
  Notation value_is := (value_is T F N).
  Notation place_is := (place_is T R B F N).
  Notation operand_is := (operand_is T R B F N).
  Notation rvalue_is := (rvalue_is T R B F N).

  (** the function has what the state has *)
  Record fin (s : Fcx) : Prop := {
    fi_ext : MiniWf.ext (fx_cx s) cf;
    fi_ty : forall n t, map_get (fx_locals s) n = Some t -> map_get (fn_locals F) n = Some t;
    fi_bb : forall n b, map_get (fx_blocks s) n = Some b -> map_get (fn_blocks F) n = Some b;
  }.
  Lemma fin_grow X s s' : grow X s s' -> fin s' -> fin s.
  Proof. intros [] []. split; eauto using MiniWf.ext_trans. Qed.
  Lemma fin_gcx s s' : gcx s s' -> fin s' -> fin s.
  Proof. intros Hg. eapply (fin_grow []). by apply gcx_grow. Qed.
  Lemma fin_interp s {PE AE FX} `{D : EqDecision (nat * PE)} (m : Machine (nat * PE) FX (BMem PE AE)) f : fin s -> f_func f = F -> interp m f B (env_of N m f) s.
  Proof.
    intros [[] ? ?] <-. split; [split|done|done]; intros ? n H; cbn.
    - by rewrite (ex_fns _ _ H).
    - by rewrite (ex_vts _ _ H).
    - by rewrite (ex_allocs _ _ H).
  Qed.

  Lemma place_code s p r t : iv s -> MirSpec.place_ok R B p r t -> rets (translate_place R s p) (fun e => fin s -> place_is e p).
  Proof.
    intros Hs Hp. eapply rets_weak; [apply (rets_machines _ (fun PE AE FX D m f e =>
      psem m f B (env_of N m f) s e (fun ptr b t' => rplace_means T m R B (env_of N m f) p ptr b r t' /\ t' = t)));
      intros; by apply place_sem|].
    intros e He Hfin PE AE FX D m f Hf HF ptr b t'. rewrite (He PE AE FX D m f Hf (fin_interp s m f Hfin HF)). split.
    - intros [H _]. by exists r.
    - intros [r' H]. by destruct (place_typed _ _ HD _ _ _ _ _ _ _ _ _ H Hp) as [-> ->].
  Qed.
  Lemma operand_code s o r t : iv s -> operand_ok T R B o r t ->
    rets (translate_operand fuel R T s o) (fun x => iv (snd x) /\ gcx s (snd x) /\ (fin (snd x) -> operand_is (fst x) o)).
  Proof.
    intros Hs Ho. eapply rets_weak; [apply rets_and; [by apply rets_fine; eapply operand_fine|]; apply (rets_machines _ (fun PE AE FX D m f x =>
      vsem m f B (env_of N m f) (snd x) (fst x) (operand_means T m R B (env_of N m f) o)));
      intros; by eapply operand_sem|].
    intros [e s'] ((H1 & H2 & _) & He). cbn [fst snd] in *. split_and!; [done..|]. intros Hfin PE AE FX D m f Hf HF v t'. by rewrite (He PE AE FX D m f Hf (fin_interp s' m f Hfin HF)).
  Qed.
  Lemma operand_ty_code s o t : iv s -> operand_ty T R B o t ->
    rets (translate_operand fuel R T s o) (fun x => iv (snd x) /\ gcx s (snd x) /\ (fin (snd x) -> operand_is (fst x) o)).
  Proof. intros Hs [r Ho]. by eapply operand_code. Qed.
  Lemma rvalue_code s rv t : iv s -> rvalue_ok T R B rv t ->
    rets (translate_rvalue fuel R T s rv) (fun x => iv (snd x) /\ gcx s (snd x) /\ (fin (snd x) -> rvalue_is (fst x) rv)).
  Proof.
    intros Hs Ho. eapply rets_weak; [apply rets_and; [by apply rets_fine; eapply rvalue_fine|]; apply (rets_machines _ (fun PE AE FX D m f x =>
      vsem m f B (env_of N m f) (snd x) (fst x) (rvalue_means T m R B (env_of N m f) rv)));
      intros; by eapply rvalue_sem|].
    intros [e s'] ((H1 & H2 & _) & He). cbn [fst snd] in *. split_and!; [done..|]. intros Hfin PE AE FX D m f Hf HF v t'. by rewrite (He PE AE FX D m f Hf (fin_interp s' m f Hfin HF)).
  Qed.
  Lemma sem_place s s' p r t {A} (k : PlaceExpr -> Outcome A) Q : iv s' -> MirSpec.place_ok R B p r t -> (s' = s \/ gcx s s') ->
    (forall d, (fin s' -> place_is d p) -> rets (k d) Q) -> rets (let! d := translate_place R s' p in k d) Q.
  Proof. intros Hs Hp _ Hk. eapply rets_bind; [by eapply place_code|]. exact Hk. Qed.
  Lemma nowhere_eq : b_unit_place = nowhere.
  Proof. done. Qed.

  (** ** Statements *)
  Definition result_is (x : RStmt) (r : StmtResult) : Prop :=
    match r with SrStatement y => stmt_is T R B F N x y | SrIntrinsic op d es => stmt_op T R B F N x op d es end.
  Lemma stmt_code s x : iv s -> stmt_ok T R B x ->
    rets (translate_stmt fuel R T s x) (fun r => iv (snd r) /\ gcx s (snd r) /\ (fin (snd r) -> result_is x (fst r))).
  Proof.
    intros Hs H. destruct H as [p rv r t [Hp Hz] Hrv|p o r pt rt [Hp Hz] Ho|p o r pt rt [Hp Hz] Ho|l Hl|l Hl|fe p r t [Hp Hz]|
                                p r vs dty d sz al v bits it y Hp Hd Hv|o Ho|p r t Hp|]; cbn [translate_stmt].
    - eapply rets_bind; [by eapply place_code|]. intros d Hd.
      assert (Hrest : rets (let! ' (e, s') := translate_rvalue fuel R T s rv in Ret (SrStatement (SAssign d e), s'))
                        (fun r => iv (snd r) /\ gcx s (snd r) /\ (fin (snd r) -> result_is (MsAssign p rv) (fst r)))).
      { eapply rets_bind; [by eapply rvalue_code|]. intros [e s'] (Hs' & Hg & He). cbn [fst snd] in *. cbn. split_and!; [done..|].
        intros Hfin. constructor; [by apply Hd; eapply fin_gcx|by apply He]. }
      destruct rv as [| | | | | | | | | | |k ? ?|]; try exact Hrest. destruct k; try exact Hrest; inversion Hrv.
    - eapply rets_bind; [by eapply place_code|]. intros d Hd.
      eapply rets_bind; [by eapply operand_ty_code|]. intros [e s'] (Hs' & Hg & He). cbn [fst snd] in *. cbn. split_and!; [done..|].
      intros Hfin. constructor; [by apply Hd; eapply fin_gcx|by apply He].
    - eapply rets_bind; [by eapply place_code|]. intros d Hd.
      eapply rets_bind; [by eapply operand_ty_code|]. intros [e s'] (Hs' & Hg & He). cbn [fst snd] in *. cbn. split_and!; [done..|].
      intros Hfin. constructor; [by apply Hd; eapply fin_gcx|by apply He].
    - rewrite (local_name_fine _ _ _ _ Hs Hl). cbn. split_and!; [done|apply gcx_refl|]. intros _. apply (si_live T R B F N).
    - rewrite (local_name_fine _ _ _ _ Hs) by lia. cbn. split_and!; [done|apply gcx_refl|]. intros _. apply (si_dead T R B F N).
    - eapply rets_bind; [by eapply place_code|]. intros d Hd. cbn. split_and!; [done|apply gcx_refl|]. intros Hfin. constructor. by apply Hd.
    - eapply sem_place_rty; [done..|]. intros _. unfold discriminant_for_variant. rewrite Hd. cbn [ask obind].
      eapply rets_bind; [by eapply place_code|]. intros e He. cbn. split_and!; [done|apply gcx_refl|]. intros Hfin.
      econstructor; [by apply He|exact Hp|exact Hd|]. apply wraps_bits. by apply HD in Hd as [? _].
    - eapply rets_bind; [by eapply operand_ty_code|]. intros [e s'] (Hs' & Hg & He). cbn [fst snd] in *. cbn. split_and!; [done..|].
      intros Hfin. rewrite nowhere_eq. constructor. by apply He.
    - eapply rets_bind; [by eapply place_code|]. intros e He. cbn. split_and!; [done|apply gcx_refl|]. intros Hfin. constructor. by apply He.
    - done.
  Qed.
End Stmt.
