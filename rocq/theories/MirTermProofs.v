(** The translation of well-typed MIR does what MIR does: terminators and blocks. *)
From Verif Require Export MirCodeProofs.
From Verif Require Import ExprProofs.
From Coq Require Import ZifyBool ZifyN ZifyNat.

Section Term.
  Context (R : Rustc) (HR : rustc_ok T R) (HD : discr_ok R) (fuel : nat) (Hfuel : enough R fuel) (B : RBody) (F : Function) (cf : Cx)
          (Hpos : (0 < length (ro_locals B))%nat).
  Notation iv := (iv R B).
  Notation fin := (fin F cf).
  Notation N := (the_names cf).
  Notation value_is := (value_is T F N).
  Notation place_is := (place_is T R B F N).
  Notation operand_is := (operand_is T R B F N).
  Notation N0 := (N.of_nat (length (ro_locals B))).
  Notation place_ok := (MirSpec.place_ok R B).

  (** a translation that adds blocks and locals *)
  Definition cod {A} (s : Fcx) (W : A -> Prop) (r : A * Fcx) : Prop := iv (snd r) /\ grow [] s (snd r) /\ (fin (snd r) -> W (fst r)).

  Lemma new_block_code s b : iv s -> cod s (fun n => map_get (fn_blocks F) n = Some b) (new_block s b).
  Proof.
    intros Hs. destruct (fresh_bb_fine R 0%nat B N0 ltac:(lia) Hpos s Hs) as (I1 & G1 & N1 & B1 & _). unfold new_block.
    destruct (fresh_bb s) as [n s1] eqn:E. unfold fresh_bb in E. injection E as <- E. cbn [snd] in *.
    destruct (put_block_fine R B N0 ltac:(lia) Hpos s s1 (fx_next_bb s) b I1 G1) as (I2 & G2 & Q2 & _); [lia|rewrite B1; by apply (fresh_none R B N0 ltac:(lia) Hpos)|].
    unfold cod. cbn [fst snd]. split_and!; [done..|]. intros Hf. apply (fi_bb _ _ _ Hf). by rewrite Q2, bool_decide_eq_true_2.
  Qed.
  Lemma bb_step s c b {A} (k : BbName -> Outcome A) Q : iv s -> block_ok B c b -> rets (k (N.of_nat b)) Q -> rets (let! n := bb_name s b in k n) Q.
  Proof. intros Hs (? & Hb & _) Hk. rewrite (bb_name_fine _ _ _ _ Hs) by (by eapply lookup_lt_Some). done. Qed.
  Lemma opt_bb_step s c b {A} (k : option BbName -> Outcome A) Q : iv s -> MirSpec.next_ok B c b -> rets (k (option_map N.of_nat b)) Q ->
    rets (let! n := opt_bb_name s b in k n) Q.
  Proof. intros Hs Hb Hk. destruct b as [b|]; cbn [opt_bb_name]; [|done]. destruct Hb as (? & Hb & _). by rewrite (bb_name_fine _ _ _ _ Hs) by (by eapply lookup_lt_Some). Qed.

  Lemma unwind_code s c u : iv s -> unwind_ok B c u -> rets (translate_unwind_action s u c) (cod s (unwind_is F N c u)).
  Proof.
    intros Hs Hu. destruct u as [| | |b]; cbn [translate_unwind_action].
    - cbn in Hu. subst c. cbn [negb assert_ obind rets]. destruct (new_block_code s (mkBlock [] TmResumeUnwind BkCleanup) Hs) as (H1 & H2 & H3).
      split_and!; [done..|]. intros Hf. constructor; [done|]. by apply H3.
    - destruct (new_block_code s (mkBlock [] TmUnreachable (if c then BkTerminate else BkCleanup)) Hs) as (H1 & H2 & H3).
      split_and!; [done..|]. intros Hf. constructor. by apply H3.
    - destruct (new_block_code s (mkBlock [] b_abort (if c then BkTerminate else BkCleanup)) Hs) as (H1 & H2 & H3).
      split_and!; [done..|]. intros Hf. constructor. by apply H3.
    - destruct Hu as [-> Hb]. eapply bb_step; [done..|]. cbn. split_and!; [done|apply grow_refl|]. intros _. apply (ui_cleanup F N).
  Qed.
  Lemma panic_code s c u : iv s -> unwind_ok B c u -> rets (translate_panic R s u c) (cod s (panic_is R F N c u)).
  Proof.
    intros Hs Hu. unfold translate_panic. destruct (rc_unwinds R) eqn:E.
    - eapply rets_bind; [by eapply unwind_code|]. intros [n s'] (H1 & H2 & H3). cbn. split_and!; [done..|]. intros Hf. constructor; [done|]. by apply H3.
    - cbn. split_and!; [done|apply grow_refl|]. intros _. by constructor.
  Qed.

  (** ** Arguments *)
  Definition gcod {A} (s : Fcx) (W : A -> Prop) (r : A * Fcx) : Prop := iv (snd r) /\ gcx s (snd r) /\ (fin (snd r) -> W (fst r)).
  Lemma operands_code s os : iv s -> Forall (operand_typed T R B) os ->
    rets (map_st (translate_operand fuel R T) os s) (fun x => gcod s (Forall2 (fun o e => operand_is e o) os) x /\ length (fst x) = length os).
  Proof.
    intros Hs Hos. eapply rets_weak; [apply (rets_map_st _ iv gcx (fun o (_ : unit) => operand_typed T R B o) (fun s o e => fin s -> operand_is e o) os (const tt <$> os))|].
    - apply gcx_refl.
    - apply gcx_trans.
    - intros s1 s2 ? ? Hg H Hf. apply H. by eapply fin_gcx.
    - intros s1 o _ _ Hs1 [t Ho]. by eapply operand_ty_code.
    - done.
    - clear Hs. induction Hos; cbn; [constructor|by constructor].
    - intros [es s'] (H1 & H2 & H3). cbn [fst snd] in *. split; [split_and!; [done..|]|by apply Forall2_length in H3]. intros Hf. eapply Forall2_impl; [done|]. auto.
  Qed.
  Lemma arg_code s o : iv s -> operand_typed T R B o -> rets (translate_arg fuel R T s o) (gcod s (arg_is T R B F N o)).
  Proof.
    intros Hs (t & r & Ho).
    assert (Hv : (forall p, o <> OpMove p) -> rets (let! ' (e, s') := translate_operand fuel R T s o in Ret (ByValue e, s')) (gcod s (arg_is T R B F N o))).
    { intros Hno. eapply rets_bind; [by eapply operand_code|]. intros [e s'] (H1 & H2 & H3). cbn [fst snd] in *. cbn. split_and!; [done..|].
      intros Hf. constructor; [done|]. by apply H3. }
    destruct o as [c|p|p|c]; try by apply Hv. cbn [translate_arg]. inversion Ho as [| |? ? ? [Hp Hz]|]; subst.
    eapply rets_bind; [by eapply place_code|]. intros e He. cbn. split_and!; [done|apply gcx_refl|]. intros Hf. constructor. by apply He.
  Qed.
  Lemma args_code s os : iv s -> Forall (operand_typed T R B) os -> rets (map_st (translate_arg fuel R T) os s) (gcod s (Forall2 (arg_is T R B F N) os)).
  Proof.
    intros Hs Hos. eapply rets_weak; [apply (rets_map_st _ iv gcx (fun o (_ : unit) => operand_typed T R B o) (fun s o e => fin s -> arg_is T R B F N o e) os (const tt <$> os))|].
    - apply gcx_refl.
    - apply gcx_trans.
    - intros s1 s2 ? ? Hg H Hf. apply H. by eapply fin_gcx.
    - intros s1 o _ _ Hs1 Ho. by apply arg_code.
    - done.
    - clear Hs. induction Hos; cbn; [constructor|by constructor].
    - intros [es s'] (H1 & H2 & H3). split_and!; [done..|]. intros Hf. cbn [fst snd] in *. eapply Forall2_impl; [done|]. auto.
  Qed.
  Lemma spread_code s (spread : bool) os : iv s -> args_ok T R B spread os ->
    rets (translate_args fuel R T s spread os) (gcod s (args_are T R B F N spread os)).
  Proof.
    intros Hs [Hos Hsp]. unfold translate_args. destruct spread.
    - destruct (List.rev os) as [|o others] eqn:E.
      + assert (os = []) as -> by (by rewrite <-(rev_involutive os), E). cbn. split_and!; [done|apply gcx_refl|]. intros _. constructor.
      + assert (os = List.rev others ++ [o]) as -> by (by rewrite <-(rev_involutive os), E). clear E.
        destruct (Hsp eq_refl o) as (r & t & tys & Ho & Hf & Hty); [by rewrite last_snoc|]. apply Forall_app in Hos as [Hos _].
        assert (Hgoal : forall p, o = OpMove p \/ o = OpCopy p -> rets (let! ty := place_rty R s p in
            let! tys := unwrap (rc_fields R ty) in
            let! fields := map_m (fun f : nat * RTy =>
              let! e := translate_place R s (mkRPlace (rp_local p) (rp_proj p ++ [PjField (fst f) (snd f)])) in
              Ret (InPlace e)) (enumerate tys) in
            let! ' (es, s) := map_st (translate_arg fuel R T) (List.rev others) s in
            Ret (es ++ fields, s)) (gcod s (args_are T R B F N true (List.rev others ++ [o])))); [|destruct o as [c|p|p|c]; try done; apply Hgoal; auto].
        intros p Hp. assert (sized_place T R B p r t) as [Hpl Hz] by (destruct Hp as [-> | ->]; by inversion Ho).
        eapply sem_place_rty; [done..|]. intros _. rewrite Hf. cbn [unwrap obind].
        eapply (rets_bind _ _ (fun fs => fin s -> Forall2 (field_arg T R B F N p) (enumerate tys) fs)).
        * assert (Hin : forall f, f ∈ enumerate tys -> exists t', MirSpec.field_ty t (fst f) = Some t' /\ rc_ty R (snd f) = Some t' /\ sized_ty T t').
          { intros [i r'] Hi%enumerate_lookup. by apply Hty. }
          revert Hin. induction (enumerate tys) as [|f l IH]; intros Hin; [cbn; constructor|]. cbn [map_m].
          destruct (Hin f ltac:(left)) as (t' & Hft & Hrt & Hzt). destruct Hpl as (Hrt0 & r0 & t0 & Hl0 & Ht0 & Hps).
          eapply (rets_bind _ _ (fun a => fin s -> field_arg T R B F N p f a)).
          -- eapply rets_bind; [eapply (place_code R HD B F cf s _ (snd f) t'); [done|]|intros e He; cbn; intros Hfin; exists e; split; [done|by apply He]].
             split; [done|]. exists r0, t0. split_and!; [done..|]. cbn [rp_proj]. eapply projs_snoc; [done|]. by constructor.
          -- intros a Ha. eapply rets_bind; [apply IH; intros; apply Hin; by right|]. intros es Hes. cbn. intros Hfin. constructor; auto.
        * intros fields Hfields. eapply rets_bind; [by apply args_code|]. intros [es s'] (H1 & H2 & H3). cbn [fst snd] in *. cbn.
          split_and!; [done..|]. intros Hfin. econstructor; [done|done|done|by apply H3|]. apply Hfields. by eapply fin_gcx.
    - eapply rets_weak; [by apply args_code|]. intros [es s'] (H1 & H2 & H3). split_and!; [done..|]. intros Hf. constructor. by apply H3.
  Qed.

  (** ** catch_unwind *)
  Lemma fresh_next s {A} (k : BbName -> Fcx -> Outcome A) Q : iv s ->
    (forall s1, iv s1 -> grow [] s s1 -> fx_next_bb s1 = (fx_next_bb s + 1)%N -> fx_blocks s1 = fx_blocks s -> fx_next_local s1 = fx_next_local s ->
      rets (k (fx_next_bb s) s1) Q) -> rets (let '(n, s1) := fresh_bb s in k n s1) Q.
  Proof. intros Hs Hk. destruct (fresh_bb_fine R 0%nat B N0 ltac:(lia) Hpos s Hs) as (? & ? & ? & ? & ?). by apply Hk. Qed.
  Lemma local_next s ty {A} (k : LocalName -> Fcx -> Outcome A) Q : iv s -> sized_ty T ty -> wf_ty T R ty ->
    (forall s1, iv s1 -> grow [] s s1 -> map_get (fx_locals s1) (fx_next_local s) = Some ty -> fx_next_bb s1 = fx_next_bb s -> fx_blocks s1 = fx_blocks s ->
      fx_next_local s1 = (fx_next_local s + 1)%N -> rets (k (fx_next_local s) s1) Q) -> rets (let '(n, s1) := new_local s ty in k n s1) Q.
  Proof. intros Hs Hz Hw Hk. destruct (new_local_fine' R 0%nat B N0 ltac:(lia) Hpos s ty Hs Hz Hw) as (? & ? & ? & ? & ? & ?). by apply Hk. Qed.
  Definition catch_shape (d : PlaceExpr) (try_fn data catch_fn : ValueExpr) (b : BbName) (tm : Terminator) : Prop :=
    exists n1 n2 n3 n4 n5 l1 l2 l3 l4 l5, tm = TmGoto n1 /\
      NoDup [l1; l2; l3; l4; l5] /\ (forall l, (l < length (ro_locals B))%nat -> N.of_nat l ∉ [l1; l2; l3; l4; l5]) /\
      Forall2 (fun l t => map_get (fn_locals F) l = Some t) [l1; l2; l3; l4; l5]
        [TPtr (PRaw MKNone); TPtr PFnPtr; TPtr (PRaw MKNone); TPtr PFnPtr; TPtr (PRaw MKNone)] /\
      map_get (fn_blocks F) n1 = Some (catch_block1 n2 n3 l1 l2 l3 l4 d try_fn data catch_fn) /\
      map_get (fn_blocks F) n2 = Some (catch_block2 l1 l2 l3 l4 b) /\ map_get (fn_blocks F) n3 = Some (catch_block3 n4 l5) /\
      map_get (fn_blocks F) n4 = Some (catch_block4 n5 l1 l3 l4 l5) /\ map_get (fn_blocks F) n5 = Some (catch_block5 l1 l2 l3 l4 b).
  Lemma catch_shaped s s10 n1 n2 n3 n4 n5 l1 l2 l3 l4 l5 d try_fn data catch_fn b : iv s ->
    iv s10 -> grow [] s s10 -> fx_blocks s10 = fx_blocks s -> (fx_next_bb s = n1 /\ n2 = n1 + 1 /\ n3 = n2 + 1 /\ n4 = n3 + 1 /\ n5 = n4 + 1 /\ fx_next_bb s10 = n5 + 1)%N ->
    (N0 <= l1 /\ l1 < l2 /\ l2 < l3 /\ l3 < l4 /\ l4 < l5)%N ->
    map_get (fx_locals s10) l1 = Some b_raw_void_ptr_ty -> map_get (fx_locals s10) l2 = Some (TPtr PFnPtr) -> map_get (fx_locals s10) l3 = Some b_raw_void_ptr_ty ->
    map_get (fx_locals s10) l4 = Some (TPtr PFnPtr) -> map_get (fx_locals s10) l5 = Some b_raw_void_ptr_ty ->
    forall q5, q5 = put_block (put_block (put_block (put_block (put_block s10 n1 (catch_block1 n2 n3 l1 l2 l3 l4 d try_fn data catch_fn))
        n2 (catch_block2 l1 l2 l3 l4 b)) n3 (catch_block3 n4 l5)) n4 (catch_block4 n5 l1 l3 l4 l5)) n5 (catch_block5 l1 l2 l3 l4 b) ->
    cod s (catch_shape d try_fn data catch_fn b) (TmGoto n1, q5).
  Proof.
    intros Hi I10 Gs Bs' (N1 & N2 & N3 & N4 & N5 & N6) (L1 & L2 & L3 & L4 & L5) M6 M7 M8 M9 M10 q5.
    assert (Hnone : forall m, (n1 <= m)%N -> map_get (fx_blocks s) m = None).
    { intros m Hm. destruct (map_get (fx_blocks s) m) eqn:E; [|done]. apply (iv_bb _ _ _ Hi) in E. lia. }
    pose proof (put_block_fine R B N0 ltac:(lia) Hpos s) as Hput.
    destruct (Hput s10 n1 (catch_block1 n2 n3 l1 l2 l3 l4 d try_fn data catch_fn) I10 Gs)
      as (J1 & H1 & Q1 & R1 & P1 & O1 & C1); [lia|rewrite Bs'; apply Hnone; lia|]. generalize dependent (put_block s10 n1 (catch_block1 n2 n3 l1 l2 l3 l4 d try_fn data catch_fn)). intros q1 J1 H1 Q1 R1 P1 O1 C1.
    destruct (Hput q1 n2 (catch_block2 l1 l2 l3 l4 b) J1 H1)
      as (J2 & H2 & Q2 & R2 & P2 & O2 & C2); [lia|rewrite Q1, bool_decide_eq_false_2, Bs' by lia; apply Hnone; lia|]. generalize dependent (put_block q1 n2 (catch_block2 l1 l2 l3 l4 b)). intros q2 J2 H2 Q2 R2 P2 O2 C2.
    destruct (Hput q2 n3 (catch_block3 n4 l5) J2 H2)
      as (J3 & H3 & Q3 & R3 & P3 & O3 & C3); [lia|rewrite Q2, Q1, !bool_decide_eq_false_2, Bs' by lia; apply Hnone; lia|]. generalize dependent (put_block q2 n3 (catch_block3 n4 l5)). intros q3 J3 H3 Q3 R3 P3 O3 C3.
    destruct (Hput q3 n4 (catch_block4 n5 l1 l3 l4 l5) J3 H3)
      as (J4 & H4 & Q4 & R4 & P4 & O4 & C4); [lia|rewrite Q3, Q2, Q1, !bool_decide_eq_false_2, Bs' by lia; apply Hnone; lia|]. generalize dependent (put_block q3 n4 (catch_block4 n5 l1 l3 l4 l5)). intros q4 J4 H4 Q4 R4 P4 O4 C4.
    destruct (Hput q4 n5 (catch_block5 l1 l2 l3 l4 b) J4 H4)
      as (J5 & H5 & Q5 & R5 & P5 & O5 & C5); [lia|rewrite Q4, Q3, Q2, Q1, !bool_decide_eq_false_2, Bs' by lia; apply Hnone; lia|]. intros E0. rewrite <-E0 in J5, H5, Q5, R5, P5, O5, C5. clear E0.
    assert (C : fx_locals s10 = fx_locals q5) by congruence. rewrite C in M6, M7, M8, M9, M10.
    unfold cod. cbn [fst snd]. split_and!; [done..|]. intros Hf. exists n1, n2, n3, n4, n5, l1, l2, l3, l4, l5. split_and!.
    - done.
    - repeat (apply NoDup_cons; split; [rewrite ?elem_of_cons, ?elem_of_nil; lia|]). apply NoDup_nil_2.
    - intros l Hl. rewrite !elem_of_cons, elem_of_nil. lia.
    - repeat (apply Forall2_cons; split; [by apply (fi_ty _ _ _ Hf)|]). apply Forall2_nil_2.
    - apply (fi_bb _ _ _ Hf). rewrite Q5, Q4, Q3, Q2, Q1, !(bool_decide_eq_false_2 (_ = n1)) by lia. by rewrite bool_decide_eq_true_2.
    - apply (fi_bb _ _ _ Hf). rewrite Q5, Q4, Q3, Q2, !(bool_decide_eq_false_2 (_ = n2)) by lia. by rewrite bool_decide_eq_true_2.
    - apply (fi_bb _ _ _ Hf). rewrite Q5, Q4, Q3, !(bool_decide_eq_false_2 (_ = n3)) by lia. by rewrite bool_decide_eq_true_2.
    - apply (fi_bb _ _ _ Hf). rewrite Q5, Q4, !(bool_decide_eq_false_2 (_ = n4)) by lia. by rewrite bool_decide_eq_true_2.
    - apply (fi_bb _ _ _ Hf). by rewrite Q5, bool_decide_eq_true_2.
  Qed.
  Lemma catch_built s try_fn data catch_fn d b : iv s ->
    rets (translate_catch_unwind s [try_fn; data; catch_fn] d b) (cod s (catch_shape d try_fn data catch_fn b)).
  Proof.
    intros Hs. unfold translate_catch_unwind. cbn [lookup list_lookup unwrap obind].
    apply fresh_next; [done|]. intros s1 I1 G1 N1 B1 L1.
    apply fresh_next; [done|]. intros s2 I2 G2 N2 B2 L2. apply (grow_trans _ _ _ _ G1) in G2. clear I1 G1.
    apply fresh_next; [done|]. intros s3 I3 G3 N3 B3 L3. apply (grow_trans _ _ _ _ G2) in G3. clear I2 G2.
    apply fresh_next; [done|]. intros s4 I4 G4 N4 B4 L4. apply (grow_trans _ _ _ _ G3) in G4. clear I3 G3.
    apply fresh_next; [done|]. intros s5 I5 G5 N5 B5 L5. apply (grow_trans _ _ _ _ G4) in G5. clear I4 G4.
    apply local_next; [done|apply sized_ptr|apply wf_ty_raw|]. intros s6 I6 G6 M6 N6 B6 L6. apply (grow_trans _ _ _ _ G5) in G6 as H6. clear I5 G5.
    apply local_next; [done|apply sized_ptr|apply wf_ty_fn|]. intros s7 I7 G7 M7 N7 B7 L7. apply (grow_trans _ _ _ _ H6) in G7 as H7. clear I6 H6.
    apply local_next; [done|apply sized_ptr|apply wf_ty_raw|]. intros s8 I8 G8 M8 N8 B8 L8. apply (grow_trans _ _ _ _ H7) in G8 as H8. clear I7 H7.
    apply local_next; [done|apply sized_ptr|apply wf_ty_fn|]. intros s9 I9 G9 M9 N9 B9 L9. apply (grow_trans _ _ _ _ H8) in G9 as H9. clear I8 H8.
    apply local_next; [done|apply sized_ptr|apply wf_ty_raw|]. intros s10 I10 G10 M10 N10 B10 L10. apply (grow_trans _ _ _ _ H9) in G10 as H10. clear I9 H9.
    apply (gr_locals _ _ _ G7) in M6. apply (gr_locals _ _ _ G8) in M6, M7. apply (gr_locals _ _ _ G9) in M6, M7, M8. apply (gr_locals _ _ _ G10) in M6, M7, M8, M9.
    clear G6 G7 G8 G9 G10. pose proof (iv_nl _ _ _ Hs) as Hn0.
    apply (catch_shaped s s10 (fx_next_bb s) (fx_next_bb s1) (fx_next_bb s2) (fx_next_bb s3) (fx_next_bb s4)
      (fx_next_local s5) (fx_next_local s6) (fx_next_local s7) (fx_next_local s8) (fx_next_local s9) d try_fn data catch_fn b); try eassumption;
      [congruence|split_and!; (reflexivity || lia)|split_and!; lia|reflexivity].
  Qed.

  (** ** The intrinsics of Rust *)
  Notation imeans i args := (fun _ _ _ _ m env => intrinsic_means T m R B env i args).
  Definition icod (s : Fcx) i args d b : list Statement * Terminator * Fcx -> Prop := cod s (fun x => intrinsic_is T R B F N i args d b (fst x) (snd x)).
  Lemma same_icod s i args d b sts tm : iv s -> intrinsic_is T R B F N i args d b sts tm -> icod s i args d b (sts, tm, s).
  Proof. intros Hs H. split_and!; [done|apply grow_refl|]. by intros _. Qed.
  Lemma goto_code s c s' i args d dest e b : gcx s s' -> iv s' -> block_ok B c b ->
    i ∈ [RiArithOffset; RiPtrOffsetFrom true; RiPtrOffsetFrom false; RiCtpop; RiExactDiv] \/ (exists r, i = RiSizeOfVal r) \/ (exists r, i = RiAlignOfVal r) ->
    (fin s' -> place_is dest d) -> (fin s' -> value_is e (imeans i args)) ->
    rets (assign_goto s' dest e (Some b)) (icod s i args d (Some b)).
  Proof.
    intros Hg Hs Hb Hi Hd He. unfold assign_goto. cbn [unwrap obind]. eapply bb_step; [done..|]. cbn. split_and!; [done|by apply gcx_grow|]. cbn [fst snd].
    intros Hf. apply (ii_value T R B F N); auto.
  Qed.
  Lemma two_code s l r tl tr {A} (k : ValueExpr -> ValueExpr -> Fcx -> Outcome A) Q : iv s -> operand_ty T R B l tl -> operand_ty T R B r tr ->
    (forall el er s', iv s' -> gcx s s' -> (fin s' -> operand_is el l) -> (fin s' -> operand_is er r) -> rets (k el er s') Q) ->
    rets (let! ' (el, s) := translate_operand fuel R T s l in let! ' (er, s) := translate_operand fuel R T s r in k el er s) Q.
  Proof.
    intros Hs Hl Hr Hk. eapply rets_bind; [by eapply operand_ty_code|]. intros [el s1] (I1 & G1 & E1). cbn [fst snd] in *.
    eapply rets_bind; [by eapply operand_ty_code|]. intros [er s2] (I2 & G2 & E2). cbn [fst snd] in *. apply Hk; [done|by eapply gcx_trans| |done].
    intros Hf. apply E1. by eapply fin_gcx.
  Qed.
  Lemma pointee_step s o r p size {A} (k : Size -> Outcome A) Q t : iv s -> operand_ok T R B o r t -> rc_deref R r = Some p -> rc_size R p = Some size ->
    ((forall r' t', operand_ok T R B o r' t' -> r' = r) -> rets (k size) Q) -> rets (let! x := Mini.pointee_size R s o in k x) Q.
  Proof.
    intros Hs Ho Hp Hsz Hk. eapply (rets_bind _ _ (fun x => x = size /\ forall r' t', operand_ok T R B o r' t' -> r' = r)); [|intros ? [-> Hu]; by apply Hk].
    unfold Mini.pointee_size. eapply sem_rty; [done..|]. intros Hu. rewrite Hp. cbn. rewrite Hsz. cbn. split; [done|]. intros r' t' H. by apply Hu in H as [-> _].
  Qed.
  Lemma place_step s p r t {A} (k : PlaceExpr -> Outcome A) Q : iv s -> place_ok p r t -> (forall d, (fin s -> place_is d p) -> rets (k d) Q) ->
    rets (let! d := translate_place R s p in k d) Q.
  Proof. intros Hs Hp Hk. eapply rets_bind; [by eapply place_code|]. exact Hk. Qed.
  Lemma const_usize it i {PE AE FX} `{EqDecision (nat * PE)} (m : Machine (nat * PE) FX (BMem PE AE)) v t :
    value_means T m (EConstant (KInt i) (TInt it)) v t <-> v = VInt i /\ t = TInt it.
  Proof. split; [inversion 1 as [k v' ty' Hk| | | | | | | |]; subst; by inversion Hk; subst|]. intros [-> ->]. do 2 constructor. Qed.

  Lemma arith_offset_is l o rl it p size el er : operand_ok T R B l rl (TPtr (PRaw MKNone)) -> operand_ty T R B o (TInt it) -> int_ok it ->
    (forall r' t', operand_ok T R B l r' t' -> r' = rl) -> rc_deref R rl = Some p -> rc_size R p = Some size -> operand_is el l -> operand_is er o ->
    value_is (b_ptr_offset el (b_int_binop IMulUnchecked er (EConstant (KInt (Z.of_N size)) (TInt it))) false) (imeans RiArithOffset [l; o]).
  Proof.
    intros Hl Ho Hit Hu Hp Hsz Hel Her PE AE FX D m f Hf HF v t. unfold b_ptr_offset, b_int_binop.
    rewrite (bin_iff m _ _ _ _ _ (Hel PE AE FX D m f Hf HF) (bin_iff m _ _ _ _ _ (Her PE AE FX D m f Hf HF) (const_usize it (Z.of_N size) m))). split.
    - intros (v1 & t1 & v2 & t2 & H1 & (w1 & u1 & w2 & u2 & H2 & (-> & ->) & Hmul) & Hoff).
      pose proof (operand_typed_ty m R HD B _ _ _ _ _ H2 Ho) as ->. pose proof (operand_typed_ty m R HD B _ _ _ _ _ H1 (ex_intro _ rl Hl)) as ->.
      inversion Hmul as [? x ? ? r Hr| | | | | | |]; subst. apply (int_math_sem _ RoMulUnchecked _ _ _ _ Hit eq_refl) in Hr. inversion Hr as [| | | | |? ? Hfit| | | | | | | | |]; subst.
      inversion Hoff; subst. econstructor; [exact Hl|exact H1|exact H2|done|done|done|done].
    - inversion 1 as [? ? rl' q x it' pl size' a Hl' H1 H2 Hp' Hsz' Hfit Hw| | | | |]; subst.
      pose proof (Hu _ _ Hl') as ->. simplify_eq.
      pose proof (operand_typed_ty m R HD B _ _ _ _ _ H2 Ho) as [= ->].
      eexists _, _, _, _. split; [exact H1|]. split; [|by constructor]. eexists _, _, _, _. split; [exact H2|]. split; [done|]. constructor.
      apply (int_math_sem _ RoMulUnchecked _ _ _ _ Hit eq_refl). by constructor.
  Qed.

  Lemma div_exact it x y k : int_ok it -> int_bin_op IDivExact x y it = Ret k <-> y <> 0 /\ x = k * y /\ fits it k.
  Proof.
    intros Hit. unfold int_bin_op. cbn [eval_int_bin_op]. destruct (Z.eqb_spec y 0) as [->|Hy]; [split; [done|by intros []]|].
    pose proof (Z.quot_rem' x y) as Hq. split.
    - destruct (can_represent it (Z.quot x y)) eqn:E; [|done]. cbn [negb]. destruct (Z.eqb_spec (Z.rem x y) 0) as [Hr|]; [|done]. cbn [negb obind]. apply fits_can in E; [|done]. rewrite wraps_id by done. intros [= <-].
      split_and!; [done|lia|done].
    - intros (_ & -> & Hk). rewrite Z.quot_mul, Z.rem_mul by done. rewrite (proj2 (fits_can _ _ Hit) Hk). cbn [negb Z.eqb obind]. by rewrite wraps_id.
  Qed.
  Lemma isize_ok : int_ok (mkIntTy Signed (PTR_SIZE T)).
  Proof. done. Qed.
  Lemma fits_quot d k n : fits (mkIntTy Signed (PTR_SIZE T)) d -> n <> 0%N -> d = k * Z.of_N n -> fits (mkIntTy Signed (PTR_SIZE T)) k.
  Proof. unfold OpsSpec.fits. cbn. intros H Hn ->. nia. Qed.
  Lemma usize_id k : 0 <= k -> fits (mkIntTy Signed (PTR_SIZE T)) k -> int_to_int (usize_ty T) k = k.
  Proof. intros H0 Hk. apply wraps_id; [done|]. unfold OpsSpec.fits in *. cbn in *. lia. Qed.
  Lemma offset_from_is (u : bool) l o rl p size el er e : operand_ok T R B l rl (TPtr (PRaw MKNone)) -> operand_ty T R B o (TPtr (PRaw MKNone)) ->
    (forall r' t', operand_ok T R B l r' t' -> r' = rl) -> rc_deref R rl = Some p -> rc_size R p = Some size -> operand_is el l -> operand_is er o ->
    (if u then b_int_cast (b_usize_ty T) (b_int_binop IDivExact (EBinOp (BPtrOffsetFrom false u) el er) (b_const_int (b_isize_ty T) (Z.of_N size)))
     else Ret (b_int_binop IDivExact (EBinOp (BPtrOffsetFrom false u) el er) (b_const_int (b_isize_ty T) (Z.of_N size)))) = Ret e ->
    value_is e (imeans (RiPtrOffsetFrom u) [l; o]).
  Proof.
    intros Hl Ho Hu Hp Hsz Hel Her He PE AE FX D m f Hf HF v t. unfold b_int_binop, b_const_int, b_isize_ty, b_int_ty in He.
    set (e0 := EBinOp (BInt IDivExact) _ _) in He.
    assert (forall w tw, value_means T m e0 w tw <-> exists q1 q2 d k, operand_means T m R B (env_of N m f) l (VPtr (mkPtr q1 None)) (TPtr (PRaw MKNone)) /\
      operand_means T m R B (env_of N m f) o (VPtr (mkPtr q2 None)) (TPtr (PRaw MKNone)) /\ wraps_to (mkIntTy Signed (PTR_SIZE T)) (tp_addr q1 - tp_addr q2) d /\
      (u = true -> 0 <= d) /\ size <> 0%N /\ d = k * Z.of_N size /\ w = VInt k /\ tw = TInt (mkIntTy Signed (PTR_SIZE T))) as He0.
    { intros w tw. unfold e0. rewrite (bin_iff m _ _ _ _ _ (bin_iff m _ _ _ _ _ (Hel PE AE FX D m f Hf HF) (Her PE AE FX D m f Hf HF)) (const_usize (mkIntTy Signed (PTR_SIZE T)) (Z.of_N size) m)). split.
      - intros (v1 & t1 & v2 & t2 & (w1 & u1 & w2 & u2 & H1 & H2 & Hfrom) & (-> & ->) & Hdiv).
        pose proof (operand_typed_ty m R HD B _ _ _ _ _ H2 Ho) as ->. pose proof (operand_typed_ty m R HD B _ _ _ _ _ H1 (ex_intro _ rl Hl)) as ->.
        inversion Hfrom as [| | | | | |? q1 ? q2 d Hw Hd|]; subst. inversion Hdiv as [? ? ? ? k Hk| | | | | | |]; subst.
        apply (div_exact _ _ _ _ isize_ok) in Hk as (Hn & -> & _). exists q1, q2, (k * Z.of_N size), k. split_and!; try done. lia.
      - intros (q1 & q2 & d & k & H1 & H2 & Hw & Hd & Hn & -> & -> & ->). eexists _, _, _, _. split; [|split; [done|]].
        + eexists _, _, _, _. split; [exact H1|]. split; [exact H2|]. by constructor.
        + constructor. apply (div_exact _ _ _ _ isize_ok). split_and!; [lia|done|]. eapply fits_quot; [|exact Hn|done]. apply Hw. }
    clearbody e0. destruct u.
    - injection He as <-. rewrite (un_iff m _ _ _ He0). split.
      + intros (w & tw & (q1 & q2 & d & k & H1 & H2 & Hw & Hd & Hn & Hk & -> & ->) & Hc). inversion Hc; subst. rewrite usize_id.
        * by econstructor.
        * specialize (Hd eq_refl). nia.
        * eapply fits_quot; [|exact Hn|done]. apply Hw.
      + inversion 1 as [|? ? ? rl' q1 q2 d k pl size' Hl' H1 H2 Hp' Hsz' Hw Hd Hn Hk| | | |]; subst. pose proof (Hu _ _ Hl') as ->. simplify_eq.
        eexists _, _. split; [exists q1, q2, (k * Z.of_N size), k; by split_and!|]. rewrite <-(usize_id k) at 2.
        * constructor.
        * specialize (Hd eq_refl). nia.
        * eapply fits_quot; [|exact Hn|done]. apply Hw.
    - injection He as <-. rewrite He0. split.
      + intros (q1 & q2 & d & k & H1 & H2 & Hw & Hd & Hn & Hk & -> & ->). by econstructor.
      + inversion 1 as [|? ? ? rl' q1 q2 d k pl size' Hl' H1 H2 Hp' Hsz' Hw Hd Hn Hk| | | |]; subst. pose proof (Hu _ _ Hl') as ->. simplify_eq.
        exists q1, q2, (k * Z.of_N size), k. by split_and!.
  Qed.
  Lemma ctpop_is o it e : operand_ty T R B o (TInt it) -> operand_is e o -> value_is (b_count_ones e) (imeans RiCtpop [o]).
  Proof.
    intros Ho He PE AE FX D m f Hf HF v t. unfold b_count_ones. rewrite (un_iff m _ _ _ (He PE AE FX D m f Hf HF)).
    assert (forall x it, eval_count_ones x it = Z.of_nat (ones_below (Z.to_nat (8 * Z.of_N (it_size it))) x)) as Hc.
    { intros x it'. rewrite count_value. f_equal. replace (8 * Z.of_N (it_size it')) with (Z.of_nat (Z.to_nat (8 * Z.of_N (it_size it')))) at 2 by lia. apply ones_mod. }
    split.
    - intros (w & tw & H1 & Hc'). pose proof (operand_typed_ty m R HD B _ _ _ _ _ H1 Ho) as ->. inversion Hc' as [? x ? r Hr| | | | | | |]; subst.
      cbn in Hr. injection Hr as <-. rewrite Hc. by constructor.
    - inversion 1 as [| |? x it' H1| | |]; subst. pose proof (operand_typed_ty m R HD B _ _ _ _ _ H1 Ho) as [= ->].
      eexists _, _. split; [exact H1|]. rewrite <-Hc. by apply um_int.
  Qed.
  Lemma exact_div_is l o it el er : operand_ty T R B l (TInt it) -> operand_ty T R B o (TInt it) -> int_ok it -> operand_is el l -> operand_is er o ->
    value_is (b_int_binop IDivExact el er) (imeans RiExactDiv [l; o]).
  Proof.
    intros Hl Ho Hit Hel Her PE AE FX D m f Hf HF v t. unfold b_int_binop. rewrite (bin_iff m _ _ _ _ _ (Hel PE AE FX D m f Hf HF) (Her PE AE FX D m f Hf HF)). split.
    - intros (v1 & t1 & v2 & t2 & H1 & H2 & Hdiv). pose proof (operand_typed_ty m R HD B _ _ _ _ _ H1 Hl) as ->. pose proof (operand_typed_ty m R HD B _ _ _ _ _ H2 Ho) as ->.
      inversion Hdiv as [? x ? y k Hk| | | | | | |]; subst. apply (div_exact _ _ _ _ Hit) in Hk as (Hn & -> & Hfit). by econstructor.
    - inversion 1 as [| | |? ? x y it' k H1 H2 Hn Hk Hfit| |]; subst. pose proof (operand_typed_ty m R HD B _ _ _ _ _ H1 Hl) as [= ->].
      eexists _, _, _, _. split; [exact H1|]. split; [exact H2|]. constructor. by apply div_exact.
  Qed.
  Lemma meta_unique {PE} k mt mt' (v : Value (nat * PE)) t t' : meta_value T k mt v t -> meta_value T k mt' v t' -> mt = mt'.
  Proof. intros H. inversion H; subst; inversion 1; by subst. Qed.
  Lemma of_val_is o pt rt t e : rc_ty R rt = Some t -> operand_ty T R B o (TPtr pt) -> ptr_meta_kind pt = ty_meta_kind t -> operand_is e o ->
    value_is (EUnOp (UComputeSize t) (b_get_metadata e)) (imeans (RiSizeOfVal rt) [o]) /\
    value_is (EUnOp (UComputeAlign t) (b_get_metadata e)) (imeans (RiAlignOfVal rt) [o]).
  Proof.
    intros Ht Ho Hm He. unfold b_get_metadata.
    split; intros PE AE FX D m f Hf HF v t'; rewrite (un_iff m _ _ _ (un_iff m _ _ _ (He PE AE FX D m f Hf HF))); split.
    - intros (w & tw & (q & tq & H1 & Hq) & Hs). pose proof (operand_typed_ty m R HD B _ _ _ _ _ H1 Ho) as ->. inversion Hq as [| | | |q' ? ? ? Hmv| | |]; subst.
      inversion Hs as [| | | | |? ? ? mt mty s al Hmv' Hms| |]; subst. rewrite Hm in Hmv. rewrite <-(meta_unique _ _ _ _ _ _ Hmv Hmv') in Hms. rewrite <-Hm in Hmv. by econstructor.
    - inversion 1 as [| | | |? t1 ? p pt' w wt s al Ht1 H1 Hmv Hms|]; subst. simplify_eq. pose proof (operand_typed_ty m R HD B _ _ _ _ _ H1 Ho) as [= ->].
      eexists _, _. split; [eexists _, _; split; [exact H1|by constructor]|]. rewrite Hm in Hmv. by econstructor.
    - intros (w & tw & (q & tq & H1 & Hq) & Hs). pose proof (operand_typed_ty m R HD B _ _ _ _ _ H1 Ho) as ->. inversion Hq as [| | | |q' ? ? ? Hmv| | |]; subst.
      inversion Hs as [| | | | | |? ? ? mt mty s al Hmv' Hms|]; subst. rewrite Hm in Hmv. rewrite <-(meta_unique _ _ _ _ _ _ Hmv Hmv') in Hms. rewrite <-Hm in Hmv. by econstructor.
    - inversion 1 as [| | | | |? t1 ? p pt' w wt s al Ht1 H1 Hmv Hms]; subst. simplify_eq. pose proof (operand_typed_ty m R HD B _ _ _ _ _ H1 Ho) as [= ->].
      eexists _, _. split; [eexists _, _; split; [exact H1|by constructor]|]. rewrite Hm in Hmv. by econstructor.
  Qed.
  Lemma operand_int_ok o it : operand_ty T R B o (TInt it) -> int_ok it.
  Proof. intros [r Ho]. apply operand_rc in Ho; [|done]. apply HR in Ho. apply pow2_nonzero. by eapply wf_int. Qed.

  Lemma rs_intrinsic_code s c i args d b : iv s -> rs_intrinsic_ok T R B c i args d b ->
    rets (translate_rs_intrinsic fuel R T s i args d b) (icod s i args d b).
  Proof.
    intros Hi H. destruct H as [ok args d b Hb|args d r t b Ha [Hd Hz] Hb|l o it rl p size d r b Hl Ho Hdr Hsz Hrep [Hd Hz] Hb|
      u l o rl p size d r b Hl Ho Hdr Hsz Hrep [Hd Hz] Hb|o it d r b Ho [Hd Hz] Hb|l o it d r b Hl Ho [Hd Hz] Hb|rt o pt t d r b Ht Ho Hm [Hd Hz] Hb|
      rt o pt t d r b Ht Ho Hm [Hd Hz] Hb|args d b Hb|f data g d r b Hf Hda Hg [Hd Hz] Hb|args d b|args d b]; cbn [translate_rs_intrinsic].
    - destruct ok; cbn [unwrap obind].
      + eapply bb_step; [done..|]. cbn. apply same_icod; [done|]. apply (ii_assert T R B F N).
      + cbn. apply same_icod; [done|]. apply (ii_assert_fails T R B F N).
    - eapply rets_bind; [by eapply operands_code|]. intros [es s'] ((H1 & H2 & H3) & _). cbn [fst snd] in *.
      eapply place_step; [done..|]. intros e He. eapply opt_bb_step; [done..|]. cbn. split_and!; [done|by apply gcx_grow|]. cbn [fst snd]. intros Hfin.
      apply (ii_raw_eq T R B F N); auto.
    - cbn [lookup list_lookup unwrap obind]. pose proof Ho as [ro Ho']. eapply sem_rty; [done..|]. intros _.
      eapply two_code; [done|by eexists|done|]. intros el er s' Hs' Hg' Hel Her.
      eapply place_step; [done..|]. intros e He. eapply pointee_step; [done..|]. intros Hu. eapply sem_ty; [by eapply operand_rc|].
      eapply goto_code; [done..| |done|]; [left; repeat constructor|]. intros Hfin. eapply arith_offset_is; try done; [by eapply operand_int_ok|auto|auto].
    - cbn [lookup list_lookup unwrap obind].
      eapply two_code; [done|by eexists|done|]. intros el er s' Hs' Hg' Hel Her.
      eapply place_step; [done..|]. intros e He. eapply pointee_step; [done..|]. intros Hu. cbn zeta.
      eapply (rets_bind _ _ (fun e1 => fin s' -> value_is e1 (imeans (RiPtrOffsetFrom u) [l; o]))).
      + destruct u; cbn; intros Hfin; (eapply offset_from_is; [done..|auto|auto|reflexivity]).
      + intros e1 He1. eapply goto_code; [done..| |done|done]. left. destruct u; [do 2 constructor|do 3 constructor].
    - cbn [lookup list_lookup unwrap obind]. eapply rets_bind; [by eapply operand_ty_code|]. intros [e s'] (H1 & H2 & H3). cbn [fst snd] in *.
      eapply place_step; [done..|]. intros e' He'. eapply goto_code; [done..| |done|]; [left; do 4 constructor|]. intros Hfin. eapply ctpop_is; eauto.
    - cbn [lookup list_lookup unwrap obind]. eapply two_code; [done|done|done|]. intros el er s' Hs' Hg' Hel Her.
      eapply place_step; [done..|]. intros e' He'. eapply goto_code; [done..| |done|]; [left; do 5 constructor|]. intros Hfin.
      eapply exact_div_is; try done; [by eapply operand_int_ok|auto|auto].
    - eapply place_step; [done..|]. intros e' He'. cbn [lookup list_lookup unwrap obind].
      eapply rets_bind; [by eapply operand_ty_code|]. intros [e s'] (H1 & H2 & H3). cbn [fst snd] in *. eapply sem_ty; [done|].
      eapply goto_code; [done..| | |]; [right; left; by eexists|intros; apply He'; by eapply fin_gcx|]. intros Hfin. by eapply (proj1 (of_val_is _ _ _ _ _ Ht Ho Hm (H3 Hfin))).
    - eapply place_step; [done..|]. intros e' He'. cbn [lookup list_lookup unwrap obind].
      eapply rets_bind; [by eapply operand_ty_code|]. intros [e s'] (H1 & H2 & H3). cbn [fst snd] in *. eapply sem_ty; [done|].
      eapply goto_code; [done..| | |]; [right; right; by eexists|intros; apply He'; by eapply fin_gcx|]. intros Hfin. by eapply (proj2 (of_val_is _ _ _ _ _ Ht Ho Hm (H3 Hfin))).
    - cbn [unwrap obind]. eapply bb_step; [done..|]. cbn. apply same_icod; [done|]. apply (ii_cold_path T R B F N).
    - eapply rets_bind; [eapply (operands_code _ [f; data; g]); [done|]; repeat (apply Forall_cons; split; [by eexists|]); apply Forall_nil_2|].
      intros [es s'] ((H1 & H2 & H3) & Hlen). cbn [fst snd] in *. eapply place_step; [done..|]. intros e' He'. cbn [unwrap obind].
      eapply bb_step; [done..|].
      destruct es as [|try_fn [|dat [|catch_fn [|? ?]]]]; try discriminate Hlen. clear Hlen.
      eapply rets_bind; [by eapply catch_built|]. intros [tm s''] (K1 & K2 & K3). cbn [fst snd] in *. cbn. split_and!; [done|eapply grow_trans; [by apply gcx_grow|done]|].
      cbn [fst snd]. intros Hfin. apply (ii_catch T R B F N). destruct (K3 Hfin) as (n1 & n2 & n3 & n4 & n5 & l1 & l2 & l3 & l4 & l5 & Htm & Hnd & Hout & Hty & Q1 & Q2 & Q3 & Q4 & Q5).
      assert (Hfin' : fin s') by (by eapply fin_grow). specialize (H3 Hfin'). inversion H3 as [|? ? ? ? E1 H3']; subst. inversion H3' as [|? ? ? ? E2 H3'']; subst. inversion H3'' as [|? ? ? ? E3 _]; subst.
      exists e', try_fn, dat, catch_fn, n1, n2, n3, n4, n5, l1, l2, l3, l4, l5. split_and!; auto.
    - cbn. apply same_icod; [done|]. apply (ii_abort T R B F N).
    - done.
  Qed.

  (** ** Calls *)
  Lemma fn_ptr_is i n : map_get (cx_fns cf) i = Some n -> function_pointer_is T F N (b_fn_ptr n) i.
  Proof.
    intros Hn PE AE FX D m f Hf HF v t. unfold b_fn_ptr, env_of. cbn. rewrite Hn. cbn. split.
    - inversion 1 as [k v' ty' Hk| | | | | | | |]; subst. inversion Hk; subst. by eexists.
    - intros (p & Hp & -> & ->). do 2 constructor. done.
  Qed.
  Lemma method_is (K : Meaning) e method : value_is e K -> (forall PE AE FX D m env v t, K PE AE FX D m env v t -> exists pt tn, t = TPtr pt /\ ptr_meta_kind pt = MKVTablePointer tn) ->
    value_is (b_vtable_method_lookup (b_get_metadata e) method)
      (fun PE AE FX D m env v t => exists p pt, K PE AE FX D m env (VPtr p) (TPtr pt) /\ MirCode.method_of m p method v t).
  Proof.
    intros He HK PE AE FX D m f Hf HF v t. unfold b_vtable_method_lookup, b_get_metadata. rewrite (un_iff m _ _ _ (un_iff m _ _ _ (He PE AE FX D m f Hf HF))). split.
    - intros (w & tw & (q & tq & H1 & Hq) & Hm). inversion Hq as [| | | |p pt ? ? Hmv| | |]; subst. inversion Hm as [| | | | | | |p' pt' n vt ? fn fp Q1 Q2 Q3 Q4]; subst.
      exists p, pt. split; [done|]. inversion Hmv; subst. eexists _, _, _, _, _. split_and!; try done.
    - intros (p & pt & H1 & (q & n & vt & fn & fp & Q1 & Q2 & Q3 & Q4 & Q5 & -> & ->)). destruct (HK _ _ _ _ _ _ _ _ H1) as (pt' & tn & [= <-] & Hk).
      eexists _, _. split; [eexists _, _; split; [exact H1|]|].
      + apply um_meta. rewrite Hk, Q1. constructor.
      + by eapply um_method.
  Qed.
  Lemma thin_is (K : Meaning) e : value_is e K -> (forall PE AE FX D m env v t, K PE AE FX D m env v t -> exists pt, t = TPtr pt) ->
    value_is (b_get_thin_pointer e) (fun PE AE FX D m env v t => exists p pt, K PE AE FX D m env (VPtr p) (TPtr pt) /\ v = VPtr (mkPtr (p_thin p) None) /\ t = TPtr (PRaw MKNone)).
  Proof.
    intros He HK PE AE FX D m f Hf HF v t. unfold b_get_thin_pointer. rewrite (un_iff m _ _ _ (He PE AE FX D m f Hf HF)). split.
    - intros (w & tw & H1 & Hm). destruct (HK _ _ _ _ _ _ _ _ H1) as (pt & ->). inversion Hm; subst. eauto.
    - intros (p & pt & H1 & -> & ->). eexists _, _. split; [exact H1|]. constructor.
  Qed.
  Lemma mini_name name op : mini_intrinsic name = Some op -> (name, op) ∈ mini_names.
  Proof.
    unfold mini_intrinsic. intros H.
    repeat match type of H with match ?x with _ => _ end = _ => destruct x; try discriminate H end; injection H as <-;
      unfold mini_names; repeat first [apply elem_of_list_here|apply elem_of_list_further].
  Qed.

  Definition ccod (s : Fcx) c f args d b u : list Statement * Terminator * Fcx -> Prop := cod s (fun x => call_is T R B F N c f args d b u (fst x) (snd x)).
  Lemma call_code s c f args d b u : iv s -> call_ok T R B c f args d b u ->
    rets (translate_call fuel R T s f args d b u c) (ccod s c f args d b u).
  Proof.
    intros Hi H. destruct H as [f conv args d r t b u Hf Ha [Hd Hz] Hb Hu|i args d b u Hii|name args d r t b u Ha [Hd Hz] Hb|
      args d b u Hu|args d b u|conv spread f args d r t b u Ha [Hd Hz] Hb Hu|conv spread m o args d r t b u pt tn Ho Hpt Ha Hne [Hd Hz] Hb Hu]; cbn [translate_call].
    - eapply rets_bind; [by eapply operand_ty_code|]. intros [e s1] (H1 & H2 & H3). cbn [fst snd] in *.
      apply rets_ask. intros cv ->. eapply rets_bind; [eapply args_code; [done|apply Ha]|]. intros [es s2] (K1 & K2 & K3). cbn [fst snd] in *.
      eapply rets_bind; [by eapply unwind_code|]. intros [ub s3] (J1 & J2 & J3). cbn [fst snd] in *.
      eapply place_step; [done..|]. intros e' He'. eapply opt_bb_step; [done..|]. cbn.
      split_and!; cbn [fst snd]; [done|eapply grow_trans; [by apply gcx_grow|]; eapply grow_trans; [by apply gcx_grow|done]|].
      intros Hfin. assert (F2 : fin s2) by (by eapply fin_grow). assert (F1 : fin s1) by (by eapply fin_gcx).
      apply (ci_ptr T R B F N); auto. constructor. auto.
    - eapply rets_weak; [by eapply rs_intrinsic_code|]. intros [[sts tm] s'] (H1 & H2 & H3). split_and!; [done..|]. intros Hf. constructor. by apply H3.
    - apply rets_ask. intros op Hop%mini_name. eapply rets_bind; [eapply operands_code; [done|apply Ha]|]. intros [es s'] ((H1 & H2 & H3) & _). cbn [fst snd] in *.
      eapply place_step; [done..|]. intros e He. eapply opt_bb_step; [done..|]. cbn. split_and!; [done|by apply gcx_grow|]. cbn [fst snd]. intros Hfin.
      apply (ci_mini T R B F N); auto.
    - eapply rets_bind; [by eapply panic_code|]. intros [tm s'] (H1 & H2 & H3). cbn. split_and!; [done..|]. intros Hf. constructor. by apply H3.
    - done.
    - apply rets_ask. intros cv ->. eapply rets_bind; [by eapply spread_code|]. intros [es s1] (H1 & H2 & H3). cbn [fst snd] in *.
      eapply rets_bind; [by eapply unwind_code|]. intros [ub s2] (J1 & J2 & J3). cbn [fst snd] in *.
      pose proof (get_fn_name_ok R [] (fx_cx s2) f (iv_cx _ _ _ J1)) as Hok. pose proof (get_fn_name_ext (fx_cx s2) f) as [Hx Hget].
      destruct (get_fn_name (fx_cx s2) f) as [n c'] eqn:E. cbn [fst snd] in *.
      assert (K1 : iv (set_cx s2 c')) by (by apply set_cx_iv).
      assert (K2 : gcx s2 (set_cx s2 c')) by (by apply set_cx_gcx).
      eapply place_step; [done..|]. intros e He. eapply opt_bb_step; [done..|]. cbn.
      split_and!; cbn [fst snd]; [done|eapply grow_trans; [by apply gcx_grow|]; eapply grow_trans; [done|by apply gcx_grow]|].
      intros Hfin. assert (F2 : fin s2) by (by eapply fin_gcx). assert (F1 : fin s1) by (by eapply fin_grow).
      apply (ci_fn T R B F N); auto. apply fn_ptr_is. by apply (ex_fns _ _ (fi_ext _ _ _ Hfin)).
    - apply rets_ask. intros cv ->. eapply rets_bind; [by eapply spread_code|]. intros [es s1] (H1 & H2 & H3). cbn [fst snd] in *.
      eapply rets_bind; [by eapply unwind_code|]. intros [ub s2] (J1 & J2 & J3). cbn [fst snd] in *.
      cbn [lookup list_lookup unwrap obind]. eapply rets_bind; [by eapply operand_ty_code|]. intros [recv s3] (K1 & K2 & K3). cbn [fst snd] in *.
      destruct es as [|e0 es]; [done|]. cbn [obind].
      eapply place_step; [done..|]. intros e He. eapply opt_bb_step; [done..|]. cbn.
      split_and!; cbn [fst snd]; [done|eapply grow_trans; [by apply gcx_grow|]; eapply grow_trans; [done|by apply gcx_grow]|].
      intros Hfin. assert (F2 : fin s2) by (by eapply fin_gcx). assert (F1 : fin s1) by (by eapply fin_grow).
      eapply (ci_virtual T R B F N); auto.
      + eapply (method_is (fun _ _ _ _ m env => operand_means T m R B env o)); [by apply K3|].
        intros ? ? ? ? ? ? ? ? Hv. exists pt, tn. split; [by eapply operand_typed_ty|done].
      + eapply (thin_is (fun _ _ _ _ m env => operand_means T m R B env o)); [by apply K3|].
        intros ? ? ? ? ? ? ? ? Hv. exists pt. by eapply operand_typed_ty.
  Qed.

  (** ** Terminators *)
  Lemma value_same (K K' : Meaning) e : value_is e K -> (forall PE AE FX D m env v t, K PE AE FX D m env v t <-> K' PE AE FX D m env v t) -> value_is e K'.
  Proof. intros He HK PE AE FX D m f Hf HF v t. rewrite (He PE AE FX D m f Hf HF). apply HK. Qed.
  Lemma raw_is e p r t mk : place_is e p -> place_ok p r t -> ty_meta_kind t = mk ->
    value_is (EAddrOf e (PRaw mk)) (fun _ _ _ _ m env v t => exists q, raw_pointer T m R B env p q /\ v = VPtr q /\ t = TPtr (PRaw mk)).
  Proof.
    intros He Hp Hmk PE AE FX D m f Hf HF v t'. specialize (He PE AE FX D m f Hf HF). clear HF. split.
    - intros Hm. inversion Hm; subst. match goal with H : place_means _ _ _ _ _ _ |- _ => rename H into Hpl end.
      match goal with H : same_dest _ ?x |- _ => rename H into Hd, x into q end. apply He in Hpl as [r' Hpl].
      destruct (place_typed _ _ HD _ _ _ _ _ _ _ _ _ Hpl Hp) as [-> ->]. exists q. split; [|done]. by eexists _, _, r, t.
    - intros (q & (ptr & b & r' & t0 & Hpl & Hv & Hd) & -> & ->). destruct (place_typed _ _ HD _ _ _ _ _ _ _ _ _ Hpl Hp) as [-> ->]. subst mk.
      econstructor; [apply He; by eexists|done|done].
  Qed.
  Lemma cases_code s it (ts : list (Z * RBb)) c acc : iv s -> Forall (fun x : Z * RBb => block_ok B c (snd x)) ts ->
    rets (fold_m (fun acc (c : Z * RBb) => let! n := bb_name s (snd c) in Ret (map_insert acc (int_from_bits (fst c) it) n)) ts acc)
      (fun r => (forall x n, map_get r x = Some n -> map_get acc x = Some n \/ exists bits b, In (bits, b) ts /\ x = int_from_bits bits it /\ n = N.of_nat b) /\
        (forall x, is_Some (map_get acc x) -> is_Some (map_get r x)) /\ forall bits b, In (bits, b) ts -> is_Some (map_get r (int_from_bits bits it))).
  Proof.
    intros Hs Hts. revert acc. induction Hts as [|[z b'] ts Hb' Hts IH]; intros acc.
    - cbn. split_and!; [by left|done|by intros ? ? []].
    - cbn [fold_m fst snd] in *. rewrite (bb_name_fine _ _ _ _ Hs) by (destruct Hb' as (? & Hb' & _); by eapply lookup_lt_Some). cbn [obind]. eapply rets_weak; [apply IH|]. intros r (H1 & H2 & H3). split_and!.
      + intros x n Hx. apply H1 in Hx as [Hx|(bits & b & Hin & -> & ->)]; [|right; exists bits, b; split_and!; [by right|done..]].
        rewrite map_insert_get in Hx. case_bool_decide; [|by left]. injection Hx as <-. right. exists z, b'. split_and!; [by left|done..].
      + intros x Hx. apply H2. rewrite map_insert_get. case_bool_decide; [by eexists|done].
      + intros bits b [[= -> ->]|Hin]; [|by eapply H3]. apply H2. rewrite map_insert_get, bool_decide_eq_true_2 by done. by eexists.
  Qed.
  Lemma bool_int_is e o : operand_ty T R B o TBool -> operand_is e o ->
    value_is (b_transmute e u8_ty) (fun _ _ _ _ m env v t => exists b : bool, operand_means T m R B env o (VBool b) TBool /\ v = VInt (if b then 1 else 0) /\ t = TInt (mkIntTy Unsigned 1)).
  Proof.
    intros Ho He PE AE FX D m f Hf HF v t. rewrite (bool_u8_iff m _ _ (He PE AE FX D m f Hf HF)); [done|]. intros. by eapply operand_typed_ty.
  Qed.
  Lemma expected_is e o (x : bool) : operand_ty T R B o TBool -> operand_is e o ->
    value_is (b_transmute (if x then e else b_not e) u8_ty)
      (fun _ _ _ _ m env v t => exists b, operand_means T m R B env o (VBool b) TBool /\ v = VInt (if Bool.eqb b x then 1 else 0) /\ t = TInt (mkIntTy Unsigned 1)).
  Proof.
    intros Ho He. destruct x.
    - eapply value_same; [by apply (bool_int_is _ o)|]. intros. cbn. split; intros (b & ? & -> & ->); exists b; (split; [done|]); by destruct b.
    - intros PE AE FX D m f Hf HF v t.
      assert (forall v t, operand_means T m R B (env_of N m f) o v t -> t = TBool) as Ht by (intros; by eapply operand_typed_ty).
      rewrite (bool_u8_iff m _ _ (not_iff m _ _ (He PE AE FX D m f Hf HF) Ht)).
      + split.
        * intros (b & (b' & Hb & [= ->] & _) & -> & ->). exists b'. split; [done|]. by destruct b'.
        * intros (b & Hb & -> & ->). exists (negb b). split; [by exists b|]. by destruct b.
      + by intros ? ? (b & _ & _ & ->).
  Qed.

  Definition tcod (s : Fcx) c tm : list Statement * Terminator * Fcx -> Prop := cod s (fun x => term_is T R B F N c tm (fst x) (snd x)).
  Lemma term_code s c tm : iv s -> MirSpec.term_ok T R B c tm -> covered_term T R B c tm -> rets (translate_terminator fuel R T s tm c) (tcod s c tm).
  Proof.
    intros Hi H Hcov. destruct H as [Hc|b Hb|f args d b u Hc|o t ts b Ho Hts Hb| |o e b u Ho Hb Hu|p f r t b u Hp Hb Hu|Hc|]; cbn [translate_terminator].
    - cbn. split_and!; [done|apply grow_refl|]. intros _. constructor.
    - eapply bb_step; [done..|]. cbn. split_and!; [done|apply grow_refl|]. intros _. apply (ti_goto T R B F N).
    - eapply rets_weak; [by eapply call_code|]. intros [[sts tm] s'] (H1 & H2 & H3). split_and!; [done..|]. intros Hf. constructor. by apply H3.
    - pose proof Ho as [ro Ho']. eapply sem_rty; [done..|]. intros _. eapply sem_ty; [by eapply operand_rc|].
      eapply rets_bind; [by eapply operand_code|]. intros [e s'] (H1 & H2 & H3). cbn [fst snd] in *.
      eapply (rets_bind _ _ (fun x => int_ok (snd x) /\ (fin s' -> switch_value T R B F N o (fst x) (snd x)))).
      { destruct t; try done; cbn; (split; [|intros Hfin]); [by eapply operand_int_ok|by constructor; [|apply H3]|done|].
        apply sv_bool; [done|]. apply bool_int_is; [done|by apply H3]. }
      intros [v it] [Hit Hv]. cbn [fst snd] in *.
      eapply rets_bind; [by eapply cases_code|]. intros cases (C1 & C2 & C3). eapply bb_step; [done..|]. cbn. split_and!; [done|by apply gcx_grow|]. cbn [fst snd]. intros Hfin.
      eapply (ti_switch T R B F N); [by apply Hv|]. split.
      + intros x n Hx. apply C1 in Hx as [Hx|(bits & b' & Hin & -> & ->)]; [done|]. exists bits, b'. split_and!; [done| |done]. by apply wraps_bits.
      + intros bits b' x Hin Hw. apply wraps_bits_iff in Hw as ->; [|done]. by eapply C3.
    - cbn. split_and!; [done|apply grow_refl|]. intros _. constructor.
    - eapply rets_bind; [by eapply operand_ty_code|]. intros [v s1] (H1 & H2 & H3). cbn [fst snd] in *. cbn zeta.
      eapply rets_bind; [by eapply panic_code|]. intros [tm s2] (J1 & J2 & J3). cbn [fst snd] in *.
      destruct (new_block_code s2 (mkBlock [] tm (block_kind c)) J1) as (K1 & K2 & K3).
      unfold new_block in K1, K2, K3. destruct (fresh_bb s2) as [n s3] eqn:E. cbn [fst snd] in *.
      unfold add_block, try_insert. destruct (map_contains (fx_blocks s3) n); [done|]. cbn [obind].
      change (set_blocks s3 (map_insert (fx_blocks s3) n (mkBlock [] tm (block_kind c)))) with (put_block s3 n (mkBlock [] tm (block_kind c))) in *.
      eapply bb_step; [done..|]. unfold b_bool_to_int. rewrite bool_decide_eq_true_2 by done. cbn [obind]. cbn.
      split_and!; cbn [fst snd]; [done|eapply grow_trans; [by apply gcx_grow|]; by eapply grow_trans|]. intros Hfin.
      assert (F2 : fin s2) by (by eapply fin_grow). assert (F1 : fin s1) by (by eapply fin_grow).
      eapply (ti_assert T R B F N); [by apply expected_is; [|apply H3]|by apply K3|by apply J3].
    - eapply sem_place_rty; [done..|]. intros _. eapply place_step; [done..|]. intros e He. specialize (Hcov _ _ Hp).
      destruct (rc_dyn R r) as [tn|] eqn:Edyn.
      + cbn [obind]. eapply bb_step; [done..|]. cbn. split_and!; [done|apply grow_refl|]. cbn [fst snd]. intros Hfin.
        destruct (ro_dyn _ _ HR _ _ t Edyn) as [_ Ht]. specialize (Ht (proj1 Hp)).
        assert (Hraw := raw_is e p r t (MKVTablePointer tn) (He Hfin) Hp ltac:(by rewrite Ht)).
        eapply (ti_drop_dyn T R B F N); [done|done| |].
        * eapply value_same; [eapply method_is; [exact Hraw|intros ? ? ? ? ? ? ? ? (q & _ & _ & ->); by eexists _, _]|]. intros. cbn. split.
          -- intros (q & pt & (q' & Hq & [= <-] & _) & Hm). eauto.
          -- intros (q & Hq & Hm). exists q, (PRaw (MKVTablePointer tn)). split; [by exists q|done].
        * eapply value_same; [eapply thin_is; [exact Hraw|intros ? ? ? ? ? ? ? ? (q & _ & _ & ->); by eexists _]|]. intros. cbn. split.
          -- intros (q & pt & (q' & Hq & [= <-] & _) & Hm). eauto.
          -- intros (q & Hq & Hm). exists q, (PRaw (MKVTablePointer tn)). split; [by exists q|done].
      + pose proof (get_fn_name_ok R [] (fx_cx s) f (iv_cx _ _ _ Hi)) as Hok. pose proof (get_fn_name_ext (fx_cx s) f) as [Hx Hget].
        destruct (get_fn_name (fx_cx s) f) as [n c'] eqn:E. cbn [fst snd obind] in *.
        assert (K1 : iv (set_cx s c')) by (by apply set_cx_iv). assert (K2 : gcx s (set_cx s c')) by (by apply set_cx_gcx).
        eapply bb_step; [done..|]. cbn. split_and!; cbn [fst snd]; [done|by apply gcx_grow|]. intros Hfin. assert (F0 : fin s) by (by eapply fin_gcx).
        eapply (ti_drop T R B F N); [done|done| |by eapply raw_is; [apply He| |]].
        apply fn_ptr_is. by apply (ex_fns _ _ (fi_ext _ _ _ Hfin)).
    - cbn. split_and!; [done|apply grow_refl|]. intros _. constructor.
    - done.
  Qed.

  (** ** Blocks *)
  Lemma kind_eq c : block_kind c = MirCode.kind_of c.
  Proof. by destruct c. Qed.
  Lemma grow_join X Y s1 s2 s3 : grow X s1 s2 -> grow Y s2 s3 -> (forall n, n ∈ Y -> n ∈ X \/ (fx_next_bb s1 <= n)%N) -> grow X s1 s3.
  Proof.
    intros G1 G2 HY. assert (G : grow (X ++ Y) s1 s3) by (eapply grow_trans; (eapply grow_weak; [|done]); set_solver). destruct G. split; try done.
    intros m Hm HX Hn. apply gr_fresh; [done| |done]. intros H%elem_of_app. destruct H as [H|H]; [done|]. apply HY in H as [H|H]; [done|lia].
  Qed.
  Definition stcod (s : Fcx) (c : bool) (xs : list RStmt) (tm : RTerm) (cur0 : BbName) (acc0 : list Statement) (r : BbName * list Statement * Fcx) : Prop :=
    let '(cur, acc, s') := r in
    iv s' /\ grow [cur0] s s' /\ map_get (fx_blocks s') cur = None /\ (cur < fx_next_bb s')%N /\ (cur = cur0 \/ (fx_next_bb s <= cur)%N) /\
    (fin s' -> forall ys t, block_at F cur (acc ++ ys) t (MirCode.kind_of c) -> term_is T R B F N c tm ys t ->
      exists sts t0, block_at F cur0 (acc0 ++ sts) t0 (MirCode.kind_of c) /\ does T R B F N c xs tm sts t0).
  Lemma stmts_code s c xs tm cur acc : iv s -> Forall (MirSpec.stmt_ok T R B) xs -> map_get (fx_blocks s) cur = None -> (cur < fx_next_bb s)%N ->
    rets (translate_stmts fuel R T s (MirCode.kind_of c) xs cur acc) (stcod s c xs tm cur acc).
  Proof.
    intros Hs Hxs. revert s cur acc Hs. induction Hxs as [|x xs Hx Hxs IH]; intros s cur acc Hs Hcur Hlt.
    - cbn. split_and!; [done|apply grow_refl|done|done|by left|]. intros _ ys t Hb Ht. exists ys, t. split; [done|]. by constructor.
    - cbn [translate_stmts]. eapply rets_bind; [by eapply stmt_code|]. intros [r s1] (H1 & H2 & H3). cbn [fst snd] in *.
      pose proof (gcx_grow [] _ _ H2) as G1. pose proof (gcx_blocks _ _ H2) as B1. pose proof (gr_nb _ _ _ G1) as N1. destruct r as [y|op d args].
      + eapply rets_weak; [apply (IH s1 cur (acc ++ [y])); [done|by rewrite B1|lia]|]. intros [[cur' acc'] s'] (J1 & J2 & J3 & J4 & J5 & J6).
        split_and!; [done| |done|done|destruct J5; [by left|right; lia]|].
        { eapply grow_trans; [|done]. by apply gcx_grow. }
        intros Hf ys t Hb Ht. destruct (J6 Hf ys t Hb Ht) as (sts & t0 & K1 & K2). exists (y :: sts), t0. rewrite <-app_assoc in K1. split; [exact K1|].
        assert (F1 : fin s1) by (by eapply fin_grow). constructor; [exact (H3 F1)|done].
      + apply fresh_next; [done|]. intros s2 I2 G2 N2 B2 L2.
        assert (Hc2 : map_get (fx_blocks s2) cur = None) by (by rewrite B2, B1).
        unfold add_block, try_insert, map_contains. rewrite Hc2. cbn [obind].
        set (b := mkBlock acc (TmIntrinsic op args d (Some (fx_next_bb s1))) (MirCode.kind_of c)).
        change (set_blocks s2 (map_insert (fx_blocks s2) cur b)) with (put_block s2 cur b). set (s3 := put_block s2 cur b).
        assert (I3 : iv s3) by (apply (put_block_iv R B N0 ltac:(lia) Hpos); [done|lia]).
        assert (G3 : grow [cur] s s3).
        { apply (put_block_grow B N0 ltac:(lia) Hpos); [|right; left|done]. eapply (grow_trans [cur] s s1); [by apply gcx_grow|]. eapply grow_weak; [|exact G2]. set_solver. }
        assert (G13 : grow [cur] s1 s3).
        { apply (put_block_grow B N0 ltac:(lia) Hpos); [|right; left|done]. eapply grow_weak; [|exact G2]. set_solver. }
        assert (E3 : fx_next_bb s3 = (fx_next_bb s1 + 1)%N) by done.
        assert (Hc3 : map_get (fx_blocks s3) cur = Some b) by (unfold s3; by rewrite put_block_get, bool_decide_eq_true_2).
        assert (Hn3 : map_get (fx_blocks s3) (fx_next_bb s1) = None).
        { unfold s3. rewrite put_block_get, bool_decide_eq_false_2 by lia. rewrite B2. by apply (fresh_none R B N0 ltac:(lia) Hpos). }
        clearbody s3. eapply rets_weak; [apply (IH s3 (fx_next_bb s1) []); [done|done|lia]|]. intros [[cur' acc'] s'] (J1 & J2 & J3 & J4 & J5 & J6).
        split_and!; [done| |done|done|right; destruct J5 as [->|J5]; lia|].
        { eapply grow_join; [done..|]. intros n ->%elem_of_list_singleton. right. lia. }
        intros Hf ys t Hb Ht. destruct (J6 Hf ys t Hb Ht) as (sts & t0 & K1 & K2). exists [], (TmIntrinsic op args d (Some (fx_next_bb s1))).
        assert (F3 : fin s3) by (by eapply fin_grow). rewrite app_nil_r. split; [by apply (fi_bb _ _ _ F3)|].
        assert (F1 : fin s1) by (by eapply fin_grow).
        econstructor; [exact (H3 F1)|exact K1|done].
  Qed.

  Lemma bb_code s i b : iv s -> ro_blocks B !! i = Some b -> Forall (MirSpec.stmt_ok T R B) (rb_stmts b) -> MirSpec.term_ok T R B (rb_cleanup b) (rb_term b) ->
    covered_term T R B (rb_cleanup b) (rb_term b) -> map_get (fx_blocks s) (N.of_nat i) = None ->
    rets (translate_bb fuel R T s (N.of_nat i) b) (fun s' => iv s' /\ grow [N.of_nat i] s s' /\
      (fin s' -> exists sts tm, block_at F (N.of_nat i) sts tm (MirCode.kind_of (rb_cleanup b)) /\ does T R B F N (rb_cleanup b) (rb_stmts b) (rb_term b) sts tm)).
  Proof.
    intros Hs Hb Hsts Htm Hcov Hnone. unfold translate_bb. rewrite kind_eq.
    assert (Hlt : (N.of_nat i < fx_next_bb s)%N).
    { pose proof (iv_nb _ _ _ Hs) as Hnb. apply lookup_lt_Some in Hb. lia. }
    eapply rets_bind; [by apply (stmts_code s (rb_cleanup b) (rb_stmts b) (rb_term b))|]. intros [[cur acc] s1] (J1 & J2 & J3 & J4 & J5 & J6).
    eapply rets_bind; [by apply term_code|]. intros [[sts tm] s2] (K1 & K2 & K3). cbn [fst snd] in *.
    assert (C2 : map_get (fx_blocks s2) cur = None) by (apply (gr_fresh _ _ _ K2); [done|set_solver|done]).
    set (x := mkBlock (acc ++ sts) tm (MirCode.kind_of (rb_cleanup b))).
    replace (add_block s2 cur x) with (Ret (put_block s2 cur x)) by (unfold add_block, try_insert, map_contains; by rewrite C2).
    cbn [rets]. pose proof (gr_nb _ _ _ K2) as Hnb.
    assert (G3 : grow [cur] s2 (put_block s2 cur x)) by (apply (put_block_grow B N0 ltac:(lia) Hpos); [apply grow_refl|right; left|done]).
    split_and!.
    - apply (put_block_iv R B N0 ltac:(lia) Hpos); [done|lia].
    - eapply grow_join; [eapply grow_trans; [exact J2|eapply grow_weak; [|exact K2]; set_solver]|exact G3|]. intros n ->%elem_of_list_singleton.
      destruct J5 as [->|J5]; [left; left|by right].
    - intros Hf. assert (F2 : fin s2) by (by eapply fin_grow). assert (F1 : fin s1) by (by eapply fin_grow).
      destruct (J6 F1 sts tm) as (sts' & t0 & L1 & L2); [|by apply K3|by exists sts', t0].
      apply (fi_bb _ _ _ Hf). by rewrite put_block_get, bool_decide_eq_true_2.
  Qed.
End Term.
