(** The translation of well-typed MIR does what MIR does: functions and programs. *)
From Verif Require Export MirTermProofs MiniNames.
From Coq Require Import ZifyBool ZifyN ZifyNat.

Section Body.
  Context (R : Rustc) (HR : rustc_ok T R) (HD : discr_ok R) (fuel : nat) (Hfuel : enough R fuel) (B : RBody) (HB : body_ok T R B) (Hcov : covered T R B)
          (F : Function) (cf : Cx).
  Notation iv := (iv R B).
  Notation fin := (fin F cf).
  Notation N := (the_names cf).
  Notation nl := (length (ro_locals B)).
  Notation nb := (length (ro_blocks B)).
  Notation params_are := (params_are R B F N).

  Lemma body_pos : (0 < nl)%nat.
  Proof. pose proof (bo_args _ _ _ HB). lia. Qed.

  (** ** Parameters *)
  Lemma params_app ls args sts ls' args' sts' : params_are ls args sts -> params_are ls' args' sts' -> params_are (ls ++ ls') (args ++ args') (sts ++ sts').
  Proof.
    induction 1 as [|l ls args sts Hl _ IH|l ls r tys tmps args sts Hl Hr Htys Ht Hn _ IH]; intros H'; [done| |].
    - cbn. constructor; [done|]. by apply IH.
    - cbn. rewrite <-!app_assoc. econstructor; [done..|]. by apply IH.
  Qed.
  Definition kept (s s' : Fcx) : Prop := forall n t, map_get (fx_locals s) n = Some t -> map_get (fx_locals s') n = Some t.
  Definition below (s : Fcx) : Prop := forall n t, map_get (fx_locals s) n = Some t -> (n < fx_next_local s)%N.
  Lemma tmps_code n l s args init : below s -> (N.of_nat nl <= fx_next_local s)%N ->
    rets (fold_m (fun st (f : nat * RTy) =>
      let '(s, args, init) := st in
      let '(tmp, s) := fresh_local s in
      let! ty := ask (rc_ty R (snd f)) in
      let s := put_local s tmp ty in
      Ret (s, args ++ [tmp], init ++ [SAssign (PField (PLocal n) (Z.of_nat (fst f))) (ELoad (PLocal tmp))])) l (s, args, init))
    (fun r => let '(s', args', init') := r in kept s s' /\ exists tmps, args' = args ++ tmps /\
      init' = init ++ zip_with (fun (f : nat * RTy) tmp => SAssign (PField (PLocal n) (Z.of_nat (fst f))) (ELoad (PLocal tmp))) l tmps /\
      Forall2 (fun f tmp => exists t, rc_ty R (snd f) = Some t /\ map_get (fx_locals s') tmp = Some t) l tmps /\ Forall (fun tmp => N.of_nat nl <= tmp)%N tmps).
  Proof.
    revert s args init. induction l as [|f l IH]; intros s args init Hs Hn.
    - cbn. split; [by intros ? ?|]. exists []. rewrite !app_nil_r. split_and!; [done|done|constructor|constructor].
    - cbn [fold_m fresh_local]. cbn zeta. destruct (rc_ty R (snd f)) as [t|] eqn:Et; [|done]. cbn [ask obind].
      set (s1 := put_local _ _ _). assert (K1 : kept s s1).
      { intros m t' Hm. unfold s1. cbn. rewrite map_insert_get, bool_decide_eq_false_2; [done|]. apply Hs in Hm. lia. }
      assert (T1 : map_get (fx_locals s1) (fx_next_local s) = Some t) by (unfold s1; cbn; by rewrite map_insert_get, bool_decide_eq_true_2).
      eapply rets_weak; [apply IH|].
      + intros m t' Hm. unfold s1 in Hm |- *. cbn in Hm |- *. rewrite map_insert_get in Hm. case_bool_decide; [lia|]. apply Hs in Hm. lia.
      + unfold s1. cbn. lia.
      + intros [[s' args'] init'] (K2 & tmps & -> & -> & HF & HN). split; [intros m t' Hm; by apply K2, K1|].
        exists (fx_next_local s :: tmps). rewrite <-!app_assoc. split_and!; [done..| |by constructor]. constructor; [|done]. exists t. split; [done|]. by apply K2.
  Qed.
  Lemma zip_fst {A C D} (f : nat -> C -> D) (ns : list nat) (l : list A) (tmps : list C) : length ns = length l ->
    zip_with (fun (x : nat * A) c => f (fst x) c) (zip ns l) tmps = zip_with f ns tmps.
  Proof.
    revert l tmps. induction ns as [|n ns IH]; intros [|a l] tmps Hl; try done. destruct tmps as [|c tmps]; [done|]. cbn. f_equal. apply IH. by injection Hl.
  Qed.
  Lemma zip_snd {A C} (Q : A -> C -> Prop) (ns : list nat) (l : list A) (tmps : list C) : length ns = length l ->
    Forall2 (fun x c => Q (snd x) c) (zip ns l) tmps -> Forall2 Q l tmps.
  Proof.
    revert l tmps. induction ns as [|n ns IH]; intros [|a l] tmps Hl H; try done; inversion H; subst; constructor; [done|]. apply IH; [by injection Hl|done].
  Qed.
  Definition pcode (s : Fcx) (args : list LocalName) (init : list Statement) (ls : list RLocal) (r : Fcx * list LocalName * list Statement) : Prop :=
    let '(s', args', init') := r in kept s s' /\ exists a x, args' = args ++ a /\ init' = init ++ x /\
      ((forall n t, map_get (fx_locals s') n = Some t -> map_get (fn_locals F) n = Some t) -> params_are ls a x).
  Lemma param_code i s0 s args init : params R B i s0 s args init -> (1 <= i <= ro_args B)%nat ->
    rets (translate_param R (s, args, init) i) (pcode s args init [i]).
  Proof.
    intros Hp Hi. pose proof (bo_args _ _ _ HB) as Hargs. unfold translate_param. pose proof (iv_body _ _ _ (pa_iv _ _ _ _ _ _ _ Hp)) as Hbody. cbn in Hbody. rewrite Hbody.
    case_bool_decide as Hsp.
    - replace (local_name s i) with (local_name (snd (fresh_bb s)) i) by done. rewrite (local_name_fine _ _ _ _ (pa_iv _ _ _ _ _ _ _ Hp)) by lia. cbn [obind].
      apply rets_unwrap. intros r Hr. apply rets_unwrap. intros tys Htys.
      eapply rets_weak; [apply tmps_code; [exact (iv_lt _ _ _ (pa_iv _ _ _ _ _ _ _ Hp))|exact (iv_nl _ _ _ (pa_iv _ _ _ _ _ _ _ Hp))]|].
      intros [[s' args'] init'] (K & tmps & -> & -> & HF & HN). split; [done|]. eexists tmps, _. rewrite <-app_assoc. split_and!; [done..|]. intros Hfin.
      unfold enumerate in *. rewrite (zip_fst (fun k tmp => SAssign (PField (PLocal (N.of_nat i)) (Z.of_nat k)) (ELoad (PLocal tmp)))) by (by rewrite seq_length). apply (zip_snd (fun ty tmp => exists t, rc_ty R ty = Some t /\ map_get (fx_locals s') tmp = Some t)) in HF; [|by rewrite seq_length].
      pose proof (pr_spread R B F N i [] r tys tmps [] [] Hsp Hr Htys) as Hpr. rewrite !app_nil_r in Hpr. apply Hpr; [| |constructor].
      + eapply Forall2_impl; [exact HF|]. intros ty tmp (t & Ht & Hm). exists t. split; [done|]. by apply Hfin.
      + intros l' Hl Hin. rewrite Forall_forall in HN. apply HN in Hin. cbn in Hin. lia.
    - cbn. split; [by intros ? ?|]. exists [N.of_nat i], []. rewrite app_nil_r. split_and!; [done..|]. intros _. apply (pr_local R B F N); [done|constructor].
  Qed.
  Lemma params_code s0 s args init m i : params R B i s0 s args init -> (1 <= i)%nat -> (i + m <= S (ro_args B))%nat ->
    rets (fold_m (translate_param R) (seq i m) (s, args, init)) (pcode s args init (seq i m)).
  Proof.
    revert i s args init. induction m as [|m IH]; intros i s args init Hp Hi Hm.
    - cbn. split; [by intros ? ?|]. exists [], []. rewrite !app_nil_r. split_and!; [done..|]. intros _. constructor.
    - cbn [seq fold_m]. eapply rets_bind; [apply rets_and; [apply rets_fine, (param_fine R HR B HB i s0); [done|lia]|eapply param_code; [done|lia]]|].
      intros [[s1 args1] init1] [Hp1 (K1 & a1 & x1 & -> & -> & H1)]. eapply rets_weak; [apply IH; [done|lia..]|].
      intros [[s2 args2] init2] (K2 & a2 & x2 & -> & -> & H2). split; [intros n t Hn; by apply K2, K1|].
      exists (a1 ++ a2), (x1 ++ x2). rewrite <-!app_assoc. split_and!; [done..|]. intros Hfin. apply (params_app [i]); [|by apply H2].
      apply H1. intros n t Hn. by apply Hfin, K2.
  Qed.

  (** ** Blocks *)
  Lemma blocks_code order s : iv s -> NoDup order -> Forall (fun i => i < nb)%nat order ->
    (forall i, i ∈ order -> map_get (fx_blocks s) (N.of_nat i) = None) ->
    rets (translate_blocks R fuel B order s) (fun s' => iv s' /\ grow (List.map N.of_nat order) s s' /\
      (fin s' -> forall i b, i ∈ order -> ro_blocks B !! i = Some b -> exists sts tm, block_at F (N.of_nat i) sts tm (MirCode.kind_of (rb_cleanup b)) /\
        does T R B F N (rb_cleanup b) (rb_stmts b) (rb_term b) sts tm)).
  Proof.
    intros Hs Hnd Hlt Hno. revert s Hs Hno. induction order as [|i order IH]; intros s Hs Hno; [cbn; split_and!; [done|apply grow_refl|by intros _ ? ? ?%elem_of_nil]|].
    apply NoDup_cons in Hnd as [Hi Hnd]. pose proof (Forall_inv Hlt) as Hil. apply Forall_inv_tail in Hlt. unfold translate_blocks. cbn [fold_m].
    rewrite (bb_name_fine _ _ _ _ Hs Hil). cbn [obind]. destruct (lookup_lt_is_Some_2 _ _ Hil) as [b Hb]. rewrite Hb. cbn [unwrap obind].
    destruct (bo_blocks _ _ _ HB b) as [Hst Htm]; [by eapply elem_of_list_lookup_2|].
    eapply rets_bind; [apply (bb_code R HR HD fuel Hfuel B F cf body_pos s i b); [done..|apply Hcov; by eapply elem_of_list_lookup_2|apply Hno; left]|].
    intros s1 (S1 & G1 & K1). eapply rets_weak; [apply (IH Hnd Hlt s1 S1)|].
    - intros j Hj. apply (gr_fresh _ _ _ G1); [|apply not_elem_of_cons; split; [|apply not_elem_of_nil]|apply Hno; by right].
      + pose proof (iv_nb _ _ _ Hs). rewrite Forall_forall in Hlt. apply Hlt in Hj. lia.
      + intros He. replace j with i in Hj by lia. done.
    - intros s2 (S2 & G2 & K2). split_and!; [done| |].
      + eapply grow_trans; [eapply grow_weak; [|exact G1]|eapply grow_weak; [|exact G2]]; cbn; set_solver.
      + intros Hf j b' Hj Hb'. apply elem_of_cons in Hj as [->|Hj]; [|by apply K2]. replace b' with b in * by congruence. apply K1. by eapply fin_grow.
  Qed.

  (** ** Functions *)
  Theorem body_code c order : cx_ok R [] c -> order ≡ₚ seq 0 nb ->
    rets (translate_body fuel R T c order B) (fun r => fst r = F -> MiniWf.ext (snd r) cf -> function_is T R B F N).
  Proof.
    intros Hc Hord. pose proof (bo_args _ _ _ HB) as Hargs. unfold translate_body.
    eapply rets_bind; [apply rets_fine; eapply (type_locals_fine R HR fuel B HB); [done|]; apply name_locals_named, name_bbs_named|].
    intros s1 (I1 & C1 & B1 & N1 & L1).
    assert (P1 : params R B 1 s1 s1 [] []).
    { split; try done; first [by intros ? ?%elem_of_nil|apply NoDup_nil_2|intros; apply Forall_nil_2]. }
    eapply rets_bind; [apply rets_and; [apply rets_fine, (params_fine R HR B HB s1); [done|lia|lia]|apply (params_code s1); [done|lia|lia]]|].
    intros [[s2 args] init] [[I2 C2 B2 N2 A2 D2 G2] (K2 & a & x & -> & -> & H2)]. cbn [app] in *.
    cbn [fresh_bb]. set (s3 := mkFcx (fx_body s2) _ _ _ _ _ _ _). change (snd (fresh_bb s2)) with s3 in I2.
    eapply (rets_bind _ _ (fun ls => ls = List.map N.of_nat (ro_always_live B))).
    { pose proof (bo_live _ _ _ HB) as Hl. induction (ro_always_live B) as [|l ls IH]; [by cbn|]. cbn [map_m].
      rewrite (local_name_fine _ _ _ _ I2) by (apply Hl; left). cbn [obind]. eapply rets_bind; [apply IH; intros; apply Hl; by right|].
      intros ns ->. done. }
    intros lives ->. eapply bb_step; [done|apply (bo_entry _ _ _ HB)|]. set (s4 := put_block s3 _ _).
    pose proof body_pos as Hpos.
    assert (Hnb3 : fx_next_bb s3 = (fx_next_bb s2 + 1)%N) by done.
    assert (Hb3 : fx_blocks s3 = []) by done.
    assert (I4 : iv s4) by (apply (put_block_iv R B (N.of_nat nl) ltac:(lia) Hpos); [done|lia]).
    eapply rets_bind; [apply (blocks_code order s4 I4)|].
    { rewrite Hord. apply NoDup_seq. }
    { rewrite Hord. apply List.Forall_forall. intros i Hi%in_seq. lia. }
    { intros i Hi. unfold s4. rewrite put_block_get, Hb3. rewrite Hord in Hi. apply elem_of_seq in Hi. rewrite bool_decide_eq_false_2 by lia. done. }
    intros s5 (I5 & G5 & K5). apply rets_ask. intros conv Hconv. cbn [rets fst snd]. intros HF Hx.
    assert (Hfin : fin s5) by (split; [done|by subst F|by subst F]). assert (Hfin4 : fin s4) by (by eapply fin_grow).
    subst F. set (F' := mkFunction _ _ _ _ _ _) in *. split.
    - intros l l' H. cbn in H. lia.
    - intros l l' H. cbn in H. lia.
    - intros l r Hr. exact (iv_local _ _ _ I5 l r Hr).
    - done.
    - done.
    - done.
    - exists x. split.
      + apply H2. intros n t Hn. apply (fi_ty _ _ _ Hfin4). exact Hn.
      + unfold block_at. change (fn_start F') with (fx_next_bb s2). rewrite (fi_bb _ _ _ Hfin4 (fx_next_bb s2) _ ltac:(unfold s4; rewrite put_block_get, bool_decide_eq_true_2 by done; reflexivity)).
        do 2 f_equal. f_equal. clear. induction (ro_always_live B) as [|l ls IH]; [done|]. cbn [List.map List.filter].
        destruct (Nat.ltb_spec (ro_args B) l), (N.leb_spec (N.of_nat (ro_args B) + 1) (N.of_nat l)); try lia; cbn [List.map]; by rewrite IH.
    - intros i b Hb. apply K5; [done| |done]. rewrite Hord. apply elem_of_seq. apply lookup_lt_Some in Hb. lia.
  Qed.
End Body.

(** ** Programs *)
Lemma translated_code (R : Rustc) (fuel : nat) (Hmir : mir_ok T R) (Hcov : mir_covered T R) (Hfuel : enough R fuel) (HD : discr_ok R) entry P :
  translated fuel R T entry P -> exists fn glob vtab, names T fuel R entry P fn glob vtab /\
    forall n F, map_get (pr_functions P) n = Some F -> n <> pr_start P ->
      exists i b, fn i = Some n /\ rc_body R i = Some b /\ function_is T R b F (mkNaming fn glob vtab N.of_nat N.of_nat).
Proof.
  intros Ht. pose proof Ht as (c & fns & Hrun & Hall & HP).
  exists (map_get (cx_fns c)), (map_get (cx_alloc_map c)), (map_get (cx_vtable_map c)). split.
  { eapply run_names; eauto. }
  destruct Hmir as [HR HB], Hcov as [HC Hvts]. intros n F Hn Hne. cbn zeta in HP. subst P. cbn [pr_functions pr_start] in *.
  rewrite map_insert_get, bool_decide_eq_false_2 in Hn by done. apply map_get_in in Hn.
  pose proof (run_pinv R HR fuel Hfuel (fun i b H => conj (HB i b H) (HC i b H)) _ _ Hrun) as [Hc He Hf]. cbn [fst snd] in *.
  destruct (proj1 (List.Forall_forall _ _) Hf _ Hn) as [(i & b & o & c0 & c1 & Hi & Hb & Ho & Hbody & Hc0 & _ & Hx) _]. cbn [fst snd] in *.
  exists i, b. split_and!; [done..|].
  pose proof (body_code R HR HD fuel Hfuel b (HB _ _ Hb) (HC _ _ Hb) F c c0 o Hc0 Ho) as H. rewrite Hbody in H. by apply H.
Qed.
