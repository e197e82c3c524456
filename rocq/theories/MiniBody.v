(** The translation of well-typed MIR: functions. *)
From Verif Require Export MiniTerm.
From Coq Require Import ZifyBool ZifyN ZifyNat.

Section Body.
  Context (R : Rustc) (HR : rustc_ok T R) (fuel : nat) (Hfuel : enough R fuel) (B : RBody) (HB : body_ok T R B) (Hcov : covered T R B).
  Notation iv := (iv R B).
  Notation nl := (length (ro_locals B)).
  Notation nb := (length (ro_blocks B)).

  Lemma field_pok s e t i r' t' : iv s -> pok R s t e -> field_ty t i = Some t' -> rc_ty R r' = Some t' -> pok R s t' (PField e (Z.of_nat i)).
  Proof.
    intros Hs He Hf Hr. pose proof (projs_fine R HR B s (r', t) [PjField i r'] (r', t') e Hs) as H. cbn in H. apply H; [|done].
    econstructor; [by constructor|constructor].
  Qed.

  (** ** Names *)
  Record named (kb kl : nat) (c : Cx) (s : Fcx) : Prop := {
    na_body : fx_body s = B;
    na_cx : fx_cx s = c;
    na_bmap : forall b, (b < kb)%nat -> map_get (fx_bmap s) b = Some (N.of_nat b);
    na_nb : fx_next_bb s = N.of_nat kb;
    na_lmap : forall l, (l < kl)%nat -> map_get (fx_lmap s) l = Some (N.of_nat l);
    na_lmap_in : forall l n, In (l, n) (fx_lmap s) -> n = N.of_nat l /\ (l < kl)%nat;
    na_nl : fx_next_local s = N.of_nat kl;
    na_locals : fx_locals s = [];
    na_blocks : fx_blocks s = [];
  }.
  Lemma name_bbs_named c : named nb 0 c (name_bbs (fcx_new c B)).
  Proof.
    unfold name_bbs. assert (H : named 0 0 c (fcx_new c B)) by (split; try done; intros; lia). revert H. generalize (fcx_new c B). intros s Hs.
    rewrite (na_body _ _ _ _ Hs). assert (H : forall m k s, named k 0 c s -> named (k + m) 0 c (List.fold_left (fun s b =>
      let '(n, s) := fresh_bb s in
      mkFcx (fx_body s) (fx_cx s) (fx_lmap s) (map_insert (fx_bmap s) b n) (fx_next_bb s) (fx_next_local s) (fx_locals s) (fx_blocks s)) (seq k m) s)).
    { induction m as [|m IH]; intros k s' Hs'; cbn [seq List.fold_left]; [by rewrite Nat.add_0_r|]. replace (k + S m)%nat with (S k + m)%nat by lia. apply IH.
      destruct Hs'. cbn. split; cbn; try done; [|rewrite na_nb0; lia]. intros b Hb. rewrite map_insert_get. case_bool_decide; [subst; by rewrite na_nb0|].
      apply na_bmap0. lia. }
    apply (H nb 0%nat s Hs).
  Qed.
  Lemma name_locals_named c s : named nb 0 c s -> named nb nl c (name_locals s).
  Proof.
    intros Hs. unfold name_locals. rewrite (na_body _ _ _ _ Hs). assert (H : forall m k s, named nb k c s -> named nb (k + m) c (List.fold_left (fun s l =>
      let '(n, s) := fresh_local s in
      mkFcx (fx_body s) (fx_cx s) (map_insert (fx_lmap s) l n) (fx_bmap s) (fx_next_bb s) (fx_next_local s) (fx_locals s) (fx_blocks s)) (seq k m) s)).
    { induction m as [|m IH]; intros k s' Hs'; cbn [seq List.fold_left]; [by rewrite Nat.add_0_r|]. replace (k + S m)%nat with (S k + m)%nat by lia. apply IH.
      destruct Hs'. cbn. split; cbn; try done; [| |rewrite na_nl0; lia].
      - intros b Hb. rewrite map_insert_get. case_bool_decide; [subst; by rewrite na_nl0|]. apply na_lmap0. lia.
      - intros l n Hin. assert (Hn : map_get (fx_lmap s') k = None).
        { destruct (map_get (fx_lmap s') k) eqn:E; [|done]. apply map_get_in, na_lmap_in0 in E. lia. }
        rewrite map_insert_none in Hin by done. apply in_app_or in Hin as [Hin|[[= <- <-]|[]]]; [|by rewrite na_nl0; split; [|lia]].
        apply na_lmap_in0 in Hin as [-> ?]. split; [done|lia]. }
    apply (H nl 0%nat s Hs).
  Qed.

  (** ** The types of the locals. The invariants hold but for the block that the set-up needs, so after [fresh_bb]. *)
  Lemma type_locals_fine c s : cx_ok R [] c -> named nb nl c s ->
    fine (type_locals R s) (fun s' => iv (snd (fresh_bb s')) /\ fx_cx s' = c /\ fx_blocks s' = [] /\ fx_next_bb s' = N.of_nat nb /\ fx_next_local s' = N.of_nat nl).
  Proof.
    intros Hc Hs. unfold type_locals.
    set (I := fun (todo : list (RLocal * LocalName)) s' => fx_body s' = B /\ fx_cx s' = c /\ fx_blocks s' = [] /\ fx_next_bb s' = N.of_nat nb /\ fx_next_local s' = N.of_nat nl /\
      fx_lmap s' = fx_lmap s /\ fx_bmap s' = fx_bmap s /\
      (forall ln, In ln todo -> In ln (fx_lmap s)) /\
      (forall n t, In (n, t) (fx_locals s') -> exists l r, n = N.of_nat l /\ ro_locals B !! l = Some r /\ rc_ty R r = Some t) /\
      (forall l n, In (l, n) (fx_lmap s) -> In (l, n) todo \/ exists t, map_get (fx_locals s') n = Some t)).
    eapply fine_weak; [apply (fine_fold_m _ I)|].
    - intros [l n] todo s' (E1 & E2 & E3 & E4 & E5 & E6 & E7 & Hin & Hty & Htodo). cbn [fst snd]. rewrite E1.
      destruct (na_lmap_in _ _ _ _ Hs l n) as [-> Hlt]; [by apply Hin; left|]. destruct (lookup_lt_is_Some_2 _ _ Hlt) as [r Hr]. rewrite Hr. cbn [unwrap obind].
      eapply fine_bind; [apply fine_ask'|]. intros t Ht. cbn [fine]. unfold I. cbn. split_and!; try done.
      + intros. apply Hin. by right.
      + intros n' t' Hi. assert (Hm : Forall (fun x => exists l r, fst x = N.of_nat l /\ ro_locals B !! l = Some r /\ rc_ty R r = Some (snd x)) (map_insert (fx_locals s') (N.of_nat l) t)).
        { apply map_insert_Forall; [|by exists l, r]. apply List.Forall_forall. intros [] H. by apply Hty in H. }
        rewrite List.Forall_forall in Hm. by apply Hm in Hi.
      + intros l' n' Hl. rewrite map_insert_get. destruct (Htodo l' n' Hl) as [[[= -> ->]|H]|H].
        * right. rewrite bool_decide_eq_true_2 by done. by eexists.
        * by left.
        * destruct H as [t' H]. right. case_bool_decide; by eexists.
    - unfold I. destruct Hs. split_and!; try done; [rewrite na_locals0; by intros ? ? []|intros; by left].
    - intros s' (E1 & E2 & E3 & E4 & E5 & E6 & E7 & _ & Hty & Htodo). split_and!; [|done..].
      assert (Hnd : forall n t, map_get (fx_locals s') n = Some t -> exists l r, n = N.of_nat l /\ ro_locals B !! l = Some r /\ rc_ty R r = Some t).
      { intros n t H. apply Hty. by apply map_get_in. }
      split; cbn.
      + by rewrite E2.
      + done.
      + rewrite E6. apply (na_lmap _ _ _ _ Hs).
      + rewrite E7. apply (na_bmap _ _ _ _ Hs).
      + intros l r Hl. destruct (Htodo l (N.of_nat l)) as [[]|[t Ht]].
        { apply map_get_in, (na_lmap _ _ _ _ Hs). by eapply lookup_lt_Some. }
        exists t. split; [|done]. apply Hnd in Ht as (l' & r' & He & Hl' & Ht'). replace l' with l in * by lia. congruence.
      + intros n t Hin. apply Hty in Hin as (l & r & -> & Hl & Ht). split; [by eapply (bo_locals _ _ _ HB)|by apply HR in Ht].
      + intros n t Hm. apply Hnd in Hm as (l & r & -> & Hl & _). apply lookup_lt_Some in Hl. lia.
      + lia.
      + lia.
      + rewrite E3. done.
  Qed.

  (** ** Parameters *)
  Record params (i : nat) (s0 s : Fcx) (args : list LocalName) (init : list Statement) : Prop := {
    pa_iv : iv (snd (fresh_bb s));
    pa_cx : fx_cx s = fx_cx s0;
    pa_blocks : fx_blocks s = [];
    pa_nb : fx_next_bb s = N.of_nat nb;
    pa_args : forall a, a ∈ args -> (a < fx_next_local s)%N /\ is_Some (map_get (fx_locals s) a) /\
      (1 <= a < N.of_nat i \/ N.of_nat nl <= a)%N;
    pa_nodup : NoDup args;
    pa_init : forall n0, Forall (sgood R B n0 s) init;
  }.
  Lemma sgood_same n0 s s' x : fx_cx s = fx_cx s' -> (forall n t, map_get (fx_locals s) n = Some t -> map_get (fx_locals s') n = Some t) -> fx_blocks s = fx_blocks s' ->
    sgood R B n0 s x -> sgood R B n0 s' x.
  Proof.
    intros Hc Hl Hb Hx P F [[H1 H2] Hr Ha Hbl Hm]. apply Hx. split; [|done|done| |done].
    - split; [by rewrite Hc|]. intros n t H. apply H2. by apply Hl.
    - intros n b H. apply Hbl. by rewrite <-Hb.
  Qed.
  Lemma fresh_local_params i s0 s args init t : params i s0 s args init -> sized_ty T t -> wf_ty T R t -> (1 <= i <= nl)%nat ->
    params i s0 (put_local (snd (fresh_local s)) (fx_next_local s) t) (args ++ [fx_next_local s]) init /\
    map_get (fx_locals (put_local (snd (fresh_local s)) (fx_next_local s) t)) (fx_next_local s) = Some t.
  Proof.
    intros [Hi Hc Hb Hn Ha Hnd Hin] Hsz Hwf Hil. assert (Hnone : map_get (fx_locals s) (fx_next_local s) = None).
    { destruct (map_get (fx_locals s) (fx_next_local s)) as [t'|] eqn:E; [|done]. apply (iv_lt _ _ _ Hi) in E. cbn in E. lia. }
    pose proof (iv_nl _ _ _ Hi) as Hnl. cbn in Hnl.
    assert (Hget : forall n t', map_get (fx_locals s) n = Some t' -> map_get (map_insert (fx_locals s) (fx_next_local s) t) n = Some t').
    { intros n t' H. rewrite map_insert_get, bool_decide_eq_false_2 by congruence. done. }
    split; [|cbn; by rewrite map_insert_get, bool_decide_eq_true_2].
    split; cbn; try done.
    - destruct Hi. split; cbn in *; try done.
      + intros l r Hl. destruct (iv_local l r Hl) as (t' & Ht' & Hm). exists t'. auto.
      + rewrite map_insert_none by done. intros n t' H. apply in_app_or in H as [H|[[= <- <-]|[]]]; [by eapply iv_ty|done].
      + intros n t' H. rewrite map_insert_get in H. case_bool_decide; [lia|]. apply iv_lt in H. lia.
      + lia.
    - intros a H. apply elem_of_app in H as [H|H%elem_of_list_singleton].
      + destruct (Ha a H) as (? & [t' ?] & ?). split_and!; [lia|by eexists; apply Hget|lia].
      + subst a. split_and!; [lia| |lia]. rewrite map_insert_get, bool_decide_eq_true_2 by done. by eexists.
    - apply NoDup_app. split_and!; [done| |apply NoDup_singleton]. intros a H H'%elem_of_list_singleton. subst a. apply Ha in H. lia.
    - intros n0. eapply Forall_impl; [apply Hin|]. intros x Hx. by eapply sgood_same; [..|exact Hx].
  Qed.
  Lemma param_fine i s0 s args init : params i s0 s args init -> (1 <= i <= ro_args B)%nat ->
    fine (translate_param R (s, args, init) i) (fun r => let '(s', args', init') := r in params (S i) s0 s' args' init').
  Proof.
    intros Hp Hi. pose proof (bo_args _ _ _ HB) as Hargs. unfold translate_param. pose proof (iv_body _ _ _ (pa_iv _ _ _ _ _ Hp)) as Hbody. cbn in Hbody. rewrite Hbody.
    assert (Hpi : params (S i) s0 s args init).
    { destruct Hp. split; try done. intros a Ha. apply pa_args0 in Ha. intuition lia. }
    case_bool_decide as Hsp.
    - destruct (bo_spread _ _ _ HB i Hsp) as (_ & r & tys & Hr & Htys & Hf).
      replace (local_name s i) with (local_name (snd (fresh_bb s)) i) by done. rewrite (local_name_fine _ _ _ _ (pa_iv _ _ _ _ _ Hp)) by lia. cbn [obind].
      rewrite Hr. cbn [unwrap obind]. rewrite Htys. cbn [unwrap obind].
      destruct (iv_local _ _ _ (pa_iv _ _ _ _ _ Hp) _ _ Hr) as (t0 & Ht0 & Hm0). cbn in Hm0.
      set (I := fun (todo : list (nat * RTy)) (x : Fcx * list LocalName * list Statement) => let '(s', args', init') := x in
        params (S i) s0 s' args' init' /\ (forall y, y ∈ todo -> y ∈ enumerate tys)).
      eapply fine_weak; [apply (fine_fold_m _ I)|].
      + intros [j rj] todo [[s1 args1] init1] [Hp1 Hin1]. cbn [fst snd]. unfold fresh_local.
        eapply fine_bind; [apply fine_ask'|]. intros tj Htj. cbn [fine].
        assert (Hj : tys !! j = Some rj) by (apply enumerate_lookup, Hin1; left).
        split; [|intros; apply Hin1; by right].
        destruct (Hf t0 j rj tj Ht0 Hj Htj) as [Hft Hsz].
        destruct (fresh_local_params _ _ _ _ _ tj Hp1 Hsz) as [Hp2 Hg2]; [by apply HR in Htj|lia|].
        destruct (iv_local _ _ _ (pa_iv _ _ _ _ _ Hp2) _ _ Hr) as (t0' & Ht0' & Hm0'). cbn in Hm0'. replace t0' with t0 in * by congruence. clear t0' Ht0'.
        cbn [fresh_local snd fst] in *. destruct Hp2. split; try done. intros n0. apply Forall_app. split; [done|]. constructor; [|constructor].
        eapply (sgood_same n0 (snd (fresh_bb (put_local (snd (fresh_local s1)) (fx_next_local s1) tj)))); [done|done|done|].
        eapply sgood_assign; [|eapply local_vok; [exact Hg2|done]|done]. eapply field_pok; [done| |exact Hft|done]. by apply local_pok'.
      + split; [|done]. destruct Hpi. split; try done. intros n0. apply Forall_app. split; [done|]. constructor; [|constructor].
        by eapply sgood_live.
      + intros [[s' args'] init'] [H _]. exact H.
    - cbn [fine]. destruct Hp. split; try done.
      + intros a Ha. apply elem_of_app in Ha as [Ha|Ha%elem_of_list_singleton]; [|subst a]; [apply pa_args0 in Ha; intuition lia|].
        destruct (lookup_lt_is_Some_2 (ro_locals B) i) as [r Hr]; [lia|]. destruct (iv_local _ _ _ pa_iv0 _ _ Hr) as (t & _ & Hm). cbn in Hm.
        pose proof (iv_lt _ _ _ pa_iv0 _ _ Hm). cbn in *. split_and!; [lia|by eexists|lia].
      + apply NoDup_app. split_and!; [done| |apply NoDup_singleton]. intros a H H'%elem_of_list_singleton. subst a. apply pa_args0 in H. lia.
  Qed.
  Lemma params_fine s0 s args init m i : params i s0 s args init -> (1 <= i)%nat -> (i + m <= S (ro_args B))%nat ->
    fine (fold_m (translate_param R) (seq i m) (s, args, init)) (fun r => let '(s', args', init') := r in params (i + m) s0 s' args' init').
  Proof.
    revert i s args init. induction m as [|m IH]; intros i s args init Hp Hi Hm; [by rewrite Nat.add_0_r|]. cbn [seq fold_m].
    eapply fine_bind; [apply (param_fine i s0); [done|lia]|]. intros [[s' args'] init'] Hp'. replace (i + S m)%nat with (S i + m)%nat by lia. apply IH; [done|lia..].
  Qed.

  (** ** The blocks *)
  Section Blocks.
    Context (N0 : N) (HN0 : (N.of_nat nl <= N0)%N) (Hpos : (0 < nl)%nat).
    Definition translate_blocks order s : Outcome Fcx :=
      fold_m (fun s i =>
        let! n := bb_name s i in
        let! blk := unwrap (ro_blocks B !! i) in
        translate_bb fuel R T s n blk) order s.
    Lemma blocks_fine order s : st R B N0 [] s -> NoDup order -> Forall (fun i => i < nb)%nat order ->
      (forall i, i ∈ order -> map_get (fx_blocks s) (N.of_nat i) = None) ->
      fine (translate_blocks order s) (fun s' => st R B N0 [] s' /\ grow (List.map N.of_nat order) s s' /\
        forall i b, i ∈ order -> ro_blocks B !! i = Some b -> has_block s' (N.of_nat i) (block_kind (rb_cleanup b))).
    Proof.
      intros Hs Hnd Hlt Hno. revert s Hs Hno. induction order as [|i order IH]; intros s Hs Hno; [cbn; split_and!; [done|apply grow_refl|by intros ? ? ?%elem_of_nil]|].
      apply NoDup_cons in Hnd as [Hi Hnd]. pose proof (Forall_inv Hlt) as Hil. apply Forall_inv_tail in Hlt. unfold translate_blocks. cbn [fold_m].
      rewrite (bb_name_fine _ _ _ _ (st_iv _ _ _ _ _ Hs) Hil). cbn [obind]. destruct (lookup_lt_is_Some_2 _ _ Hil) as [b Hb]. rewrite Hb. cbn [unwrap obind].
      destruct (bo_blocks _ _ _ HB b) as [Hst Htm]; [by eapply elem_of_list_lookup_2|].
      eapply fine_bind; [apply (bb_ok R HR fuel Hfuel B N0 HN0 Hpos s i b); [done..|apply Hcov; by eapply elem_of_list_lookup_2|apply Hno; left]|].
      intros s1 (S1 & G1 & K1). eapply fine_weak; [apply (IH Hnd Hlt s1 S1)|].
      - intros j Hj. apply (gr_fresh _ _ _ G1); [|apply not_elem_of_cons; split; [|apply not_elem_of_nil]|apply Hno; by right].
        + pose proof (iv_nb _ _ _ (st_iv _ _ _ _ _ Hs)). rewrite Forall_forall in Hlt. apply Hlt in Hj. lia.
        + intros He. replace j with i in Hj by lia. done.
      - intros s2 (S2 & G2 & K2). split_and!; [done| |].
        + eapply grow_trans; [eapply grow_weak; [|exact G1]|eapply grow_weak; [|exact G2]]; cbn; set_solver.
        + intros j b' Hj Hb'. apply elem_of_cons in Hj as [->|Hj]; [|by apply K2]. destruct K1 as (x & Hx & Hk). exists x.
          split; [by apply (gr_blocks _ _ _ G2)|congruence].
    Qed.
  End Blocks.

  (** ** Functions *)
  Lemma args_check F : NoDup (fn_args F) -> (forall a, a ∈ fn_args F -> map_contains (fn_locals F) a = true) -> fn_ret F ∉ fn_args F ->
    exists live, fold_m (fun live arg =>
          let! _ := ensure_wf (map_contains (fn_locals F) arg) "Function: argument local does not exist" in
          if bool_decide (arg ∈ live) then throw_ill_formed "Function: two arguments refer to the same local" else Ret (arg :: live)) (fn_args F) [] = Ret live /\ fn_ret F ∉ live.
  Proof.
    intros Hnd Hin Hr. assert (H : forall l live, (forall a, a ∈ l -> a ∈ fn_args F /\ a ∉ live) -> NoDup l -> fn_ret F ∉ live -> exists live',
      fold_m (fun live arg =>
          let! _ := ensure_wf (map_contains (fn_locals F) arg) "Function: argument local does not exist" in
          if bool_decide (arg ∈ live) then throw_ill_formed "Function: two arguments refer to the same local" else Ret (arg :: live)) l live = Ret live' /\ fn_ret F ∉ live').
    { induction l as [|a l IH]; intros live Hl Hnd' Hlive; [by eexists|]. cbn [fold_m]. destruct (Hl a) as [Ha Hna]; [left|]. rewrite Hin by done. cbn [ensure_wf obind].
      rewrite bool_decide_eq_false_2 by done. cbn [obind]. apply NoDup_cons in Hnd' as [Hal Hnd']. apply IH; [|done|].
      - intros b Hb. destruct (Hl b) as [? ?]; [by right|]. split; [done|]. set_solver.
      - set_solver. }
    apply H; [|done|set_solver]. intros a Ha. split; [done|set_solver].
  Qed.

  Theorem body_fine c order : cx_ok R [] c -> order ≡ₚ seq 0 nb ->
    fine (translate_body fuel R T c order B) (fun r => let '(F, c') := r in
      cx_ok R [] c' /\ ext c c' /\ (exists b, map_get (fn_blocks F) (fn_start F) = Some b /\ bb_kind b = BkRegular) /\
      forall P, holds R P c' -> function_check_wf T P F = Ret tt).
  Proof.
    intros Hc Hord. pose proof (bo_args _ _ _ HB) as Hargs. unfold translate_body.
    eapply fine_bind; [eapply type_locals_fine; [done|]; apply name_locals_named, name_bbs_named|].
    intros s1 (I1 & C1 & B1 & N1 & L1).
    eapply fine_bind; [apply (params_fine s1); [|lia|lia]|].
    { split; try done; first [by intros ? ?%elem_of_nil|apply NoDup_nil_2|intros; apply Forall_nil_2]. }
    intros [[s2 args] init] [I2 C2 B2 N2 A2 D2 G2].
    cbn [fresh_bb]. set (n0 := fx_next_local s2). set (s3 := mkFcx (fx_body s2) _ _ _ _ _ _ _). change (snd (fresh_bb s2)) with s3 in I2.
    eapply (fine_bind _ _ (fun ls => Forall (fun n => exists l, n = N.of_nat l /\ l < nl)%nat ls)).
    { pose proof (bo_live _ _ _ HB) as Hl. induction (ro_always_live B) as [|l ls IH]; [by cbn|]. cbn [map_m].
      rewrite (local_name_fine _ _ _ _ I2) by (apply Hl; left). cbn [obind]. eapply fine_bind; [apply IH; intros; apply Hl; by right|].
      intros ns Hns. constructor; [|done]. exists l. split; [done|]. apply Hl. left. }
    intros lives Hlives. eapply bb_fine; [done|apply (bo_entry _ _ _ HB)|]. set (s4 := put_block s3 _ _).
    assert (HN0 : (N.of_nat nl <= n0)%N) by apply (iv_nl _ _ _ I2). assert (Hpos : (0 < nl)%nat) by lia.
    assert (Hnb3 : fx_next_bb s3 = (fx_next_bb s2 + 1)%N) by done.
    assert (Hb3 : fx_blocks s3 = []) by done.
    assert (S4 : st R B n0 [] s4).
    { split; [apply (put_block_iv R B n0 HN0 Hpos); [done|lia]|done|]. intros m x Hin. apply put_block_in in Hin; [|by rewrite Hb3].
      rewrite Hb3 in Hin. destruct Hin as [[]|[-> ->]]. intros P F Hf _.
      assert (Hf3 : final R B n0 P F s3).
      { eapply final_grow; [|exact Hf]. apply (put_block_grow B n0 HN0 Hpos [fx_next_bb s2]); [apply grow_refl|right; left|by rewrite Hb3]. }
      cbn [bb_statements bb_terminator bb_kind]. split.
      - apply Forall_app. split.
        + eapply Forall_impl; [apply (G2 n0)|]. intros y Hy. by apply (sgood_same n0 s2 s3 y) in Hy; [apply Hy|..].
        + change (List.map SStorageLive ?l) with (SStorageLive <$> l). apply Forall_fmap. apply List.Forall_forall. intros n Hn. apply filter_In in Hn as [Hn _].
          rewrite List.Forall_forall in Hlives. apply Hlives in Hn as (l & -> & Hl). destruct (lookup_lt_is_Some_2 _ _ Hl) as [r Hr].
          destruct (iv_local _ _ _ I2 _ _ Hr) as (t & _ & Hm). by eapply (sgood_live R B n0 s3).
      - by eapply (tgood_goto R B n0 s3 false); [apply (bo_entry _ _ _ HB)|]. }
    eapply fine_bind; [apply (blocks_fine n0 HN0 Hpos order s4 S4)|].
    { rewrite Hord. apply NoDup_seq. }
    { rewrite Hord. apply List.Forall_forall. intros i Hi%in_seq. lia. }
    { intros i Hi. unfold s4. rewrite put_block_get, Hb3. rewrite Hord in Hi. apply elem_of_seq in Hi. rewrite bool_decide_eq_false_2 by lia. done. }
    intros s5 (S5 & G5 & K5). eapply fine_bind; [apply fine_ask'|]. intros conv _. cbn [fine].
    assert (Hx : ext c (fx_cx s5)).
    { pose proof (gr_cx _ _ _ G5) as Hx. cbn in Hx. by rewrite C2, C1 in Hx. }
    split_and!; [apply (iv_cx _ _ _ (st_iv _ _ _ _ _ S5))|done| |].
    { cbn [fn_blocks fn_start]. eexists. split; [apply (gr_blocks _ _ _ G5); unfold s4; by rewrite put_block_get, bool_decide_eq_true_2|done]. }
    intros P HP. set (F := mkFunction _ _ _ _ _ _).
    assert (Hf : final R B n0 P F s5).
    { split; cbn [F fn_locals fn_ret fn_args fn_blocks]; try done.
      - intros a Ha. apply A2 in Ha as (Ha1 & _ & Ha2). split; [done|lia].
      - intros i b Hb. apply K5; [|done]. rewrite Hord. apply elem_of_seq. apply lookup_lt_Some in Hb. lia. }
    unfold function_check_wf. replace (for_each _ (fn_locals F)) with (Ret tt : Outcome unit); [cbn [obind]|].
    2:{ symmetry. apply for_each_ret, List.Forall_forall. intros [n t] Hin. cbn [snd].
        destruct (iv_ty _ _ _ (st_iv _ _ _ _ _ S5) n t Hin) as [(l & Hl & Hsz) Hwf]. unfold ensure_sized. rewrite Hl. cbn [obind]. rewrite Hsz. cbn [ensure_wf obind].
        exact (wf_in R P _ t HP Hwf). }
    destruct (args_check F) as (live & Hlive & Hret); [done| | |].
    { intros a Ha. apply A2 in Ha as (_ & [t Ht] & _). unfold map_contains. cbn [F fn_locals]. by rewrite (gr_locals _ _ _ G5 a t). }
    { cbn [F fn_ret fn_args]. intros H. apply A2 in H. lia. }
    rewrite Hlive. cbn [obind]. destruct (lookup_lt_is_Some_2 (ro_locals B) 0) as [r0 Hr0]; [lia|].
    destruct (iv_local _ _ _ (st_iv _ _ _ _ _ S5) _ _ Hr0) as (t0 & _ & Hm0).
    replace (map_contains (fn_locals F) (fn_ret F)) with true by (unfold map_contains; cbn [F fn_locals fn_ret]; change 0%N with (N.of_nat 0); by rewrite Hm0).
    cbn [ensure_wf obind]. rewrite bool_decide_eq_false_2 by done. cbn [obind].
    apply for_each_ret. cbn [F fn_blocks]. apply List.Forall_forall. intros [m b] Hin. cbn [snd].
    destruct (st_good _ _ _ _ _ S5 m b Hin P F Hf) as [H1 H2]; [constructor|]. by rewrite (proj2 (for_each_ret _ _) H1).
  Qed.
End Body.
