(** Well-formedness of functions made with the builder. *)
From Verif Require Import WfTypesProofs SafeSpec.
From Verif Require Export BuildTotal BuildWfSpec.

Section Wf.
  Variable T : Target.
  Variable prog : Program.
  Variable func : Function.
  Hypothesis Hunit : place_check_wf T prog (fn_locals func) b_unit_place = Ret unit_ty.
  Hypothesis Hlayout : sized T unit_ty.
  Notation final := (final func).

  Definition stmt_ok (s : Statement) : Prop := statement_check_wf T prog func s = Ret tt.
  Definition term_ok (k : BbKind) (tm : Terminator) : Prop := terminator_check_wf T prog func k tm = Ret tt.
  Definition block_ok (b : BasicBlock) : Prop := Forall stmt_ok (bb_statements b) /\ term_ok (bb_kind b) (bb_terminator b).
  Definition good (b : FnBuilder) : Prop :=
    Forall (fun nb => block_ok (snd nb)) (fb_blocks b) /\ forall c, fb_cur b = Some c -> Forall stmt_ok (cb_statements c).
  Definition kind_at (n : BbName) (k : BbKind) : Prop := exists blk, map_get (fn_blocks func) n = Some blk /\ bb_kind blk = k.

  Lemma ensure_ret b msg : ensure_wf b msg = Ret tt <-> b = true.
  Proof. unfold ensure_wf. destruct b; split; done. Qed.
  Lemma bind_ret {A B} (o : Outcome A) (k : A -> Outcome B) r : obind o k = Ret r <-> exists a, o = Ret a /\ k a = Ret r.
  Proof. split; [apply obind_ret|]. intros (a & -> & H). done. Qed.
  Lemma bind_tt {B} (o : Outcome unit) (k : unit -> Outcome B) r : obind o k = Ret r <-> o = Ret tt /\ k tt = Ret r.
  Proof. rewrite bind_ret. split; [by intros ([] & ? & ?)|]. intros [? ?]. by exists tt. Qed.
  Lemma sized_ret ty msg : ensure_sized T ty msg = Ret tt <-> sized T ty.
  Proof.
    unfold ensure_sized, sized. rewrite bind_ret. split.
    - intros (l & Hl & E). apply ensure_ret in E. destruct l; try done. eauto.
    - intros (s & al & ->). eexists. split; [done|]. done.
  Qed.
  Lemma next_ret k n : kind_at n k -> check_next_block func k n = Ret tt.
  Proof. intros (b & Hb & <-). unfold check_next_block. rewrite Hb. apply ensure_ret. by apply bool_decide_eq_true_2. Qed.
  Lemma unwind_ret k n hk : kind_at n (hk_kind hk) -> check_unwind_block func k n = Ret tt <-> unwinds_to k (hk_kind hk).
  Proof.
    intros (b & Hb & Hk). unfold check_unwind_block. rewrite bind_ret. split.
    - intros (l & El & E). rewrite Hb in E. apply ensure_ret in E. rewrite Hk in E.
      destruct k; try discriminate El; injection El as <-; destruct hk; try discriminate E; constructor.
    - intros Hu. destruct hk, k; inversion Hu; eexists; (split; [reflexivity|]); rewrite Hb, Hk; done.
  Qed.
  Lemma args_ret args msg : for_each (fun a => let! ty := argument_check_wf T prog (fn_locals func) a in ensure_sized T ty msg) args = Ret tt <->
    Forall (arg_ok T prog func) args.
  Proof.
    rewrite for_each_ret. apply Forall_iff. intros a. rewrite bind_ret. unfold arg_ok.
    split; intros (ty & H1 & H2); exists ty; (split; [by destruct a|by apply sized_ret in H2 || by apply sized_ret]).
  Qed.
  Lemma values_ret args msg : for_each (fun a => let! ty := value_check_wf T prog (fn_locals func) a in ensure_sized T ty msg) args = Ret tt <->
    Forall (value_ok T prog func) args.
  Proof.
    rewrite for_each_ret. apply Forall_iff. intros a. rewrite bind_ret. unfold value_ok.
    split; intros (ty & H1 & H2); exists ty; (split; [done|]); by apply sized_ret in H2 || by apply sized_ret.
  Qed.
  Lemma place_ret {B} ret msg (k : unit -> Outcome B) r : (let! ty := place_check_wf T prog (fn_locals func) ret in let! u := ensure_sized T ty msg in k u) = Ret r <->
    place_ok T prog func ret /\ k tt = Ret r.
  Proof.
    rewrite bind_ret. unfold place_ok, typed_place. split.
    - intros (ty & H1 & H2). apply bind_tt in H2 as [H2 H3]. apply sized_ret in H2. by split; [exists ty|].
    - intros [(ty & H1 & H2) H3]. exists ty. split; [done|]. apply bind_tt. split; [by apply sized_ret|done].
  Qed.

  (** terminators *)
  Lemma term_goto k n : kind_at n k -> term_ok k (TmGoto n).
  Proof. exact (next_ret k n). Qed.
  Lemma term_intr k op args ret nb : (forall n, nb = Some n -> kind_at n k) ->
    term_ok k (TmIntrinsic op args ret nb) <-> place_ok T prog func ret /\ Forall (value_ok T prog func) args /\ op_ok op.
  Proof.
    intros Hn. unfold term_ok. cbn [terminator_check_wf]. rewrite place_ret, bind_tt, values_ret, bind_tt.
    assert (Hb : check_opt (check_next_block func k) nb = Ret tt) by (destruct nb; [by apply next_ret, Hn|done]).
    assert (Ho : (match op with InAtomicFetchAndOp op => if negb (is_atomic_binop op) then throw_ill_formed "IntrinsicOp::AtomicFetchAndOp: non atomic op" else Ret tt
      | _ => Ret tt end) = Ret tt <-> op_ok op).
    { unfold op_ok. destruct op; try by (split; [intros _ o [=]|done]).
      split; [|intros H'; by destruct (H' _ eq_refl) as [-> | ->]]. intros E o [= <-]. destruct op; try discriminate E; auto. }
    tauto.
  Qed.
  Lemma term_call k f conv args ret nb ub : (forall n, nb = Some n -> kind_at n k) ->
    term_ok k (TmCall f conv args ret nb ub) <-> call_ok T prog func f args ret /\ check_opt (check_unwind_block func k) ub = Ret tt.
  Proof.
    intros Hn. unfold term_ok. cbn [terminator_check_wf].
    assert (Hb : check_opt (check_next_block func k) nb = Ret tt) by (destruct nb; [by apply next_ret, Hn|done]).
    rewrite bind_ret. unfold call_ok, typed. split.
    - intros (ty & H1 & H2). apply bind_tt in H2 as [H2 H3]. apply ensure_ret, bool_decide_eq_true_1 in H2 as ->.
      apply place_ret in H3 as [H3 H4]. apply bind_tt in H4 as [H4 H5]. apply args_ret in H4. apply bind_tt in H5 as [_ H5]. done.
    - intros ((H1 & H2 & H3) & H4). exists (TPtr PFnPtr). split; [done|]. apply bind_tt. split; [done|]. apply place_ret. split; [done|].
      apply bind_tt. split; [by apply args_ret|]. by apply bind_tt.
  Qed.
  Lemma term_throw k v n hk : kind_at n (hk_kind hk) ->
    term_ok k (TmStartUnwind v n) <-> typed T prog func v (TPtr (PRaw MKNone)) /\ k = BkRegular /\ unwinds_to k (hk_kind hk).
  Proof.
    intros Hn. unfold term_ok. cbn [terminator_check_wf]. rewrite bind_ret. unfold typed. split.
    - intros (ty & H1 & H2). apply bind_tt in H2 as [H2 H3]. apply ensure_ret, bool_decide_eq_true_1 in H2 as ->.
      apply bind_tt in H3 as [H3 H4]. apply ensure_ret, bool_decide_eq_true_1 in H3 as ->. by apply (unwind_ret _ _ _ Hn) in H4.
    - intros (H1 & -> & H3). eexists. split; [exact H1|]. apply bind_tt. split; [done|]. apply bind_tt. split; [done|]. by apply (unwind_ret _ _ _ Hn).
  Qed.
  Lemma term_end k e : term_ok k (ending_term e) <-> end_ok T prog func k e.
  Proof.
    assert (Hx : forall op, op_ok op -> term_ok k (TmIntrinsic op [] b_unit_place None)).
    { intros op Hop. apply term_intr; [done|]. split; [|split; [constructor|done]]. exists unit_ty. done. }
    destruct e as [| | | | |f args ret]; simpl.
    - split; [done|]. intros _. by apply Hx.
    - split; [done|]. intros _. by apply Hx.
    - done.
    - unfold term_ok. cbn. rewrite ensure_ret. apply bool_decide_eq_true.
    - unfold term_ok. cbn. rewrite ensure_ret. apply bool_decide_eq_true.
    - rewrite term_call by done. cbn. tauto.
  Qed.
  Lemma term_switch k v cases fb : (forall i n, In (i, n) cases -> kind_at n k) -> kind_at fb k ->
    term_ok k (TmSwitch v cases fb) <-> exists it, typed T prog func v (TInt it) /\ Forall (fun i => can_represent it i = true) (List.map fst cases).
  Proof.
    intros Hc Hf. unfold term_ok. cbn [terminator_check_wf]. rewrite bind_ret. unfold typed. split.
    - intros (ty & H1 & H2). destruct ty as [it| | | | | | | |]; try discriminate H2. exists it. split; [done|].
      apply bind_tt in H2 as [H2 _]. apply for_each_ret in H2. apply Forall_fmap, (Forall_impl _ _ _ H2). intros [i n] H. simpl in *.
      by apply bind_tt in H as [H _]; apply ensure_ret in H.
    - intros (it & H1 & H2). exists (TInt it). split; [done|]. apply bind_tt. split; [|by apply next_ret].
      apply for_each_ret. apply List.Forall_forall. intros [i n] Hin. apply bind_tt. split; [|by apply next_ret, (Hc i)].
      apply ensure_ret. simpl. rewrite List.Forall_forall in H2. apply H2. by apply (in_map fst) in Hin.
  Qed.

  (** methods of the builder *)
  Lemma good_finish tm b b' : finish_block tm b = Ret b' -> exists c, fb_cur b = Some c /\ fb_cur b' = None /\
    (good b' <-> good b /\ term_ok (cb_kind c) tm).
  Proof.
    intros E. apply finish_ret in E as (c & Hc & Hc' & _ & Hb & _). exists c. split; [done|]. split; [done|].
    unfold good. rewrite Hb, Forall_app, Hc', Forall_singleton. unfold block_ok. simpl. split.
    - intros [[H1 [H2 H3]] _]. split; [|done]. split; [done|]. intros c0 E0. by assert (c0 = c) as -> by congruence.
    - intros [[H1 H2] H3]. split; [|done]. split; [done|]. split; [by apply H2|done].
  Qed.
  Lemma good_set b n k b' : set_cur_block b n k = Ret b' -> final b' -> kind_at n k /\ (good b' <-> good b) /\ fb_cur b' = Some (mkCur [] n k) /\ fb_cur b = None.
  Proof.
    intros E [_ Hf]. apply set_cur_ret in E as (Hc & _ & ->). split.
    - destruct (Hf _ eq_refl) as (blk & rest & H1 & _ & H2). by exists blk.
    - split; [|done]. unfold good. rewrite Hc. simpl. split; [by intros [H1 _]|]. intros [H1 _]. split; [done|]. intros c [= <-]. constructor.
  Qed.
  Lemma good_push s b b' c0 : push_statement s b = Ret b' -> fb_cur b = Some c0 ->
    (good b' <-> good b /\ stmt_ok s) /\ exists c', fb_cur b' = Some c' /\ cb_kind c' = cb_kind c0.
  Proof.
    intros E Hc. unfold push_statement, cur_block in E. rewrite Hc in E. injection E as <-. split; [|by eexists].
    unfold good. simpl. rewrite Hc. split.
    - intros [H1 H2]. specialize (H2 _ eq_refl). simpl in H2. apply Forall_app in H2 as [H2 H3]. apply Forall_inv in H3.
      split; [|done]. split; [done|]. by intros c [= <-].
    - intros [[H1 H2] H3]. split; [done|]. intros c [= <-]. simpl. apply Forall_app. split; [by apply H2|by apply Forall_singleton].
  Qed.
  Lemma good_next tm b b' c0 : finish_with_next_block tm b = Ret b' -> fb_cur b = Some c0 -> final b' ->
    (exists n, kind_at n (cb_kind c0) /\ (good b' <-> good b /\ term_ok (cb_kind c0) (tm n))) /\ exists c', fb_cur b' = Some c' /\ cb_kind c' = cb_kind c0.
  Proof.
    intros E Hc Hf. unfold finish_with_next_block, cur_block, declare_block in E. rewrite Hc in E. cbn [unwrap obind] in E.
    destruct (finish_block _ _) as [b1| | |] eqn:E1; try discriminate E. cbn [obind] in E.
    apply good_finish in E1 as (c & Hc1 & _ & Hg). simpl in Hc1. assert (c = c0) as -> by congruence.
    destruct (good_set _ _ _ _ E Hf) as (Hk & Hg' & Hc' & _). split; [|by eexists]. exists (fb_next_block b). split; [done|]. rewrite Hg', Hg. done.
  Qed.

  (** [makes g k P]: what [g] adds to code of kind [k] is well-formed if and only if [P] *)
  Definition makes (g : Builder) (k : BbKind) (P : Prop) : Prop := forall b b' c0, fb_cur b = Some c0 -> cb_kind c0 = k -> g b = Ret b' -> final b' ->
    (good b' <-> good b /\ P) /\ (forall c', fb_cur b' = Some c' -> cb_kind c' = k).

  Lemma good_handler hk g P b n b' : makes g (hk_kind hk) P -> backs func g -> fb_handler hk g b = Ret (n, b') -> final b' ->
    kind_at n (hk_kind hk) /\ (good b' <-> good b /\ P) /\ fb_cur b' = fb_cur b.
  Proof.
    intros Hg Hb E Hf.
    assert (E' : handler_block (hk_kind hk) g b = Ret (n, b')) by (by destruct hk). clear E.
    apply handler_ret in E' as (b1 & b2 & -> & Hc1 & -> & Hn & E & Hc2 & ->). destruct Hf as [H1 H2]. simpl in H1.
    assert (Hf2 : final b2) by (split; [exact H1|by rewrite Hc2]). pose proof (Hb _ _ E Hf2) as [_ F1]. simpl in F1.
    destruct (F1 _ eq_refl) as (blk & rest & Hblk & _ & Hk). simpl in Hk, Hblk.
    split; [by exists blk|]. split; [|done].
    destruct (Hg _ _ _ Hc1 eq_refl E Hf2) as [Hgood _].
    assert (G2 : good b2 <-> Forall (fun nb => block_ok (snd nb)) (fb_blocks b2)).
    { unfold good. rewrite Hc2. split; [by intros [? _]|]. done. }
    rewrite G2 in Hgood. unfold good at 1. simpl. rewrite Hgood. unfold good. simpl.
    split.
    - intros [[[G3 _] G4] G5]. done.
    - intros [[G3 G4] G5]. split; [|done]. split; [|done]. split; [done|]. intros c [= <-]. constructor.
  Qed.

  (** switches *)
  Lemma good_branches k l Ps b after b' after' : Forall2 (fun gn P => makes (fst gn) k P /\ backs func (fst gn)) l Ps ->
    fold_m (switch_branch k) l (b, after) = Ret (b', after') -> fb_cur b = None -> final b' -> (forall d, after' = Some d -> kind_at d k) ->
    fb_cur b' = None /\ final b /\ (forall d, after = Some d -> after' = Some d) /\ Forall (fun gn => kind_at (snd gn) k) l /\ (good b' <-> good b /\ Forall id Ps).
  Proof.
    revert b after Ps. induction l as [|[g n] r IH]; intros b after Ps Hl E Hb Hf Hd; inversion Hl as [|? P ? Ps' [HP Hbk] HPs]; subst.
    - injection E as <- <-. split; [done|]. split; [done|]. split; [done|]. split; [constructor|]. split; [by intros ?|by intros [? _]].
    - change (fold_m (switch_branch k) ((g, n) :: r) (b, after)) with
        (obind (switch_branch k (b, after) (g, n)) (fold_m (switch_branch k) r)) in E.
      destruct (switch_branch k (b, after) (g, n)) as [[b0 after0]| | |] eqn:E0; try discriminate E. cbn [obind] in E.
      apply branch_ret in E0 as (b1 & b2 & E1 & E2 & Hc0 & E3).
      destruct (IH b0 after0 Ps' HPs E Hc0 Hf Hd) as (Hc' & Hf0 & Ha & Hks & Hg). simpl in HP, Hbk.
      assert (Hb2 : final b2 /\ (forall d, after = Some d -> after0 = Some d) /\ ((forall c', fb_cur b2 = Some c' -> cb_kind c' = k) -> (good b0 <-> good b2))).
      { destruct (fb_cur b2) as [c2|] eqn:Ec2.
        - destruct E3 as (d & b3 & -> & E3 & Hdd). pose proof E3 as E3'. apply finish_final with (func := func) in E3' as (Hf3 & _); [|done].
          assert (final b2 /\ fb_cur b3 = fb_cur b2 /\ fb_blocks b3 = fb_blocks b2) as (? & E4 & E5)
            by (destruct Hdd as [[-> ->]|[-> [= -> ->]]]; split; done).
          split; [done|]. split; [intros d' ->; by destruct Hdd as [[[= ->] ->]|[? _]]|]. intros Hk.
          apply good_finish in E3 as (c & Hc3 & _ & G). rewrite E4, Ec2 in Hc3. injection Hc3 as ->.
          rewrite G. assert (good b3 <-> good b2) as -> by (unfold good; by rewrite E4, E5).
          rewrite (Hk _ eq_refl). split; [by intros [? _]|]. intros ?. split; [done|]. by apply term_goto, Hd, Ha.
        - destruct E3 as [-> ->]. done. }
      destruct Hb2 as (Hf2 & Ha0 & Hg2).
      pose proof (Hbk _ _ E2 Hf2) as Hf1. destruct (good_set _ _ _ _ E1 Hf1) as (Hkn & Hg1 & Hc1 & _).
      destruct (HP _ _ _ Hc1 eq_refl E2 Hf2) as [Hg12 Hk2].
      split; [done|]. split; [exact (set_cur_final _ _ _ _ _ E1 Hf1)|]. split; [intros d Hdd; by apply Ha, Ha0|].
      split; [by constructor|]. rewrite Hg, (Hg2 Hk2), Hg12, Hg1, Forall_cons. unfold id at 2. tauto.
  Qed.

  Lemma good_switch v cases fallback k Ps P : Forall2 (fun c P => makes (snd c) k P /\ backs func (snd c)) cases Ps -> makes fallback k P -> backs func fallback ->
    makes (switch_int v cases fallback) k ((exists it, typed T prog func v (TInt it) /\ Forall (fun i => can_represent it i = true) (List.map fst cases)) /\ Forall id Ps /\ P).
  Proof.
    intros HPs HP Hbf b b' c0 Hc Hk E Hf. unfold switch_int, cur_block in E. rewrite Hc in E. cbn [unwrap obind] in E.
    destruct (switch_blocks cases b [] []) as [[[br mp] b1]| | |] eqn:E1; try discriminate E. cbn [obind] in E.
    apply blocks_ret in E1 as (ns & Hl & -> & -> & Hc1 & Hb1 & _). simpl in E.
    destruct (finish_block _ _) as [b2| | |] eqn:E2; try discriminate E. cbn [obind] in E.
    destruct (fold_m _ _ _) as [[b3 after]| | |] eqn:E3; try discriminate E. cbn [obind] in E. rewrite Hk in *.
    assert (final b3 /\ (forall d, after = Some d -> kind_at d k) /\ (fb_cur b3 = None -> (good b' <-> good b3) /\ (forall c', fb_cur b' = Some c' -> cb_kind c' = k))) as (Hf3 & Ha & Hg').
    { destruct after as [d|].
      - destruct (good_set _ _ _ _ E Hf) as (H1 & H2 & H3 & H4). split; [exact (set_cur_final _ _ _ _ _ E Hf)|].
        split; [by intros ? [= <-]|]. intros _. split; [done|]. intros c'. rewrite H3. by intros [= <-].
      - injection E as ->. split; [done|]. split; [done|]. intros H3. split; [done|]. by rewrite H3. }
    apply good_finish in E2 as (c & Hc2 & Hc2' & G2). simpl in Hc2. rewrite Hc1, Hc in Hc2. injection Hc2 as <-. rewrite Hk in G2.
    assert (HPs' : Forall2 (fun gn P => makes (fst gn) k P /\ backs func (fst gn)) (zip (List.map snd cases) ns ++ [(fallback, fb_next_block b1)]) (Ps ++ [P])).
    { apply Forall2_app; [|by constructor]. clear - HPs Hl. revert ns Hl. induction HPs as [|? ? ? ? H1 _ IH]; intros [|n ns] Hl; try discriminate Hl; constructor; [done|].
      apply IH. by injection Hl. }
    destruct (good_branches k _ _ _ _ _ _ HPs' E3 Hc2' Hf3 Ha) as (Hc3 & _ & _ & Hks & G3). destruct (Hg' Hc3) as [G' Hk']. split; [|done].
    apply Forall_app in Hks as [Hks Hkf]. apply Forall_inv in Hkf. simpl in Hkf.
    rewrite G', G3, G2, term_switch, Forall_app, Forall_singleton; [|intros i n Hin|done].
    - assert (fst <$> zip (List.map fst cases) ns = List.map fst cases) as Em by (apply fst_zip; rewrite map_length; lia).
      change (List.map fst (zip (List.map fst cases) ns)) with (fst <$> zip (List.map fst cases) ns). rewrite Em.
      assert (good (with_next_block b1 (fb_next_block b1 + 1)) <-> good b) as -> by (unfold good; simpl; by rewrite Hc1, Hb1).
      unfold id at 2. tauto.
    - apply in_combine_r in Hin. clear - Hin Hks Hl. revert ns Hl Hin Hks. induction cases as [|x r IH]; intros [|m ns] Hl Hin Hks; try discriminate Hl; [done|].
      simpl in Hks. apply Forall_cons in Hks as [H1 H2]. destruct Hin as [->|Hin]; [done|]. apply (IH ns); [by injection Hl|done|done].
  Qed.

  Lemma test_ret c : (exists it, typed T prog func (b_bool_to_u8 c) (TInt it) /\ Forall (fun i => can_represent it i = true) [1]) <-> value_ok T prog func c.
  Proof.
    unfold typed, value_ok, b_bool_to_u8, b_transmute. cbn [value_check_wf].
    assert (Hl : forall ty, obind (layout T ty) (fun l => let! _ := ensure_wf (is_sized l) "Cast::Transmute: unsized source type" in
        let! l' := layout T u8_ty in let! _ := ensure_wf (is_sized l') "Cast::Transmute: unsized target type" in Ret u8_ty) = Ret u8_ty <-> sized T ty).
    { intros ty. rewrite bind_ret. unfold sized. split.
      - intros (l & H1 & H2). apply bind_tt in H2 as [H2 _]. apply ensure_ret in H2. destruct l; try done. eauto.
      - intros (s & al & ->). eexists. split; [done|]. done. }
    split.
    - intros (it & H1 & _). apply bind_ret in H1 as (ty & H1 & H2). exists ty. split; [done|]. apply Hl.
      cbn [unop_check_wf] in H2. destruct (layout T ty) as [l| | |]; try discriminate H2. cbn [obind] in *. destruct (is_sized l); [|discriminate H2].
      done.
    - intros (ty & H1 & H2). exists (mkIntTy Unsigned 1). split; [|by repeat constructor]. apply bind_ret. exists ty. split; [done|]. by apply Hl.
  Qed.

  Lemma passive_good c k : forall b b', passive c = true -> emit c b = Ret b' -> (good b' <-> good b) /\ body_ok T prog func k c.
  Proof.
    induction c as [|c d IHc IHd|ty|s|op args ret|f args ret|f conv args ret hk h IH|v hk h IH|e|v cases fb _ _|c t e _ _|c body _]
      using Cmd_ind'; intros b b' Hp E; cbn [emit] in E; try discriminate Hp.
    - injection E as ->. done.
    - cbn [passive] in Hp. apply andb_prop in Hp as [Hp1 Hp2]. destruct (emit c b) as [b1| | |] eqn:E1; try discriminate E. cbn [obind] in E.
      destruct (IHc _ _ Hp1 E1) as [G1 O1]. destruct (IHd _ _ Hp2 E) as [G2 O2]. split; [by rewrite G2|done].
    - unfold declare_local in E. destruct (try_insert _ _ _); try discriminate E. injection E as <-. done.
  Qed.

  Lemma makes_iff g k (P Q : Prop) : makes g k P -> (P <-> Q) -> makes g k Q.
  Proof. intros Hm HP b b' c0 H1 H2 H3 H4. rewrite <- HP. by apply (Hm b b' c0). Qed.

  Lemma emit_makes c : forall k, makes (emit c) k (body_ok T prog func k c).
  Proof.
    induction c as [|c d IHc IHd|ty|s|op args ret|f args ret|f conv args ret hk h IH|v hk h IH|e|v cases fb IHs IHf|c t e IHt IHe|c body IH]
      using Cmd_ind'; intros k.
    - intros b b' c0 Hc Hk E Hf. injection E as <-. simpl. split; [tauto|]. intros c' E. by assert (c' = c0) as -> by congruence.
    - intros b b' c0 Hc Hk E Hf. cbn [emit] in E. destruct (emit c b) as [b1| | |] eqn:E1; try discriminate E. cbn [obind] in E.
      pose proof (emit_backs func d _ _ E Hf) as Hf1. destruct (IHc k _ _ _ Hc Hk E1 Hf1) as [G1 K1]. cbn [body_ok].
      destruct (fb_cur b1) as [c1|] eqn:Ec1.
      + destruct (IHd k _ _ _ Ec1 (K1 _ eq_refl) E Hf) as [G2 K2]. split; [|done]. rewrite G2, G1. tauto.
      + destruct (emit_closed _ _ _ E Ec1) as [Hc' Hp]. destruct (passive_good d k _ _ Hp E) as [G2 O2]. rewrite G2, G1, Hc'. split; [tauto|done].
    - intros b b' c0 Hc Hk E Hf. cbn [emit] in E. unfold declare_local in E. destruct (try_insert _ _ _); try discriminate E. injection E as <-.
      cbn [body_ok]. split; [unfold good; simpl; tauto|]. simpl. intros c' E. by assert (c' = c0) as -> by congruence.
    - intros b b' c0 Hc Hk E Hf. destruct (good_push _ _ _ _ E Hc) as (G & c' & Hc' & K'). split; [exact G|]. rewrite Hc', <- Hk. by intros ? [= <-].
    - intros b b' c0 Hc Hk E Hf. destruct (good_next _ _ _ _ E Hc Hf) as ((n & Hn & G) & c' & Hc' & K'). rewrite Hk in *. split.
      + rewrite G, term_intr; [done|]. by intros ? [= <-].
      + rewrite Hc'. by intros ? [= <-].
    - intros b b' c0 Hc Hk E Hf. change (finish_with_next_block (fun n => TmCall f CcRust args ret (Some n) None) b = Ret b') in E.
      destruct (good_next _ _ _ _ E Hc Hf) as ((n & Hn & G) & c' & Hc' & K'). rewrite Hk in *. split.
      + rewrite G, term_call; [|by intros ? [= <-]]. cbn. tauto.
      + rewrite Hc'. by intros ? [= <-].
    - intros b b' c0 Hc Hk E Hf. cbn [emit] in E. destruct (fb_handler hk (emit h) b) as [[u b1]| | |] eqn:E1; try discriminate E. cbn [obind] in E.
      change (finish_with_next_block (fun n => TmCall f conv args ret (Some n) (Some u)) b1 = Ret b') in E.
      pose proof (backs_next func _ _ _ E Hf) as Hf1. destruct (good_handler hk _ _ b u b1 (IH (hk_kind hk)) (emit_backs func h) E1 Hf1) as (Hu & G1 & Hc1).
      rewrite Hc in Hc1. destruct (good_next _ _ _ _ E Hc1 Hf) as ((n & Hn & G) & c' & Hc' & K'). rewrite Hk in *. split.
      + rewrite G, term_call, G1; [|by intros ? [= <-]]. cbn [check_opt body_ok]. rewrite (unwind_ret _ _ _ Hu). tauto.
      + rewrite Hc'. by intros ? [= <-].
    - intros b b' c0 Hc Hk E Hf. cbn [emit] in E. destruct (fb_handler hk (emit h) b) as [[u b1]| | |] eqn:E1; try discriminate E. cbn [obind] in E.
      pose proof (backs_finish func _ _ _ E Hf) as Hf1. destruct (good_handler hk _ _ b u b1 (IH (hk_kind hk)) (emit_backs func h) E1 Hf1) as (Hu & G1 & Hc1).
      destruct (good_finish _ _ _ E) as (c & Hc2 & Hc' & G). assert (c = c0) as -> by congruence. rewrite Hc'. split; [|done].
      rewrite G, G1, Hk, (term_throw _ _ _ _ Hu). cbn [body_ok]. tauto.
    - intros b b' c0 Hc Hk E Hf. cbn [emit] in E. assert (E' : finish_block (ending_term e) b = Ret b').
      { destruct e; try exact E. cbn [emit_end] in E. unfold call_noret, handle_call, cur_block in E. rewrite Hc in E. cbn [unwrap obind] in E.
        destruct (finish_block _ b) eqn:E1; try discriminate E. cbn [obind] in E. by injection E as ->. }
      destruct (good_finish _ _ _ E') as (c & Hc2 & Hc' & G). assert (c = c0) as -> by congruence. rewrite Hc'. split; [|done].
      rewrite G, Hk, term_end. done.
    - cbn [emit]. eapply makes_iff; [apply (good_switch v _ _ k (List.map (fun ic => body_ok T prog func k (snd ic)) cases) (body_ok T prog func k fb))|].
      + clear - IHs. induction IHs as [|[i c] r H _ IH]; simpl; constructor; [|exact IH]. split; [apply H|apply emit_backs].
      + apply IHf.
      + apply emit_backs.
      + cbn [body_ok]. rewrite map_map. simpl.
        assert (Hall : forall it, Forall (fun i => can_represent it i = true) (List.map fst cases) /\ Forall id (List.map (fun ic => body_ok T prog func k (snd ic)) cases) <->
          (fix all (l : list (Z * Cmd)) : Prop := match l with [] => True | (i, c) :: r => (can_represent it i = true /\ body_ok T prog func k c) /\ all r end) cases).
        { intros it. clear. induction cases as [|[i c] r IH]; simpl; [split; [done|]; intros _; split; constructor|].
          rewrite <- IH, !Forall_cons. unfold id at 1. tauto. }
        split.
        * intros ((it & H1 & H2) & H3 & H4). exists it. split; [done|]. split; [|done]. by apply Hall.
        * intros (it & H1 & H2 & H3). apply Hall in H2 as [H2 H4]. split; [by exists it|]. done.
    - cbn [emit]. unfold fb_if. eapply makes_iff; [apply (good_switch _ _ _ k [body_ok T prog func k t] (body_ok T prog func k e))|].
      + constructor; [|constructor]. split; [apply IHt|apply emit_backs].
      + apply IHe.
      + apply emit_backs.
      + cbn [List.map fst body_ok]. rewrite test_ret, Forall_singleton. unfold id. tauto.
    - intros b b' c0 Hc Hk E Hf. cbn [emit] in E. unfold fb_while, cur_block, declare_block in E. simpl in E. rewrite Hc in E. cbn [unwrap obind] in E.
      destruct (fb_goto _ _) as [b1| | |] eqn:E1; try discriminate E. cbn [obind] in E.
      destruct (set_cur_block _ _ _) as [b2| | |] eqn:E2; try discriminate E. cbn [obind] in E.
      set (g := fun b => _) in E.
      assert (Hbg : backs func g).
      { intros b3 b4 E3 Hf4. unfold g in E3.
        destruct (emit body b3) as [b5| | |] eqn:E5; try discriminate E3. cbn [obind] in E3. apply (emit_backs func body _ _ E5).
        destruct (fb_cur b5); [exact (backs_finish func _ _ _ E3 Hf4)|by injection E3 as ->]. }
      assert (Hbs : backs func (fun b => Ret b)) by (by intros ? ? [= <-]).
      assert (Hf2 : final b2). { refine (backs_switch func _ _ _ _ _ _ E Hf). intros g' [[<-|[]]| ->]; done. }
      destruct (good_set _ _ _ _ E2 Hf2) as (Hn & G2 & Hc2 & _). rewrite Hk in *.
      destruct (good_finish _ _ _ E1) as (c1 & Hc1 & _ & G1). simpl in Hc1. assert (c1 = c0) as -> by congruence. rewrite Hk in G1.
      assert (Hmg : makes g k (body_ok T prog func k body)).
      { intros b3 b4 c3 Hc3 Hk3 E3 Hf4. unfold g in E3. destruct (emit body b3) as [b5| | |] eqn:E5; try discriminate E3. cbn [obind] in E3.
        destruct (fb_cur b5) as [c5|] eqn:Ec5.
        - pose proof (backs_finish func _ _ _ E3 Hf4) as Hf5. destruct (IH k _ _ _ Hc3 Hk3 E5 Hf5) as [G5 K5].
          destruct (good_finish _ _ _ E3) as (c6 & Hc6 & Hc6' & G6). assert (c6 = c5) as -> by congruence. rewrite (K5 _ Ec5) in G6. rewrite Hc6'.
          split; [|done]. rewrite G6, G5. pose proof (term_goto _ _ Hn). tauto.
        - injection E3 as ->. exact (IH k _ _ _ Hc3 Hk3 E5 Hf4). }
      assert (Hms : makes (fun b => Ret b) k True).
      { intros b3 b4 c3 Hc3 Hk3 E3 Hf4. injection E3 as <-. split; [tauto|]. intros c' E'. by assert (c' = c3) as -> by congruence. }
      assert (Hm : makes (switch_int (b_bool_to_u8 c) [(1, g)] (fun b => Ret b)) k (value_ok T prog func c /\ body_ok T prog func k body)).
      { eapply makes_iff; [apply (good_switch _ _ _ k [body_ok T prog func k body] True); [|done|done]|].
        - constructor; [|constructor]. split; [exact Hmg|exact Hbg].
        - cbn [List.map fst]. rewrite test_ret, Forall_singleton. unfold id. tauto. }
      destruct (Hm _ _ _ Hc2 eq_refl E Hf) as [G K]. split; [|done].
      rewrite G, G2, G1. pose proof (term_goto _ _ Hn). cbn [body_ok].
      assert (good (with_next_block b (fb_next_block b + 1)) <-> good b) as -> by done. tauto.
  Qed.
End Wf.

(** ** Functions *)

Lemma unit_ty_wf T tr : target_std T -> ty_check_wf T tr unit_ty = Ret tt.
Proof. intros Ts. exact (ts_unit T Ts). Qed.
Lemma unit_place_ret T prog ls : target_std T -> place_check_wf T prog ls b_unit_place = Ret unit_ty.
Proof.
  intros Ts. unfold b_unit_place, b_unit_ptr. cbn [place_check_wf value_check_wf constant_check_wf]. rewrite unit_ty_wf by done. cbn [obind].
  assert (Hb : in_bounds Unsigned (PTR_SIZE T) 1 = true).
  { pose proof (ts_usize T Ts) as H. cbn in H. unfold inttype_check_wf in H. apply bind_tt in H as [H _]. apply ensure_ret in H. simpl in H.
    assert (Hs : PTR_SIZE T <> 0%N) by (intros E; rewrite E in H; discriminate H).
    unfold in_bounds. rewrite (proj2 (N.eqb_neq _ _) Hs). apply andb_true_intro. split; [done|]. apply Z.ltb_lt. apply Z.pow_gt_1; unfold size_bits; lia. }
  assert (Hp : ty_check_wf T (has_trait prog) b_raw_void_ptr_ty = Ret tt) by exact (ts_thin T Ts).
  rewrite Hp. unfold b_raw_void_ptr_ty, b_raw_ptr_ty. cbn [obind]. rewrite Hb. done.
Qed.

Lemma numbered_lookup_from {A} (l : list A) k n : (k <= N.to_nat n)%nat ->
  map_get (zip (List.map N.of_nat (seq k (length l))) l) n = l !! (N.to_nat n - k)%nat.
Proof.
  revert k. induction l as [|x l IH]; intros k Hk; [done|]. simpl. unfold map_get. cbn [find fst snd].
  case_bool_decide as E.
  - subst n. by rewrite Nat2N.id, Nat.sub_diag.
  - assert (Hk' : (S k <= N.to_nat n)%nat) by lia. specialize (IH _ Hk'). unfold map_get in IH. rewrite IH.
    by replace (N.to_nat n - k)%nat with (S (N.to_nat n - S k)) by lia.
Qed.
Lemma numbered_lookup {A} (l : list A) n : map_get (numbered l) n = l !! N.to_nat n.
Proof. unfold numbered. rewrite numbered_lookup_from by lia. by rewrite Nat.sub_0_r. Qed.

Lemma numbered_get {A} (l : list A) n : map_contains (numbered l) n = (n <? N.of_nat (length l))%N.
Proof.
  assert (H : map_get (numbered l) n = None <-> ~ (n < N.of_nat (length l))%N).
  { rewrite get_none_in. unfold numbered. change (List.map fst (zip (List.map N.of_nat (seq 0 (length l))) l)) with (fst <$> zip (List.map N.of_nat (seq 0 (length l))) l).
    rewrite fst_zip by (by rewrite map_length, seq_length). rewrite in_map_iff. split.
    - intros Hn Hlt. apply Hn. exists (N.to_nat n). rewrite in_seq. lia.
    - intros Hn (i & <- & Hi). apply in_seq in Hi. lia. }
  unfold map_contains. destruct (map_get (numbered l) n).
  - symmetry. apply N.ltb_lt. destruct (N.lt_decidable n (N.of_nat (length l))) as [|Hn]; [done|]. apply H in Hn. done.
  - symmetry. apply N.ltb_ge. assert (~ (n < N.of_nat (length l))%N) by (by apply H). lia.
Qed.

Lemma fold_args {A} (ls : list (N * A)) l : forall live, (forall x, In x l -> map_contains ls x = true) -> NoDup l -> (forall x, In x l -> x ∉ live) ->
  fold_m (fun live arg => let! _ := ensure_wf (map_contains ls arg) "Function: argument local does not exist" in
          if bool_decide (arg ∈ live) then throw_ill_formed "Function: two arguments refer to the same local" else Ret (arg :: live)) l live = Ret (rev l ++ live).
Proof.
  induction l as [|x r IH]; intros live H1 H2 H3; [done|]. cbn [fold_m]. rewrite (H1 x) by (by left). cbn [ensure_wf obind].
  rewrite bool_decide_eq_false_2 by (apply H3; by left). cbn [obind]. apply NoDup_cons in H2 as [H2 H2']. rewrite IH.
  - simpl. by rewrite <- app_assoc.
  - intros y Hy. apply H1. by right.
  - done.
  - intros y Hy Hin. apply elem_of_cons in Hin as [->|Hin]; [|apply (H3 y); [by right|done]]. apply H2. by apply elem_of_list_In.
Qed.

Lemma build_wf T prog name h c func : target_std T -> build_function name h c = Ret func ->
  function_check_wf T prog func = Ret tt <-> Forall (variable_ok T prog) (variables h c) /\ body_ok T prog func BkRegular c.
Proof.
  intros Ts E. pose proof (build_total name h c) as Ht. rewrite E in Ht. destruct Ht as (_ & _ & Hls & Has & Hret & _).
  destruct (build_parts name h) as (b1 & Hf1 & Hc1 & S1 & B1 & _ & _ & _ & _ & _ & Eb). rewrite Eb in E.
  destruct (emit c b1) as [b2| | |] eqn:E2; try discriminate E. cbn [obind] in E. apply finish_function_ret in E as (Hc2 & Hb & Hs).
  assert (Hf : final func b2) by (split; [by rewrite Hb|by rewrite Hc2]).
  assert (Hlay : sized T unit_ty) by (eexists _, _; reflexivity).
  destruct (emit_makes T prog func (unit_place_ret T prog _ Ts) Hlay c BkRegular _ _ _ Hc1 eq_refl E2 Hf) as [G _].
  assert (G1 : good T prog func b1). { unfold good. rewrite B1, Hc1. split; [constructor|]. intros ? [= <-]. constructor. }
  assert (G2 : good T prog func b2 <-> Forall (fun nb => block_ok T prog func (snd nb)) (fn_blocks func)).
  { unfold good. rewrite Hc2, Hb. split; [by intros [? _]|]. done. }
  assert (Hv : Forall (fun x => (let! _ := ensure_sized T (snd x) "Function: unsized local variable" in ty_check_wf T (has_trait prog) (snd x)) = Ret tt) (fn_locals func) <->
    Forall (variable_ok T prog) (variables h c)).
  { rewrite Hls. unfold numbered. assert (forall l, Forall (variable_ok T prog) l <-> Forall (fun x : N * Ty => variable_ok T prog (snd x)) (zip (List.map N.of_nat (seq 0 (length l))) l)) as ->.
    { intros l. change (Forall (fun x : N * Ty => variable_ok T prog (snd x)) (zip (List.map N.of_nat (seq 0 (length l))) l)) with (Forall (variable_ok T prog ∘ snd) (zip (List.map N.of_nat (seq 0 (length l))) l)).
      rewrite <- Forall_fmap. rewrite snd_zip; [done|]. by rewrite map_length, seq_length. }
    apply Forall_iff. intros [n ty]. rewrite bind_tt, sized_ret. done. }
  unfold function_check_wf. rewrite bind_tt, for_each_ret, Hv.
  assert (Hin : forall x, In x (fn_args func) -> map_contains (fn_locals func) x = true).
  { intros x Hx. rewrite Has in Hx. apply in_map_iff in Hx as (i & <- & Hi). apply in_seq in Hi. rewrite Hls, numbered_get. apply N.ltb_lt.
    unfold variables. rewrite app_length. lia. }
  rewrite (fold_args (fn_locals func) (fn_args func) [] Hin).
  2: { rewrite Has. apply NoDup_ListNoDup, FinFun.Injective_map_NoDup; [intros ? ? ?; lia|apply seq_NoDup]. }
  2: { intros x _ Hx. by apply elem_of_nil in Hx. }
  cbn [obind]. rewrite app_nil_r.
  assert (map_contains (fn_locals func) (fn_ret func) = true /\ fn_ret func ∉ rev (fn_args func)) as [Hr1 Hr2].
  { rewrite Hret, Hls, Has, numbered_get. split.
    - apply N.ltb_lt. unfold variables. destruct (hd_ret h); rewrite !app_length; simpl; lia.
    - intros Hin'. apply elem_of_list_In, in_rev, in_map_iff in Hin' as (i & Ei & Hi). apply in_seq in Hi. destruct (hd_ret h); lia. }
  rewrite Hr1, bool_decide_eq_false_2 by done. cbn [ensure_wf obind]. rewrite for_each_ret.
  assert (Hblk : Forall (fun b => (let! _ := for_each (statement_check_wf T prog func) (bb_statements (snd b)) in
    terminator_check_wf T prog func (bb_kind (snd b)) (bb_terminator (snd b))) = Ret tt) (fn_blocks func) <-> body_ok T prog func BkRegular c).
  { transitivity (good T prog func b2); [|rewrite G; tauto]. rewrite G2. apply Forall_iff. intros [n blk]. rewrite bind_tt, for_each_ret. done. }
  rewrite Hblk. done.
Qed.
