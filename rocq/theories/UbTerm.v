(** The basic memory model: a step is undefined behaviour exactly if it is not allowed. Calls, returns, and the other
    terminators. *)
From Verif Require Export UbProofs SafeTerm.
From Verif Require Export DataSpec ExprSpec UbSpec.
Local Open Scope Z_scope.
From Coq Require Import ZifyBool ZifyN ZifyNat.

Section Term.
  Context `{EqDecision (nat * unit)}.
  Variable T : Target.
  Hypothesis Tok : target_ok T.
  Notation P := (nat * unit)%type.
  Notation M := (BMem unit unit).
  Notation Mach := (Machine P unit M).
  Notation MO := (BasicOps T).
  Implicit Types m : Mach.
  Let BL := basic_like T.
  Notation wfT ty := (ty_check_wf T any_trait ty = Ret tt).
  Notation aligned p al := (tp_addr p mod Z.of_N (align_bytes al) = 0).

  (** ** Small steps *)

  Lemma active_safe m : safely (active_thread m) (fun _ => True).
  Proof. unfold active_thread. by apply safely_unwrap. Qed.
  Lemma jump_safe m b : safely (jump_to_block m b) (fun _ => True).
  Proof. unfold jump_to_block. apply safely_bind. eapply safely_mono; [apply cur_safe|]. intros f _ _. apply set_cur_safe. Qed.
  Lemma active_at m t : active_thread m = Ret t -> m_threads m !! m_active m = Some t.
  Proof. unfold active_thread. by destruct (_ !! _) as [u|]; [intros [= ->]|]. Qed.
  Lemma j_pop m : judge False (pop_frame m) True (fun r => exists t s, m_threads m !! m_active m = Some t /\ t_stack t = fst r :: s /\
    snd r = set_active_thread m (with_stack t s) /\ top_frame m (fst r)).
  Proof.
    unfold pop_frame. apply judge_drop; [apply active_safe|]. intros t Ht. apply active_at in Ht. destruct (t_stack t) as [|f s] eqn:Es; [done|]. cbn.
    exists t, s. do 3 (split; [done|]). by exists t, s.
  Qed.

  (** ** Frames *)

  Lemma top_owns prog m f : minv T prog m -> top_frame m f -> exists rest, owns T (mview m) (fl (fctl f) :: rest).
  Proof.
    intros Hi (t & r & Ht & Hs). destruct (frame_lay m (m_active m) t 0 f Ht ltac:(by rewrite Hs)) as (s & Hl & Hk).
    pose proof (oi_owns _ _ _ _ (mi_own _ _ _ Hi)) as Ho. destruct s as [|x s]; [done|]. injection Hk as ->.
    destruct (concat_split _ _ _ Hl) as (R & Hp & _). exists (s ++ R). by eapply owns_perm.
  Qed.
  Lemma j_kills f0 rest l : forall (f : StackFrame P unit) mem, owns T (mv (cm_mem mem)) (fl (fctl f) :: rest) -> (exists ls, f = with_locals f0 ls) ->
    judge False (fold_m (fun '(f, mem) local => storage_dead T MO f mem local) l (f, mem)) True
      (fun r => iterl (kill (PE := unit) T) (fl (fctl f)) (mv (cm_mem mem)) l (fl (fctl (fst r))) (mv (cm_mem (snd r))) /\ exists ls, fst r = with_locals f0 ls).
  Proof.
    induction l as [|x l IH]; intros f mem Ho [ls Hf]; cbn [fold_m]; [cbn; split; [constructor|by exists ls]|].
    eapply judge_seq; [apply j_storage_dead; by apply (Forall_inv (ow_locals _ _ _ Ho))|done|].
    intros [f1 mem1] _ [Hk [ls1 Hf1]]. cbn [fst snd] in *. eapply judge_weak; [apply (IH f1 mem1); [by eapply kill_owns|exists ls1; by subst]|done|done|].
    intros r _ [Hi Hr]. split; [|done]. by econstructor.
  Qed.
  Lemma j_dealloc prog m f : minv T prog m -> top_frame m f -> forall mem, mv (cm_mem mem) = mview m ->
    judge False (dealloc_locals T MO f mem) True
      (fun r => iterl (kill (PE := unit) T) (fl (fctl f)) (mview m) (List.map fst (f_locals f)) (fl (fctl (fst r))) (mv (cm_mem (snd r))) /\ exists ls, fst r = with_locals f ls).
  Proof.
    intros Hi Hf mem Hv. destruct (top_owns _ _ _ Hi Hf) as [rest Ho]. rewrite <-Hv in Ho |- *. eapply j_kills; [exact Ho|]. exists (f_locals f). by destruct f.
  Qed.

  (** memory that does not belong to the frame is untouched, the rest is gone *)
  Lemma span_kills prog m m1 f q n : minv T prog m -> top_frame m f ->
    (exists f', iterl (kill (PE := unit) T) (fl (fctl f)) (mview m) (List.map fst (f_locals f)) f' (mview m1)) ->
    span m1 q n <-> span m q n /\ (n = 0 \/ forall id pe, tp_prov q = Some (id, pe) -> ~ frame_owns f id).
  Proof.
    intros Hi Hf [f' Hk]. pose proof (top_locals T prog m f Hi Hf) as [Hlo Hnd].
    assert (forall id, (exists n p pe, In (n, p) (f_locals f) /\ tp_prov p = Some (id, pe)) <-> frame_owns f id) as Hown.
    { intros id. split; intros (l & p & pe & H1 & H2); exists l, p, pe; (split; [|done]); [by apply map_get_nodup|by apply map_get_in]. }
    assert (forall id, ~ frame_owns f id -> mview m1 !! id = mview m !! id) as Hsame.
    { intros id Hno. eapply kills_other; [exact Hk|]. intros l p pe Hin Hp. apply Hno, Hown. by exists l, p, pe. }
    assert (forall id x, frame_owns f id -> cm_mem (m_mem m1) !! id = Some x -> al_live x = true -> False) as Hdead.
    { intros id x (l & p & pe & Hg & Hp) Hx Hl. pose proof (kills_alive T _ _ _ _ _ id Hnd Hk) as Ha.
      assert (vlive (mview m1) id) as Hv. { unfold vlive, mview. rewrite mv_lookup, Hx. cbn. eexists. split; [done|]. done. }
      apply Ha in Hv as [_ Hv]. apply (Hv l p); [|exact Hg|unfold pid; by rewrite Hp]. by apply map_get_in, (in_map fst) in Hg. }
    unfold span, points_to. split.
    - intros [->|(id & i & a & (pe & a' & Hp & Ha & Hl & Had) & Ha' & Hn & Hb)]; [by split; left|].
      assert (~ frame_owns f id) as Hno by (intros Hfo; exact (Hdead _ _ Hfo Ha Hl)).
      specialize (Hsame _ Hno). unfold mview in Hsame. rewrite !mv_lookup, Ha in Hsame. cbn in Hsame.
      destruct (cm_mem (m_mem m) !! id) as [b|] eqn:Eb; [|done]. cbn in Hsame. injection Hsame as S1 S2 S3 S4 S5.
      rewrite Ha in Ha'. injection Ha' as <-. split; [right|right; intros id' pe' Hp'; rewrite Hp in Hp'; by injection Hp' as <- _].
      exists id, i, b. split; [exists pe, b; repeat split; congruence|]. split; [done|]. unfold al_size in *. split; [done|lia].
    - intros [[->|(id & i & a & (pe & a' & Hp & Ha & Hl & Had) & Ha' & Hn & Hb)] Ho]; [by left|].
      destruct Ho as [Hz|Ho]; [by left|]. specialize (Hsame _ (Ho _ _ Hp)). unfold mview in Hsame. rewrite !mv_lookup, Ha in Hsame. cbn in Hsame.
      destruct (cm_mem (m_mem m1) !! id) as [b|] eqn:Eb; [|done]. cbn in Hsame. injection Hsame as S1 S2 S3 S4 S5.
      rewrite Ha in Ha'. injection Ha' as <-. right. exists id, i, b. split; [exists pe, b; repeat split; congruence|]. split; [done|]. unfold al_size in *. split; [done|lia].
  Qed.
  Lemma end_safe (mem : ConcMem M) e : safely (cm_end_call MO mem e) (fun mem' => mv (cm_mem mem') = mv (cm_mem mem)).
  Proof. done. Qed.
  Lemma top_unique m f g : top_frame m f -> top_frame m g -> f = g.
  Proof. rewrite !top_frame_cur. congruence. Qed.
  Lemma local_aligned prog m f l p ty al : minv T prog m -> top_frame m f -> map_get (f_locals f) l = Some p ->
    map_get (fn_locals (f_func f)) l = Some ty -> align_of T ty = Ret al -> aligned p al.
  Proof.
    intros Hi Hf Hp Hty Hal. pose proof (top_locals T prog m f Hi Hf) as [Hlo _]. apply map_get_in in Hp.
    destruct (proj1 (List.Forall_forall _ _) Hlo _ Hp) as (id & pe & ty' & s' & a' & Hpr & Hty' & Hs' & Ha' & Hv). cbn [fst snd] in *. cbn in Hty'.
    rewrite Hty in Hty'. injection Hty' as <-. rewrite Hal in Ha'. injection Ha' as <-.
    destruct (oi_fit _ _ _ _ (mi_own _ _ _ Hi)) as [Hfit _]. destruct (Hfit _ _ Hv) as (_ & Ha & _). done.
  Qed.

  Lemma j_return prog m cs : minv T prog m -> (forall f, top_frame m f -> fn_ok T prog (f_func f)) ->
    judge False (eval_terminator T MO TmReturn m cs) (return_allowed T m) (fun _ => return_allowed T m).
  Proof.
    intros Hi Hok. cbn [eval_terminator]. eapply judge_seq; [apply j_pop|done|]. intros [f m1] _ (t & s & Ht & Hs & Em1 & Hf). cbn [fst snd] in *.
    apply judge_drop_unwrap. intros ty Hty. apply judge_drop; [apply align_of_safe|]. intros al Hal. apply judge_drop_unwrap. intros p Hp.
    destruct (fo_locals _ _ _ (Hok _ Hf) _ _ Hty) as [Hw Hsz].
    assert (forall v, readable T m1 p ty v <-> readable T m p ty v) as Hrd by (subst m1; done).
    assert (aligned p al) as Hpa by (by eapply local_aligned).
    eapply judge_seq; [apply (j_typed_load T Tok m1 m1); apply still_refl| |].
    { intros (f' & p' & ty' & v & Hf' & Hp' & Hty' & Hv & _). pose proof (top_unique _ _ _ Hf Hf') as <-. split; [|done]. exists v. apply Hrd. congruence. }
    intros [v m2] _ (Hv & _ & Hst & Hun). cbn [fst snd] in *. apply Hrd in Hv.
    eapply judge_seq; [eapply (j_dealloc prog m f Hi Hf); destruct Hst as [_ [Hq _]]; change (mview m2 = mview m); rewrite Hq; by subst m1|done|].
    intros [f' mem] _ [Hk [ls Hls]]. cbn [fst snd] in *. subst f'. cbn [f_extra f_action with_locals].
    apply judge_drop; [eapply safely_mono; [apply end_safe|done]|]. intros mem' He. injection He as <-.
    set (m3 := set_mem m2 _). assert (exists f', iterl (kill (PE := unit) T) (fl (fctl f)) (mview m) (List.map fst (f_locals f)) f' (mview m3)) as Hk3 by (eexists; exact Hk).
    assert (forall q, has_space T m3 q ty <-> has_space T m q ty /\ (size_of T ty = Ret 0%N \/ forall id pe, tp_prov q = Some (id, pe) -> ~ frame_owns f id)) as Hspace.
    { intros q. split.
      - intros (n & Hn & Hsp). apply (span_kills prog m m3 f q _ Hi Hf Hk3) in Hsp as [Hsp Ho]. split; [by exists n|].
        destruct Ho as [Hz|Ho]; [left; rewrite Hn; f_equal; lia|by right].
      - intros [(n & Hn & Hsp) Ho]. exists n. split; [done|]. apply (span_kills prog m m3 f q _ Hi Hf Hk3). split; [done|].
        destruct Ho as [Hz|Ho]; [left; rewrite Hn in Hz; injection Hz as ->; done|by right]. }
    assert (m_active m3 = m_active m) as Hact.
    { subst m3. cbn. destruct Hst as [Hsm _]. pose proof (same_active _ _ Hsm) as Hx. rewrite Hx. by subst m1. }
    destruct (f_action f) as [|nb ub q] eqn:Eact.
    - unfold terminate_active_thread. rewrite Hact. destruct (m_active m =? 0)%nat eqn:E0.
      { cbn. intros (g & p' & ty' & v' & Hg & _ & _ & _ & Ha). pose proof (top_unique _ _ _ Hf Hg) as <-. rewrite Eact in Ha. lia. }
      apply (judge_bind False _ _ _ (fun _ => return_allowed T m)); [|done]. apply judge_drop; [apply active_safe|]. intros t' _.
      apply judge_drop; [by destruct (t_stack t')|]. intros ? _. cbn. exists f, p, ty, v. rewrite Eact. do 4 (split; [done|]). lia.
    - apply judge_drop; [apply active_safe|]. intros t' _. apply judge_drop; [by destruct (t_stack t')|]. intros ? _.
      eapply judge_seq; [eapply (j_typed_store T Tok); [exact Hw|by apply sized_tsize]| |].
      { intros (g & p' & ty' & v' & Hg & _ & Hty' & _ & Ha). pose proof (top_unique _ _ _ Hf Hg) as <-. rewrite Hty in Hty'. injection Hty' as <-.
        rewrite Eact in Ha. destruct Ha as (_ & Ha1 & (al' & Ha2 & Ha3) & Ha4). rewrite Hal in Ha2. injection Ha2 as <-. split; [|done]. by apply Hspace. }
      intros m4 _ (Hsp & Hqa & _). apply Hspace in Hsp as [Hsp Ho]. destruct nb as [b|].
      + apply judge_drop; [apply jump_safe|]. intros m5 _. cbn. exists f, p, ty, v. rewrite Eact. do 4 (split; [done|]). split; [done|]. split; [done|]. split; [|done].
        by exists al.
      + cbn. intros (g & p' & ty' & v' & Hg & _ & _ & _ & Ha). pose proof (top_unique _ _ _ Hf Hg) as <-. rewrite Eact in Ha. by destruct Ha as [? _].
  Qed.

  Lemma j_resume prog m cs : minv T prog m ->
    judge False (eval_terminator T MO TmResumeUnwind m cs) (term_allowed T m TmResumeUnwind) (fun _ => term_allowed T m TmResumeUnwind).
  Proof.
    intros Hi. cbn [eval_terminator term_allowed]. eapply judge_seq; [apply j_pop|done|]. intros [f m1] _ (t & s & Ht & Hs & Em1 & Hf). cbn [fst snd] in *.
    eapply judge_seq; [eapply (j_dealloc prog m f Hi Hf); by subst m1|done|]. intros [f' mem] _ [_ [ls Hls]]. cbn [fst snd] in *. subst f'. cbn [f_extra f_action with_locals].
    apply judge_drop; [eapply safely_mono; [apply end_safe|done]|]. intros mem' _. destruct (f_action f) as [|nb [b|] q] eqn:Eact.
    - cbn. intros (g & nb & b & q & Hg & Ha). pose proof (top_unique _ _ _ Hf Hg) as <-. congruence.
    - apply judge_drop; [apply jump_safe|]. intros m5 _. cbn. by exists f, nb, b, q.
    - cbn. intros (g & nb' & b & q' & Hg & Ha). pose proof (top_unique _ _ _ Hf Hg) as <-. congruence.
  Qed.

  (** ** Places that lose their contents *)

  Lemma erase_still m m1 m' p n al : still m m1 -> deinit MO m1 p n al = Ret m' -> still (erased m p (N.to_nat n)) m'.
  Proof.
    intros [Hsm [Hv Hd]] E. unfold deinit in E. apply obind_ret in E as (mem & E & Em). injection Em as <-.
    rewrite list_repeat_std in E. unfold cm_store in E. apply obind_ret in E as (mem' & E & Em). injection Em as <-. cbn in E.
    apply bm_store_ret in E as [_ E]. unfold erased. set (U := repeat Uninit (N.to_nat n)) in *.
    assert (same m (set_mem m1 (mkConc mem' (cm_accesses (m_mem m1))))) as Hs1 by done.
    destruct E as [[E ->]|(Hne & id & pe & off & a & ae & data & Hp & Ha & Hl & Hin & Hoff & _ & Hw & ->)].
    - assert (N.to_nat n = 0%nat) as En by (subst U; by destruct (N.to_nat n)). assert (mview m1 = mview m /\ mdata m1 = mdata m) as Hvd by done. subst U. clear E. rewrite En.
      destruct (tp_prov p) as [[id pe]|] eqn:Hp; [|by split]. destruct (cm_mem (m_mem m) !! id) as [a|] eqn:Ha; [|by split].
      split; [done|]. split; unfold mview, mdata; cbn [cm_mem m_mem set_mem cm_set].
      + rewrite (mv_insert_same _ _ a) by (done || unfold view, al_size; cbn; by rewrite Nat.add_0_r, take_drop). exact Hv.
      + rewrite (md_insert_same _ _ a) by (done || cbn; by rewrite Nat.add_0_r, take_drop). exact Hd.
    - rewrite Hp. pose proof Hv as Hv'. unfold mview in Hv'. pose proof (f_equal (lookup id) Hv') as Hvi. rewrite !mv_lookup, Ha in Hvi.
      destruct (cm_mem (m_mem m) !! id) as [b|] eqn:Hb; [|done]. cbn in Hvi. injection Hvi as V1 V2 V3 V4 V5.
      pose proof (f_equal (lookup id) Hd) as Hdi. unfold mdata in Hdi. rewrite !md_lookup, Ha, Hb in Hdi. cbn in Hdi. injection Hdi as D.
      apply write_subslice_ret in Hw as Hw'. destruct Hw' as [Hlen Hdata]. subst U. rewrite repeat_length in Hlen, Hdata.
      assert (Z.to_nat (tp_addr p - al_addr b) = N.to_nat off) as Ei by lia. rewrite Ei. rewrite <-D.
      assert (data = take (N.to_nat off) (al_data a) ++ repeat Uninit (N.to_nat n) ++ drop (N.to_nat off + N.to_nat n) (al_data a)) as -> by exact Hdata.
      split; [done|]. split; unfold mview, mdata; cbn [cm_mem m_mem set_mem cm_set].
      + rewrite !mv_insert. unfold view, al_size. cbn. unfold mview in Hv. rewrite Hv, V1, V3, V4, V5. done.
      + rewrite !md_insert. cbn. unfold mdata in Hd. by rewrite Hd.
  Qed.
  Lemma j_prepare m m1 pl ty : still m m1 ->
    judge False (prepare_for_inplace_passing T MO m1 pl ty) (has_space T m (p_thin (pl_ptr pl)) ty /\ aligned_for T (p_thin (pl_ptr pl)) ty)
      (fun m' => exists s, size_of T ty = Ret s /\ span m (p_thin (pl_ptr pl)) (Z.of_N s) /\ aligned_for T (p_thin (pl_ptr pl)) ty /\
         still (erased m (p_thin (pl_ptr pl)) (N.to_nat s)) m').
  Proof.
    intros Hst. unfold prepare_for_inplace_passing. apply judge_drop; [apply size_of_safe|]. intros s Hs.
    apply judge_drop; [apply align_of_safe|]. intros al Hal. eapply judge_weak; [apply (j_deinit T m1)|done| |].
    - intros [(s' & Hs' & Hsp) (al' & Hal' & Ha)]. rewrite Hs in Hs'. injection Hs' as <-. rewrite Hal in Hal'. injection Hal' as <-.
      split; [|done]. apply (span_view m); [apply Hst|done].
    - intros m' E (Hsp & Ha & _). exists s. split; [done|]. split; [by apply (span_view m m1) in Hsp; [|apply Hst]|]. split; [by exists al|]. by eapply erase_still.
  Qed.
  Lemma erased_same m p n : same m (erased m p n).
  Proof. unfold erased. destruct (tp_prov p) as [[id pe]|]; [|done]. by destruct (_ !! id). Qed.
  Lemma erased_vt m p n : unique_vtables m -> unique_vtables (erased m p n).
  Proof. unfold erased. destruct (tp_prov p) as [[id pe]|]; [|done]. by destruct (_ !! id). Qed.
  Lemma erased_fn m p n v f : designates (erased m p n) v f <-> designates m v f.
  Proof. unfold erased. destruct (tp_prov p) as [[id pe]|]; [|done]. by destruct (_ !! id). Qed.
  Lemma erased_view m m1 p n : still (erased m p n) m1 -> forall s, n = N.to_nat s -> span m p (Z.of_N s) -> mview m1 = mview m.
  Proof.
    intros [_ [Hv _]] s -> Hsp. rewrite Hv. unfold erased. destruct Hsp as [Hz|(id & i & a & (pe & a' & Hp & Ha & Hl & Had) & Ha' & Hn & Hb)].
    - destruct (tp_prov p) as [[id pe]|]; [|done]. destruct (_ !! id) as [a|] eqn:Ha; [|done]. unfold mview. cbn.
      apply (mv_insert_same _ _ a); [done|]. unfold view, al_size. cbn. replace (N.to_nat s) with 0%nat by lia. cbn. by rewrite Nat.add_0_r, take_drop.
    - rewrite Hp, Ha. rewrite Ha in Ha'. injection Ha' as <-. unfold mview. cbn. apply (mv_insert_same _ _ a'); [done|]. unfold view, al_size in *. cbn.
      f_equal. rewrite !app_length, repeat_length, take_length, drop_length. lia.
  Qed.

  (** ** Arguments *)

  Lemma j_arguments args : forall m m1, unique_vtables m -> still m m1 ->
    judge False (map_st (eval_argument T MO) args m1) (exists vals, args_allowed T m args vals)
      (fun r => args_allowed T m args (fst r) /\ (forall vals, args_allowed T m args vals -> vals = fst r) /\
         same m (snd r) /\ mview (snd r) = mview m).
  Proof.
    induction args as [|a args IH]; intros m m1 Hu Hst; cbn [map_st].
    { cbn. split; [constructor|]. split; [by inversion 1|]. destruct Hst as [? [? _]]. done. }
    destruct a as [e|p]; cbn [eval_argument].
    - eapply judge_seq; [by apply (j_value T Tok m m1 e)|intros [vals Ha]; inversion Ha; subst; by eexists _, _|].
      intros [[v ty] m2] _ (Hst2 & Hv & Hvu). cbn [fst snd] in *.
      eapply judge_seq; [by apply (IH m m2)|intros [vals Ha]; inversion Ha; subst; by eexists|].
      intros [vals m3] _ (Hvs & Hvsu & Hq). cbn [fst snd] in *. cbn. split; [by constructor|]. split; [|done].
      intros vals' Ha. inversion Ha as [|e' r v' ty' vs Hv' Hr|]; subst. destruct (Hvu _ _ Hv') as [-> ->]. f_equal. by apply Hvsu.
    - eapply (judge_bind False _ _ _ (fun r => exists ptr s, place_means T m p ptr true (snd (fst r)) /\
          (forall ptr' b ty, place_means T m p ptr' b ty -> ptr' = ptr /\ b = true /\ ty = snd (fst r)) /\
          readable T m (p_thin ptr) (snd (fst r)) (fst (fst r)) /\ (forall v, readable T m (p_thin ptr) (snd (fst r)) v -> v = fst (fst r)) /\
          size_of T (snd (fst r)) = Ret s /\ aligned_for T (p_thin ptr) (snd (fst r)) /\ span m (p_thin ptr) (Z.of_N s) /\ still (erased m (p_thin ptr) (N.to_nat s)) (snd r))).
      + eapply judge_seq; [by apply (j_place T Tok m m1 p)|intros [vals Ha]; inversion Ha; subst; by eexists _, _, _|].
        intros [[pl ty] m2] _ (Hst2 & Hp & Hpu). cbn [fst snd] in *.
        eapply judge_seq; [by apply (j_place_load T Tok m m2 pl ty)| |].
        { intros [vals Ha]. inversion Ha as [| |p' r ptr ty' s v vs H1 H2 H3 H4 H5]; subst. destruct (Hpu _ _ _ H1) as (-> & <- & ->). split; [done|by exists v]. }
        intros [v m3] _ (Ea & Hv & Hst3 & Hvu). cbn [fst snd] in *. rewrite Ea in *.
        eapply judge_seq; [by apply (j_prepare m m3 pl ty)| |].
        { intros [vals Ha]. inversion Ha as [| |p' r ptr ty' s v' vs H1 H2 H3 H4 H5]; subst. destruct (Hpu _ _ _ H1) as (-> & _ & ->). split; [|done].
          destruct Hv as [(bs & Hb & Hsa & _) _]. eexists. split; [exact Hb|]. apply stores_span in Hsa. by rewrite nat_N_Z. }
        intros m4 _ (s & Hs & Hsp & Hal & Hst4). cbn. by eexists _, s.
      + intros [[v ty] m2] _ (ptr & s & Hp & Hpu & Hv & Hvu & Hs & Hal & Hsp & Hst2). cbn [fst snd] in *.
        eapply judge_seq; [apply (IH (erased m (p_thin ptr) (N.to_nat s)) m2); [by apply erased_vt|done]| |].
        { intros [vals Ha]. inversion Ha as [| |p' r ptr' ty' s' v' vs H1 H2 H3 H4 H5]; subst. destruct (Hpu _ _ _ H1) as (-> & _ & ->).
          rewrite Hs in H4. injection H4 as <-. by eexists. }
        intros [vals m3] _ (Hvs & Hvsu & Hq1 & Hq2). cbn [fst snd] in *. cbn. split; [by econstructor|]. split.
        * intros vals' Ha. inversion Ha as [| |p' r ptr' ty' s' v' vs H1 H2 H3 H4 H5]; subst. destruct (Hpu _ _ _ H1) as (-> & _ & ->).
          rewrite Hs in H4. injection H4 as <-. rewrite (Hvu _ H2). f_equal. by apply Hvsu.
        * split; [eapply same_trans; [apply erased_same|exact Hq1]|]. rewrite Hq2. by eapply erased_view; [apply still_refl| |].
  Qed.

  (** ** Calls *)

  Lemma same_fnptrs m m1 : same m m1 -> m_fnptrs m1 = m_fnptrs m.
  Proof. unfold same. intros E. by injection E. Qed.
  Lemma j_fn m m1 v : unique_fns m -> same m m1 ->
    judge False (fn_from_ptr m1 v) (exists func, designates m v func) (fun func => designates m v func /\ forall func', designates m v func' -> func' = func).
  Proof.
    intros Hu Hsm. unfold fn_from_ptr, designates.
    destruct v as [|b|[thin [me|]]| | |]; try (by intros (? & ? & ? & [=] & _)).
    rewrite (same_fnptrs _ _ Hsm), (same_prog _ _ Hsm). destruct (List.find _ _) as [[n q]|] eqn:Ef.
    - apply find_some in Ef as [Hin Hq]. cbn [snd fst] in *. apply bool_decide_eq_true in Hq as ->.
      apply judge_unwrap. intros func Hg. split; [by exists n, thin|]. intros func' (n' & p' & [= <-] & Hin' & Hg').
      rewrite (Hu _ _ _ Hin' Hin) in Hg'. congruence.
    - intros (func & n & p & [= <-] & Hin & _). pose proof (find_none _ _ Ef _ Hin) as Hx. cbn in Hx. by rewrite bool_decide_eq_true_2 in Hx.
  Qed.

  Lemma j_lives prog func f0 rest l : fn_ok T prog func -> forall (f : StackFrame P unit) mem cs, f_func f = func ->
    owns T (mv (cm_mem mem)) (fl (fctl f) :: rest) -> (exists ls, f = with_locals f0 ls) ->
    judge False (fold_m (fun '(f, mem, cs) local => storage_live T MO f mem local cs) l (f, mem, cs)) True
      (fun r => exists ls, fst (fst r) = with_locals f0 ls).
  Proof.
    intros Hok. induction l as [|x l IH]; intros f mem cs Hf Ho [ls Hls]; cbn [fold_m]; [cbn; by exists ls|].
    eapply judge_seq; [apply (j_storage_live T Tok prog); [by rewrite Hf|by apply (Forall_inv (ow_locals _ _ _ Ho))]|done|].
    intros [[f1 mem1] cs1] _ [Hk [ls1 Hf1]]. cbn [fst snd] in *. apply (IH f1 mem1 cs1); [by rewrite Hf1|by eapply live_owns|exists ls1; by rewrite Hf1, Hls].
  Qed.
  Lemma j_expect {A} (o : Outcome A) (C Q : Prop) : Q -> judge False (expect_ok o) C (fun _ => Q).
  Proof. by destruct o. Qed.
  Lemma j_abi a b : judge False (check_abi_compatibility a b) (check_abi_compatibility a b = Ret true) (fun _ => True).
  Proof. pose proof (ub_abi a b) as Hu. destruct (check_abi_compatibility a b) as [x|t| |]; try done. by destruct (Hu t eq_refl) as [msg ->]. Qed.

  Lemma j_pass func (f : StackFrame P unit) : forall ls (args : list (Value P * Ty)) m, length ls = length args ->
    judge False (fold_m2 (fun m callee_local arg =>
          let! ty := unwrap (map_get (fn_locals func) callee_local) in
          let! ok := check_abi_compatibility (snd arg) ty in
          if negb ok then throw_ub "call ABI violation: argument types are not compatible" else
          let! align := align_of T (snd arg) in
          let! ptr := unwrap (map_get (f_locals f) callee_local) in
          expect_ok (typed_store T MO m ptr (fst arg) (snd arg) align NonAtomic)) ls args m)
      (Forall2 (fun l ty => exists lt, map_get (fn_locals func) l = Some lt /\ check_abi_compatibility ty lt = Ret true) ls (List.map snd args))
      (fun _ => Forall2 (fun l ty => exists lt, map_get (fn_locals func) l = Some lt /\ check_abi_compatibility ty lt = Ret true) ls (List.map snd args)).
  Proof.
    induction ls as [|l ls IH]; intros [|[v ty] args] m Hlen; try done; cbn [fold_m2]; [constructor|]. cbn [List.map snd fst].
    apply (judge_bind False _ _ _ (fun _ => exists lt, map_get (fn_locals func) l = Some lt /\ check_abi_compatibility ty lt = Ret true)).
    - apply judge_drop_unwrap. intros lt Hlt. eapply judge_seq; [apply j_abi|intros HF; inversion HF as [|? ? ? ? (lt' & Hlt' & Ha) _]; subst; congruence|].
      intros [] Eok _; cbn [negb].
      + apply judge_drop; [apply align_of_safe|]. intros al _. apply judge_drop_unwrap. intros q _. apply j_expect. by exists lt.
      + cbn. intros HF. inversion HF as [|? ? ? ? (lt' & Hlt' & Ha) _]; subst. congruence.
    - intros m1 _ Hl. eapply judge_weak; [apply IH; by injection Hlen|done|by inversion 1|]. intros m2 _ HF. by constructor.
  Qed.
  Lemma j_create_frame prog m rest func action conv rty (args : list (Value P * Ty)) cs : fn_ok T prog func -> owns (PE := unit) T (mview m) rest ->
    judge False (create_frame T MO m func action conv rty args cs) (accepts func conv rty (List.map snd args)) (fun _ => accepts func conv rty (List.map snd args)).
  Proof.
    intros Hok Ho. unfold create_frame. eapply judge_seq; [eapply (j_lives prog func (mkFrame func [] action (fn_start func) 0 (mo_new_call MO)) rest); [done|done|by apply owns_empty|by exists []]|done|].
    intros [[f mem] cs1] _ _. destruct (bool_decide_reflect (conv = fn_conv func)) as [->|Hc]; cbn [negb]; [|cbn; intros (He & _); by rewrite He in Hc].
    apply judge_drop_unwrap. intros rt Hrt.
    eapply judge_seq; [apply j_abi|intros (_ & (rt' & Hrt' & Ha) & _); congruence|].
    intros [] Eok _; cbn [negb]; [|cbn; intros (_ & (rt' & Hrt' & Ha) & _); congruence].
    destruct (length (fn_args func) =? length args)%nat eqn:El; cbn [negb].
    2: { cbn. intros (_ & _ & HF). apply Forall2_length in HF. rewrite map_length in HF. lia. }
    apply Nat.eqb_eq in El. eapply judge_seq; [apply j_pass; exact El|by intros (_ & _ & ?)|]. intros m1 _ HF. cbn. split; [done|]. split; [by exists rt|done].
  Qed.

  Lemma j_call prog m callee conv args ret nb ub cs : minv T prog m -> unique_vtables m -> unique_fns m ->
    (forall n func, map_get (pr_functions prog) n = Some func -> fn_ok T prog func) ->
    judge False (eval_terminator T MO (TmCall callee conv args ret nb ub) m cs) (call_allowed T m callee conv args ret)
      (fun _ => call_allowed T m callee conv args ret).
  Proof.
    intros Hi Hu Huf Hfns. cbn [eval_terminator]. pose proof (still_refl m) as Hst.
    eapply judge_seq; [by apply (j_place T Tok m m ret)|intros (? & ? & ? & ? & ? & ? & ? & ? & Hp & _); by eexists _, _, _|].
    intros [[pl rty] m1] _ (Hst1 & Hp & Hpu). cbn [fst snd] in *.
    eapply judge_seq; [by apply (j_prepare m m1 pl rty)| |].
    { intros (rptr & al & rty' & rs & fv & fty & func & vals & Hp' & Hs & Hsp & Ha & _). destruct (Hpu _ _ _ Hp') as (-> & _ & ->). split; [by exists rs|done]. }
    intros m2 _ (rs & Hs & Hsp & Hal & Hst2). set (p := p_thin (pl_ptr pl)) in *. set (me := erased m p (N.to_nat rs)) in *.
    assert (unique_vtables me) as Hue by (by apply erased_vt).
    assert (forall al' rptr rty' rs', place_means T m ret rptr al' rty' -> size_of T rty' = Ret rs' -> rptr = pl_ptr pl /\ rty' = rty /\ rs' = rs) as Hsame.
    { intros al' rptr rty' rs' Hp' Hs'. destruct (Hpu _ _ _ Hp') as (-> & _ & ->). rewrite Hs in Hs'. by injection Hs' as <-. }
    eapply judge_seq; [by apply (j_value T Tok me m2 callee)| |].
    { intros (rptr & al & rty' & rs' & fv & fty & func & vals & Hp' & Hs' & _ & _ & Hv & _). destruct (Hsame _ _ _ _ Hp' Hs') as (-> & -> & ->). by eexists _, _. }
    intros [[fv fty] m3] _ (Hst3 & Hfv & Hfvu). cbn [fst snd] in *.
    assert (unique_fns me) as Hufe. { subst me. unfold erased. destruct (tp_prov p) as [[id pe]|]; [|done]. by destruct (_ !! id). }
    eapply judge_seq; [by apply (j_fn me m3 fv); [|apply Hst3]| |].
    { intros (rptr & al & rty' & rs' & fv' & fty' & func & vals & Hp' & Hs' & _ & _ & Hv & Hd & _). destruct (Hsame _ _ _ _ Hp' Hs') as (-> & -> & ->).
      destruct (Hfvu _ _ Hv) as [-> _]. by eexists. }
    intros func _ [Hd Hdu]. eapply judge_seq; [by apply (j_arguments args me m3)| |].
    { intros (rptr & al & rty' & rs' & fv' & fty' & func' & vals & Hp' & Hs' & _ & _ & Hv & _ & Ha & _). destruct (Hsame _ _ _ _ Hp' Hs') as (-> & -> & ->). by eexists. }
    intros [vals m4] _ (Hva & Hvau & Hsm & Hview). cbn [fst snd] in *. unfold eval_call.
    assert (fn_ok T prog func) as Hok.
    { destruct Hd as (n & q & _ & _ & Hg). apply (Hfns n). rewrite <-(mi_prog _ _ _ Hi). rewrite <-Hg. subst me. by rewrite (same_prog _ _ (erased_same m p (N.to_nat rs))). }
    eapply judge_seq; [eapply (j_create_frame prog m4 _ func); [done|]| |].
    - rewrite Hview. subst me. rewrite (erased_view _ _ _ _ (still_refl _) rs eq_refl Hsp). apply (oi_owns _ _ _ _ (mi_own _ _ _ Hi)).
    - intros (rptr & al & rty' & rs' & fv' & fty' & func' & vals' & Hp' & Hs' & _ & _ & Hv & Hd' & Ha & Hacc). destruct (Hsame _ _ _ _ Hp' Hs') as (-> & -> & ->).
      destruct (Hfvu _ _ Hv) as [-> _]. rewrite (Hdu _ Hd') in Hacc. by rewrite (Hvau _ Ha) in Hacc.
    - intros [[f m5] cs5] _ Hacc. apply judge_drop; [apply active_safe|]. intros t _. cbn.
      exists (pl_ptr pl), (pl_aligned pl), rty, rs, fv, fty, func, vals. done.
  Qed.
End Term.
