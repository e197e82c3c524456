(** The basic memory model: a step is undefined behaviour exactly if it is not allowed. Memory, expressions, and
    statements. *)
From Verif Require Export UbTyped MeanProofs StopProofs SafeStmt OwnReach.
From Verif Require Export DataSpec ExprSpec UbSpec.
Local Open Scope Z_scope.
From Coq Require Import ZifyBool ZifyN ZifyNat.

(** [o] is undefined behaviour only if [C] does not hold, ends the execution otherwise only if [E] holds, and results
    meet [Q] *)
Definition judge {A} (E : Prop) (o : Outcome A) (C : Prop) (Q : A -> Prop) : Prop :=
  match o with Ret a => Q a | Stop (TUb _) => ~ C | Stop _ => E | Panic | NoBehavior => True end.

Section Judge.
  Context {A B : Type}.
  Implicit Types o : Outcome A.
  Lemma judge_bind E o (k : A -> Outcome B) C Q R : judge E o C Q -> (forall a, o = Ret a -> Q a -> judge E (k a) C R) -> judge E (obind o k) C R.
  Proof. destruct o as [a|t| |]; cbn; auto. Qed.
  Lemma judge_weak (E E' : Prop) o (C C' : Prop) (Q Q' : A -> Prop) : judge E o C Q -> (E -> E') -> (C' -> C) -> (forall a, o = Ret a -> Q a -> Q' a) -> judge E' o C' Q'.
  Proof. destruct o as [a|t| |]; cbn; auto. destruct t; cbn; tauto. Qed.
  Lemma judge_seq (E : Prop) o (k : A -> Outcome B) (C C' : Prop) Q R : judge False o C Q -> (C' -> C) ->
    (forall a, o = Ret a -> Q a -> judge E (k a) C' R) -> judge E (obind o k) C' R.
  Proof. intros H1 H2 H3. eapply judge_bind; [|exact H3]. eapply judge_weak; [exact H1|done|done|auto]. Qed.
  Lemma judge_ret E a C (Q : A -> Prop) : Q a -> judge E (Ret a) C Q.
  Proof. done. Qed.
  Lemma judge_ub E msg C (Q : A -> Prop) : ~ C -> judge E (throw_ub msg) C Q.
  Proof. done. Qed.
  Lemma judge_safely o (C : Prop) Q : safely o Q -> judge False o C Q.
  Proof. by destruct o as [a|t| |]. Qed.
  Lemma judge_unwrap E (x : option A) C (Q : A -> Prop) : (forall a, x = Some a -> Q a) -> judge E (unwrap x) C Q.
  Proof. destruct x; cbn; auto. Qed.
  Lemma judge_drop E o (k : A -> Outcome B) C R : safely o (fun _ => True) -> (forall a, o = Ret a -> judge E (k a) C R) -> judge E (obind o k) C R.
  Proof. destruct o as [a|t| |]; cbn; auto; done. Qed.
  Lemma judge_drop_unwrap E (x : option A) (k : A -> Outcome B) C R : (forall a, x = Some a -> judge E (k a) C R) -> judge E (obind (unwrap x) k) C R.
  Proof. destruct x; cbn; auto. Qed.
End Judge.

Lemma align_of_safe T ty : safely (align_of T ty) (fun _ => True).
Proof. unfold align_of. apply safely_bind. eapply safely_mono; [apply layout_safe|]. intros l _ _. by destruct l. Qed.
Lemma encode_int_safe {P} T it x : safely (@encode_int P T it x) (fun _ => True).
Proof. unfold encode_int. apply safely_bind, safely_unwrap. intros. done. Qed.

Section Ub.
  Context `{EqDecision (nat * unit)}.
  Variable T : Target.
  Hypothesis Tok : target_ok T.
  Notation P := (nat * unit)%type.
  Notation M := (BMem unit unit).
  Notation Mach := (Machine P unit M).
  Notation MO := (BasicOps T).
  Implicit Types m : Mach.
  Let BL := basic_like T.
  Notation wfT ty := (ty_check_wf T any_trait ty = Ret tt).
  Notation aligned p al := (tp_addr p mod Z.of_N (align_bytes al) = 0).

  Lemma basic_dest (mem : M) f ptr pt fe lk q mem' f' : mo_retag MO mem f ptr pt fe lk = Ret (q, mem', f') -> same_dest ptr q.
  Proof. cbn. by intros [= <- _ _]. Qed.

  Definition unique_vtables m : Prop := forall n n' p, In (n, p) (m_vtptrs m) -> In (n', p) (m_vtptrs m) -> n = n'.
  Definition unique_fns m : Prop := forall n n' p, In (n, p) (m_fnptrs m) -> In (n', p) (m_fnptrs m) -> n = n'.

  (** ** Expressions *)

  Lemma j_value m m1 e : unique_vtables m -> still m m1 ->
    judge False (eval_value T MO e m1) (exists v ty, value_means T m e v ty)
      (fun r => still m (snd r) /\ value_means T m e (fst (fst r)) (snd (fst r)) /\
         forall v ty, value_means T m e v ty -> v = fst (fst r) /\ ty = snd (fst r)).
  Proof.
    intros Hu Hst. destruct (eval_defined T Tok m Hu) as (Hd & _ & _).
    pose proof (ub_eval_value T MO (basic_ub T) e m1) as Hub.
    destruct (eval_value T MO e m1) as [[[v ty] m2]|t| |] eqn:E; cbn; try done.
    - destruct (value_meaning T MO BL Tok basic_dest _ _ _ _ _ _ Hst E) as [Hm Hst2]. split; [done|]. split; [done|].
      intros v' ty' Hv. specialize (Hd _ _ _ Hv m1 Hst). rewrite E in Hd. destruct Hd as [[= <- <-] _]. done.
    - destruct (Hub t eq_refl) as [msg ->]. intros (v & ty & Hv). specialize (Hd _ _ _ Hv m1 Hst). by rewrite E in Hd.
  Qed.
  Lemma j_place m m1 p : unique_vtables m -> still m m1 ->
    judge False (eval_place T MO p m1) (exists ptr b ty, place_means T m p ptr b ty)
      (fun r => still m (snd r) /\ place_means T m p (pl_ptr (fst (fst r))) (pl_aligned (fst (fst r))) (snd (fst r)) /\
         forall ptr b ty, place_means T m p ptr b ty -> ptr = pl_ptr (fst (fst r)) /\ b = pl_aligned (fst (fst r)) /\ ty = snd (fst r)).
  Proof.
    intros Hu Hst. destruct (eval_defined T Tok m Hu) as (_ & _ & Hd).
    pose proof (ub_eval_place T MO (basic_ub T) p m1) as Hub.
    destruct (eval_place T MO p m1) as [[[pl ty] m2]|t| |] eqn:E; cbn; try done.
    - destruct (place_meaning T MO BL Tok basic_dest _ _ _ _ _ _ Hst E) as [Hm Hst2]. split; [done|]. split; [done|].
      intros ptr b ty' Hv. specialize (Hd _ _ _ _ Hv m1 Hst). rewrite E in Hd. destruct Hd as [[= -> <-] _]. done.
    - destruct (Hub t eq_refl) as [msg ->]. intros (ptr & b & ty & Hv). specialize (Hd _ _ _ _ Hv m1 Hst). by rewrite E in Hd.
  Qed.

  (** ** Memory *)

  Lemma j_check m p n : judge False (bm_check_ptr (cm_mem (m_mem m)) p n) (span m p (Z.of_N n)) (fun _ => span m p (Z.of_N n)).
  Proof.
    pose proof (deref_span T MO BL m p n tt) as H1. pose proof (span_deref T MO BL m p n) as H2. unfold cm_deref in *.
    rewrite (bl_deref _ _ BL) in *. destruct (bm_check_ptr _ p n) as [o|t| |] eqn:E; cbn [obind judge] in *; auto.
    assert (exists msg, t = TUb msg) as [msg ->]; [|intros Hs; by specialize (H2 Hs)].
    revert E. unfold bm_check_ptr. destruct (n =? 0)%N; [done|]. destruct (tp_prov p) as [[id pe]|]; [|intros [= <-]; by eexists].
    destruct (_ !! id); [|done]. cbn [unwrap obind]. destruct (negb _); [intros [= <-]; by eexists|]. destruct (_ || _); [intros [= <-]; by eexists|].
    by destruct (size_from_bytes _).
  Qed.
  Lemma j_cm_store m p bs al at_ :
    judge False (cm_store MO (m_mem m) p bs al at_) (span m p (Z.of_nat (length bs)) /\ aligned p al)
      (fun mem => span m p (Z.of_nat (length bs)) /\ aligned p al).
  Proof.
    unfold cm_store. cbn. unfold bm_store. pose proof (is_aligned_spec al (tp_addr p)) as Ha. destruct (is_aligned al (tp_addr p)); cbn [negb].
    2: { cbn. intros [_ Hal]. by apply Ha in Hal. }
    rewrite <-nat_N_Z. eapply (judge_bind False _ _ _ (fun _ => span m p (Z.of_N (N.of_nat (length bs))) /\ aligned p al)); [|intros mem _ Hq; exact Hq].
    eapply judge_seq; [apply (j_check m)|tauto|]. intros o _ Hs. destruct o as [[[id pe] off]|]; [|split; [done|by apply Ha]].
    apply judge_drop_unwrap. intros a _. cbn [obind]. apply judge_drop; [unfold write_subslice; by destruct (_ <=? _)%nat|].
    intros d _. split; [done|by apply Ha].
  Qed.
  Lemma j_cm_load m p n al at_ :
    judge False (cm_load MO (m_mem m) p n al at_) (span m p (Z.of_N n) /\ aligned p al)
      (fun r => span m p (Z.of_N n) /\ aligned p al).
  Proof.
    unfold cm_load. cbn. unfold bm_load. pose proof (is_aligned_spec al (tp_addr p)) as Ha. destruct (is_aligned al (tp_addr p)); cbn [negb].
    2: { cbn. intros [_ Hal]. by apply Ha in Hal. }
    eapply (judge_bind False _ _ _ (fun _ => span m p (Z.of_N n) /\ aligned p al)); [|intros [bs mem] _ Hq; exact Hq].
    eapply judge_seq; [apply (j_check m)|tauto|]. intros o _ Hs. destruct o as [[[id pe] off]|]; [|split; [done|by apply Ha]].
    apply judge_drop_unwrap. intros a _. cbn [obind]. apply judge_drop; [unfold subslice; by destruct (_ <=? _)%nat|].
    intros d _. split; [done|by apply Ha].
  Qed.

  Lemma encode_size env ty (v : Value P) s : wfT ty -> size_of T ty = Ret s -> check_value T env ty v = Ret tt ->
    exists bs, encode T ty v = Ret bs /\ N.of_nat (length bs) = s.
  Proof.
    intros Hw Hs Hc. rewrite <-(size_of_tsize T _ _ Hs). exact (encode_total T Tok any_trait ty v Hw (check_value_shape T env ty v Hc)).
  Qed.
  Lemma view_space m m1 p ty : mview m1 = mview m -> has_space T m1 p ty <-> has_space T m p ty.
  Proof. intros E. split; intros (s & Hs & Hsp); exists s; (split; [done|]); eapply alike_span; [|exact Hsp| |exact Hsp]; [done|by symmetry]. Qed.
  Lemma j_typed_store m p v ty s al at_ : wfT ty -> size_of T ty = Ret s ->
    judge False (typed_store T MO m p v ty al at_) (has_space T m p ty /\ aligned p al)
      (fun m' => has_space T m p ty /\ aligned p al /\ quiet m m').
  Proof.
    intros Hw Hs. assert (forall m', typed_store T MO m p v ty al at_ = Ret m' -> quiet m m') as Hq.
    { intros m' E. by destruct (typed_store_writes T MO BL _ _ _ _ _ _ _ E) as (bs & _ & Hq & _). }
    apply (judge_weak False False _ (has_space T m p ty /\ aligned p al) _ (fun _ => has_space T m p ty /\ aligned p al));
      [|done|done|intros m' E [H1 H2]; split; [done|]; split; [done|by apply Hq]].
    clear Hq. unfold typed_store. destruct (check_value T (chk_env MO m) ty v) as [[]| | |] eqn:Ec; try done. cbn [is_ok obind assert_].
    destruct (encode_size _ _ _ _ Hw Hs Ec) as (bs & -> & Hl). cbn [obind].
    assert (has_space T m p ty <-> span m p (Z.of_nat (length bs))) as Hx.
    { split; [intros (s' & Hs' & Hsp)|intros Hsp; exists s; split; [done|]]; [rewrite Hs in Hs'; injection Hs' as <-|];
        replace (Z.of_nat (length bs)) with (Z.of_N s) in * by lia; done. }
    eapply judge_seq; [apply j_cm_store|by rewrite <-Hx|]. intros mem _ Hr. cbn. by rewrite Hx.
  Qed.
  Lemma j_place_store m pl v ty s : wfT ty -> size_of T ty = Ret s ->
    judge False (place_store T MO m pl v ty) (pl_aligned pl = true /\ has_space T m (p_thin (pl_ptr pl)) ty)
      (fun m' => pl_aligned pl = true /\ has_space T m (p_thin (pl_ptr pl)) ty /\ quiet m m').
  Proof.
    intros Hw Hs. unfold place_store. destruct (pl_aligned pl); [|by intros [? _]]. cbn [negb].
    eapply judge_weak; [by eapply j_typed_store|done|intros [_ Hsp]; split; [done|by rewrite Z.mod_1_r]|].
    intros m' _ (H1 & _ & H3). done.
  Qed.
  Lemma j_typed_load m m1 p ty al at_ : still m m1 ->
    judge False (typed_load T MO m1 p ty al at_) ((exists v, readable T m p ty v) /\ aligned p al)
      (fun r => readable T m p ty (fst r) /\ aligned p al /\ still m (snd r) /\ forall v, readable T m p ty v -> v = fst r).
  Proof.
    intros Hst. unfold typed_load. apply judge_drop; [apply size_of_safe|]. intros s Hs.
    pose proof (cm_load_still T MO BL m1 p s al at_) as Hq. pose proof (cm_load_reads T MO BL m1 p s al at_) as Hrd.
    assert (forall v, holds T m p ty v -> exists bs, length bs = N.to_nat s /\ stores_at m1 p bs /\ decode T ty bs = Ret (Some v)) as Hh.
    { intros v (bs & Hs' & Hst' & Hd). rewrite Hs in Hs'. injection Hs' as ->. exists bs. split; [lia|]. split; [|done].
      by apply (alike_stores _ _ _ _ (proj2 Hst)). }
    eapply judge_seq; [apply j_cm_load| |].
    { intros [[v [Hv _]] Ha]. split; [|done]. destruct (Hh _ Hv) as (bs & Hl & Hsb & _). apply stores_span in Hsb. by rewrite Hl, N_nat_Z in Hsb. }
    intros [bs mem] El [Hsp Hal]. rewrite El in Hq. cbn in Hq. specialize (Hrd _ _ El). destruct Hrd as [Hlen Hsb].
    assert (forall v, holds T m p ty v -> decode T ty bs = Ret (Some v)) as Hdec.
    { intros v Hv. destruct (Hh _ Hv) as (bs' & Hl & Hsb' & Hd). by rewrite (stores_unique _ _ _ _ Hsb Hsb') by lia. }
    destruct (decode T ty bs) as [o|t| |] eqn:Ed; cbn [obind]; [|destruct (ub_decode T ty bs _ Ed) as [msg ->]; cbn; intros [[v [Hv _]] _]; by specialize (Hdec _ Hv)|done|done].
    destruct o as [v|]; [|cbn; intros [[v [Hv _]] _]; by specialize (Hdec _ Hv)].
    assert (still m (set_mem m1 mem)) as Hst2 by (by eapply still_trans).
    assert (holds T m p ty v) as Hhv.
    { exists bs. split; [by rewrite Hs; f_equal; lia|]. split; [|done]. by apply (alike_stores _ _ _ _ (proj2 Hst)). }
    assert (forall v', readable T m p ty v' -> v' = v) as Hun by (intros v' [Hv' _]; specialize (Hdec _ Hv'); congruence).
    destruct (check_value T (chk_env MO (set_mem m1 mem)) ty v) as [[]|t| |] eqn:Ec; cbn [obind judge]; try done.
    - split; [|done]. split; [done|]. by eapply (valid_of T MO BL Tok).
    - assert (exists msg, t = TUb msg) as [msg ->]; [by eapply (ub_check T MO), Ec|].
      intros [[v' Hr] _]. pose proof (Hun _ Hr) as ->. destruct Hr as [_ Hv].
      by rewrite (valid_check T Tok m (set_mem m1 mem) _ _ Hst2 Hv) in Ec.
  Qed.
  Lemma j_place_load m m1 pl ty : still m m1 ->
    judge False (place_load T MO m1 pl ty) (pl_aligned pl = true /\ exists v, readable T m (p_thin (pl_ptr pl)) ty v)
      (fun r => pl_aligned pl = true /\ readable T m (p_thin (pl_ptr pl)) ty (fst r) /\ still m (snd r) /\
         forall v, readable T m (p_thin (pl_ptr pl)) ty v -> v = fst r).
  Proof.
    intros Hst. unfold place_load. destruct (pl_aligned pl); [|by intros [? _]]. cbn [negb].
    eapply judge_weak; [by apply (j_typed_load m)|done|intros [_ Hv]; split; [done|by rewrite Z.mod_1_r]|].
    intros r _ (H1 & _ & H3 & H4). done.
  Qed.
  Lemma j_deinit m p n al :
    judge False (deinit MO m p n al) (span m p (Z.of_N n) /\ aligned p al) (fun m' => span m p (Z.of_N n) /\ aligned p al /\ quiet m m').
  Proof.
    pose proof (deinit_quiet T MO BL m p n al) as Hq.
    apply (judge_weak False False _ (span m p (Z.of_N n) /\ aligned p al) _ (fun _ => span m p (Z.of_N n) /\ aligned p al));
      [|done|done|intros m' E [H1 H2]; rewrite E in Hq; done].
    unfold deinit. pose proof (j_cm_store m p (list_repeat Uninit n) al NonAtomic) as Hj. rewrite list_repeat_std, repeat_length, N_nat_Z in Hj.
    rewrite list_repeat_std. eapply judge_seq; [exact Hj|done|]. intros mem _ Hr. exact Hr.
  Qed.
  Lemma span_view m m1 p n : mview m1 = mview m -> span m1 p n <-> span m p n.
  Proof. intros E. split; apply alike_span; [done|by symmetry]. Qed.
  (** [p] and the bytes up to the end of a field: in two parts, or at once *)
  Lemma span_parts m p (o n : N) : span m p (Z.of_N (o + n)) <-> reach m p (Z.of_N o) /\ span m (past p o) (Z.of_N n).
  Proof.
    split.
    - intros [Hz|(id & i & a & (pe & a' & Hp & Ha & Hl & Had) & Ha' & Hn & Hb)].
      { split; [split; [intros _; left; lia|lia]|left; lia]. }
      rewrite Ha in Ha'. injection Ha' as ->. split.
      + split; [intros _|lia]. destruct (decide (o = 0%N)) as [->|]; [by left|]. right. exists id, i, a.
        split; [by exists pe, a|]. split; [done|lia].
      + destruct (decide (n = 0%N)) as [->|]; [by left|]. right. exists id, (i + N.to_nat o)%nat, a.
        split; [exists pe, a; repeat split; try done; cbn; lia|]. split; [done|lia].
    - intros [[Hr _] Hs]. specialize (Hr ltac:(lia)).
      destruct Hs as [Hz|(id & i & a & (pe & a' & Hp & Ha & Hl & Had) & Ha' & Hn & Hb)]; [by replace (o + n)%N with o by lia|].
      destruct Hr as [Hz|(id' & i' & b & (pe' & b' & Hp' & Hb' & Hl' & Had') & Hb'' & Hn' & Hbb)].
      + right. exists id, i, a. split; [exists pe, a'; repeat split; try done; cbn in *; lia|]. split; [done|lia].
      + cbn in Hp, Had. rewrite Hp' in Hp. injection Hp as -> ->. rewrite Ha in Hb'. injection Hb' as <-. rewrite Ha in Ha', Hb''.
        injection Ha' as ->. injection Hb'' as <-. right. exists id, i', a. split; [by exists pe, a|]. split; [done|lia].
  Qed.
  Lemma j_signed m p d : judge False (cm_signed_deref MO (m_mem m) p d) (reach m p d) (fun _ => reach m p d).
  Proof.
    pose proof (signed_reach T MO BL m p d tt) as H1. pose proof (reach_signed T m p d) as H2.
    destruct (cm_signed_deref MO (m_mem m) p d) as [[]|t| |] eqn:E; cbn; auto.
    assert (exists msg, t = TUb msg) as [msg ->]; [|intros Hr; by specialize (H2 Hr)].
    revert E. unfold cm_signed_deref, mo_signed_deref. enough (forall q n, only_ub (mo_deref MO (cm_mem (m_mem m)) q n)) as Hd.
    { destruct (0 <? d); intros E; (destruct (size_from_bytes _); [|cbn in E; congruence]); by eapply Hd, E. }
    intros q n. cbn. unfold bm_check_ptr. clear. intros t. destruct (n =? 0)%N; [cbn; congruence|]. destruct (tp_prov q) as [[id pe]|]; [|intros [= <-]; by eexists].
    destruct (_ !! id); [|done]. cbn [unwrap obind]. destruct (negb _); [intros [= <-]; by eexists|]. destruct (_ || _); [intros [= <-]; by eexists|].
    destruct (size_from_bytes _); cbn; congruence.
  Qed.
  Lemma j_tags m p tg : forall m1, mview m1 = mview m ->
    judge False (encode_discriminant T (store_accessor T MO p) tg m1)
      (forall o it y, In (o, (it, y)) tg -> span m p (Z.of_N (o + it_size it)))
      (fun _ => forall o it y, In (o, (it, y)) tg -> span m p (Z.of_N (o + it_size it))).
  Proof.
    unfold encode_discriminant. induction tg as [|[o [it x]] tg IH]; intros m1 Hv; cbn [fold_m]; [by intros o it y []|].
    apply (judge_bind False _ _ _ (fun m2 => mview m2 = mview m /\ span m p (Z.of_N (o + it_size it)))).
    - apply judge_drop; [apply encode_int_safe|]. intros bs Hb. pose proof (encode_int_length T _ _ _ Hb) as Hlen. unfold store_accessor, ptr_offset_inbounds.
      apply (judge_bind False _ _ _ (fun q => reach m p (Z.of_N o) /\ q = past p o)).
      { eapply judge_seq; [apply (j_signed m1)|intros Hc|].
        - specialize (Hc o it x ltac:(by left)). apply (span_view _ _ _ _ Hv) in Hc. by apply span_parts in Hc as [? _].
        - intros ? _ Hr. apply judge_drop; [by destruct (in_bounds _ _ _)|]. intros ? _. apply judge_drop; [by destruct (in_bounds _ _ _)|].
          intros ? _. cbn. split; [|done]. destruct Hr as [H1 H2]. split; intros Hd; [apply (span_view _ _ _ _ Hv); by apply H1|lia]. }
      intros q _ [Hr ->]. eapply judge_seq; [apply (j_cm_store m1)|intros Hc|].
      { specialize (Hc o it x ltac:(by left)). apply (span_view _ _ _ _ Hv) in Hc. apply span_parts in Hc as [_ Hs].
        split; [|by rewrite Z.mod_1_r]. by replace (Z.of_nat (length bs)) with (Z.of_N (it_size it)) by lia. }
      intros mem Em [Hs _]. cbn [judge]. apply (cm_store_writes T MO BL) in Em as [[_ Hq] _]. split; [by rewrite Hq|].
      apply span_parts. split; [done|]. apply (span_view _ _ _ _ Hv) in Hs. by replace (Z.of_N (it_size it)) with (Z.of_nat (length bs)) by lia.
    - intros m2 _ [Hv2 Hs]. eapply judge_weak; [apply (IH m2 Hv2)|done|intros Hc o' it' y' Hin; eapply Hc; by right|].
      intros m3 _ Hr o' it' y' [[= <- <- <-]|Hin]; [done|by eapply Hr].
  Qed.

  (** ** Stack variables *)

  Lemma j_retag fe ty : forall v m, judge False (retag_val MO fe ty v m) True (still m ∘ snd).
  Proof.
    intros v m. apply (judge_weak False False _ True _ (fun _ => True)); [|done|done|].
    2: { intros r E _. pose proof (retag_val_still T MO BL fe ty v m) as Hq. by rewrite E in Hq. }
    apply judge_safely. revert v m.
    induction ty as [it| |pt|fields head u IHf IHu|elem count IHe|elem IHe|fields chunks size align IHf
      |variants dty discr size align IHv|tn] using Ty_ind'; intros v m; cbn [retag_val]; destruct v; try done.
    - apply safely_bind. eapply (safely_mono _ (fun _ => True)); [|by intros [? ?]]. unfold retag_ptr. apply safely_bind.
      unfold cur_frame, active_thread. apply safely_bind, safely_unwrap. intros t Ht. apply safely_unwrap. intros f Hf.
      unfold cm_retag. cbn. apply safely_bind. unfold set_cur_frame, active_thread. cbn. rewrite Ht. cbn. by destruct (t_stack t).
    - apply safely_bind. eapply (safely_mono _ (fun _ => True)); [|by intros [? ?]]. clear IHu. revert vals m.
      induction IHf as [|[o t] fs Hf Hfs IH]; intros [|v vs] m; cbn; try done.
      apply safely_bind. eapply safely_mono; [apply Hf|]. intros [w m2] _ _. apply safely_bind. eapply safely_mono; [apply IH|]. by intros [? ?].
    - apply safely_bind. eapply (safely_mono _ (fun _ => True)); [|by intros [? ?]]. revert m. induction vals as [|v vs IH]; intros m; cbn [map_st]; [done|].
      apply safely_bind. eapply safely_mono; [apply IHe|]. intros [w m2] _ _. apply safely_bind. eapply safely_mono; [apply IH|]. by intros [? ?].
    - destruct (map_get_with _ _ _) as [r|] eqn:E; [|done]. apply safely_bind. eapply (safely_mono _ (fun _ => True)); [|by intros [? ?]].
      revert E. induction IHv as [|[k [t tg]] vs Hv _ IH]; [done|]. cbn. destruct (bool_decide _); [|done]. intros [= <-]. apply Hv.
  Qed.
  Lemma j_storage_dead (f : StackFrame P unit) mem l : locals_ok T (mv (cm_mem mem)) (fl (fctl f)) ->
    judge False (storage_dead T MO f mem l) True (fun r => kill T (fl (fctl f)) (mv (cm_mem mem)) l (fl (fctl (fst r))) (mv (cm_mem (snd r))) /\
      exists ls, fst r = with_locals f ls).
  Proof.
    intros [Hlo Hnd]. apply (judge_weak False False _ True _ (fun r => exists ls, fst r = with_locals f ls)); [|done|done|].
    2: { intros r E Hr. pose proof (storage_dead_kill T MO BL f mem l) as Hq. rewrite E in Hq. split; [by destruct Hq|done]. }
    unfold storage_dead. apply judge_drop_unwrap. intros ty Hty. apply judge_drop; [apply size_of_safe|]. intros s Hs.
    apply judge_drop; [apply align_of_safe|]. intros al Hal. destruct (map_get (f_locals f) l) as [p|] eqn:Ep; [|cbn; exists (f_locals f); by destruct f].
    apply map_get_in in Ep. destruct (proj1 (List.Forall_forall _ _) Hlo _ Ep) as (id & pe & ty' & s' & a' & Hp & Hty' & Hs' & Ha' & Hv).
    cbn [fst snd] in *. cbn in Hty'. rewrite Hty in Hty'. injection Hty' as <-. rewrite Hs in Hs'. injection Hs' as <-. rewrite Hal in Ha'. injection Ha' as <-.
    rewrite mv_lookup in Hv. destruct (cm_mem mem !! id) as [x|] eqn:Ex; [|done]. cbn in Hv. injection Hv as H1 H2 H3 H4 H5.
    unfold cm_deallocate. cbn. unfold bm_deallocate. rewrite Hp, Ex. cbn [unwrap obind]. rewrite H5. cbn [negb]. rewrite H1, Z.eqb_refl. cbn [negb].
    rewrite bool_decide_eq_true_2 by done. cbn [negb]. rewrite H2, N.eqb_refl. cbn [negb]. rewrite bool_decide_eq_true_2 by done. cbn. by eexists.
  Qed.
  Lemma j_storage_live prog (f : StackFrame P unit) mem l cs : fn_ok T prog (f_func f) -> locals_ok T (mv (cm_mem mem)) (fl (fctl f)) ->
    judge False (storage_live T MO f mem l cs) True (fun r => live T (fl (fctl f)) (mv (cm_mem mem)) l (fl (fctl (fst (fst r)))) (mv (cm_mem (snd (fst r)))) /\
      exists ls, fst (fst r) = with_locals f ls).
  Proof.
    intros Hfo Hlo. apply (judge_weak False False _ True _ (fun r => exists ls, fst (fst r) = with_locals f ls)); [|done|done|].
    2: { intros r E Hr. pose proof (storage_live_live T MO BL Tok f mem l cs) as Hq. rewrite E in Hq. split; [by destruct Hq|done]. }
    unfold storage_live. eapply judge_seq; [by apply j_storage_dead|done|]. intros [f1 mem1] _ [_ [ls Ef]]. cbn [fst] in Ef. subst f1. cbn [with_locals f_func].
    apply judge_drop_unwrap. intros ty Hty. destruct (fo_locals _ _ _ Hfo _ _ Hty) as [Hw Hsz].
    rewrite (sized_tsize T _ Hsz), (sized_talign T _ Hsz). cbn [obind]. destruct (wf_sized_valid T any_trait _ Hw Hsz) as [Hvs _].
    unfold pick_addr. destruct cs as [|[a|t|pr] cs]; try done. cbn [obind]. unfold cm_allocate. cbn [mo_allocate BasicOps]. unfold bm_allocate.
    rewrite Hvs. cbn [negb]. destruct (bm_addr_ok _ _ _ _ _); [|done]. cbn. by eexists.
  Qed.
  Lemma top_frame_cur m f : top_frame m f <-> cur_frame m = Ret f.
  Proof.
    unfold top_frame, cur_frame, active_thread. destruct (m_threads m !! m_active m) as [t|] eqn:Et; cbn [unwrap obind]; [|split; [by intros (? & ? & ? & _)|done]].
    split; [intros (t' & r & [= <-] & Hs); by rewrite Hs|]. destruct (t_stack t) as [|g r] eqn:Es; [done|]. intros [= ->]. by exists t, r.
  Qed.
  Lemma top_locals prog m f : minv T prog m -> top_frame m f -> locals_ok T (mview m) (fl (fctl f)).
  Proof.
    intros Hi (t & r & Ht & Hs). destruct (frame_lay m (m_active m) t 0 f Ht ltac:(by rewrite Hs)) as (s & Hl & Hk).
    pose proof (ow_locals _ _ _ (oi_owns _ _ _ _ (mi_own _ _ _ Hi))) as HF. apply (proj1 (List.Forall_forall _ _) HF).
    apply in_concat. exists s. split; apply elem_of_list_In; by eapply elem_of_list_lookup_2.
  Qed.
  Lemma set_cur_safe m (f : StackFrame P unit) : safely (set_cur_frame m f) (fun _ => True).
  Proof. unfold set_cur_frame, active_thread. apply safely_bind, safely_unwrap. intros t _. by destruct (t_stack t). Qed.
  Lemma cur_safe m : safely (cur_frame m) (fun _ => True).
  Proof. unfold cur_frame, active_thread. apply safely_bind, safely_unwrap. intros t _. by apply safely_unwrap. Qed.

  (** ** Statements *)

  Hypothesis Std : target_std T.
  Variable prog : Program.
  Variable func : Function.
  Hypothesis Hfn : fn_ok T prog func.
  Notation locals := (fn_locals func).
  Notation gap := (gap_free T prog locals).

  Lemma place_type m p ptr b ty ty' : (forall f, top_frame m f -> f_func f = func) -> place_means T m p ptr b ty ->
    place_check_wf T prog locals p = Ret ty' -> gap (inr p) -> ty = ty' /\ wfT ty.
  Proof.
    intros Htop Hm Hc Hg. assert (ty = ty') as ->; [|split; [done|]].
    - eapply (place_typed T prog locals m); [|exact Hm|exact Hc]. intros f Hf. by rewrite (Htop f Hf).
    - destruct (expr_wf T prog Std locals (fo_locals _ _ _ Hfn)) as [_ W]. by eapply W.
  Qed.
  Lemma value_type m e v ty ty' : (forall f, top_frame m f -> f_func f = func) -> value_means T m e v ty ->
    value_check_wf T prog locals e = Ret ty' -> gap (inl e) -> ty = ty' /\ wfT ty.
  Proof.
    intros Htop Hm Hc Hg. assert (ty = ty') as ->; [|split; [done|]].
    - eapply (value_typed T prog locals m); [|exact Hm|exact Hc]. intros f Hf. by rewrite (Htop f Hf).
    - destruct (expr_wf T prog Std locals (fo_locals _ _ _ Hfn)) as [W _]. by eapply W.
  Qed.

  Lemma j_statement m s cs : minv T prog m -> unique_vtables m -> (forall f, top_frame m f -> f_func f = func) ->
    statement_check_wf T prog func s = Ret tt -> (forall e, stmt_expr s e -> gap e) ->
    judge False (eval_statement T MO s m cs) (stmt_allowed T m s) (fun _ => stmt_allowed T m s).
  Proof.
    intros Hi Hu Htop Hw Hgap. pose proof (still_refl m) as Hst. destruct s as [d e|p|p x|p fe|p|l|l]; cbn [statement_check_wf eval_statement stmt_allowed] in *.
    - apply obind_ret in Hw as (ty & Hw1 & Hw). apply obind_ret in Hw as (ty' & Hw2 & Hw). apply obind_ret in Hw as ([] & He & Hw).
      apply ensure_wf_ret, bool_decide_eq_true in He as <-. apply obind_ret in Hw as (lay & Hl & Hsz).
      assert (sized T ty) as Hs by (destruct lay; try done; by eexists _, _). clear Hl Hsz.
      eapply judge_seq; [by apply (j_place m m d)|intros (ptr & t & v & vt & Hp & _); by eexists _, _, _|].
      intros [[pl t] m1] _ (Hst1 & Hp & Hpu). cbn [fst snd] in *. destruct (place_type m d _ _ _ _ Htop Hp Hw1) as [-> Wt]; [apply Hgap; constructor|].
      eapply judge_seq; [by apply (j_value m m1 e)|intros (ptr & t & v & vt & _ & _ & Hv); by eexists _, _|].
      intros [[v vt] m2] _ (Hst2 & Hv & _). cbn [fst snd] in *.
      eapply judge_seq; [eapply j_place_store; [exact Wt|by apply sized_tsize]| |].
      + intros (ptr & t & v' & vt' & Hp' & Hsp & _). destruct (Hpu _ _ _ Hp') as (-> & E & ->). split; [done|].
        by apply (view_space m); [apply Hst2|].
      + intros m3 _ (Ha & Hsp & _). cbn. eexists _, _, _, _. split; [|split; [|exact Hv]]; [by rewrite Ha in Hp|].
        by apply (view_space m m2); [apply Hst2|].
    - apply obind_ret in Hw as (ty & Hw1 & _). eapply judge_seq; [by apply (j_place m m p)|intros (ptr & b & t & Hp); by eexists _, _, _|].
      intros [[pl t] m1] _ (_ & Hp & _). cbn. by eexists _, _, _.
    - apply obind_ret in Hw as (ty & Hw1 & Hw).
      eapply judge_seq; [by apply (j_place m m p)|intros (ptr & vs & dty & dd & s & al & vty & tags & Hp & _); by eexists _, _, _|].
      intros [[pl t] m1] _ (Hst1 & Hp & Hpu). cbn [fst snd] in *. destruct (place_type m p _ _ _ _ Htop Hp Hw1) as [-> Wt]; [apply Hgap; constructor|].
      destruct ty as [| | | | | | |variants dty discr size align|]; try done. destruct (pl_aligned pl) eqn:Ea; cbn [negb].
      2: { cbn. intros (ptr & vs & dty' & dd & s & al & vty & tags & Hp' & _). by destruct (Hpu _ _ _ Hp') as (_ & ? & _). }
      apply judge_drop_unwrap. intros [vty tags] Hg. cbn [snd].
      eapply judge_seq; [apply (j_tags m); apply Hst1| |].
      + intros (ptr & vs & dty' & dd & s & al & vty' & tags' & Hp' & Hg' & Hsp). destruct (Hpu _ _ _ Hp') as (-> & _ & E). injection E as -> -> -> -> ->.
        rewrite Hg in Hg'. injection Hg' as -> ->. done.
      + intros m2 _ Hsp. cbn. by eexists _, _, _, _, _, _, _, _.
    - apply obind_ret in Hw as (ty & Hw1 & Hw). apply sized_of in Hw as Hs.
      eapply judge_seq; [by apply (j_place m m p)|intros (ptr & t & v & Hp & _); by eexists _, _, _|].
      intros [[pl t] m1] _ (Hst1 & Hp & Hpu). cbn [fst snd] in *. destruct (place_type m p _ _ _ _ Htop Hp Hw1) as [-> Wt]; [apply Hgap; constructor|].
      eapply judge_seq; [by apply (j_place_load m m1 pl ty)| |].
      { intros (ptr & t & v & Hp' & Hr). destruct (Hpu _ _ _ Hp') as (-> & <- & ->). split; [done|]. by exists v. }
      intros [v m2] _ (Ha & Hr & Hst2 & _). cbn [fst snd] in *. rewrite Ha in Hp.
      eapply judge_seq; [apply j_retag|done|]. intros [v' m3] _ Hst3. cbn in Hst3.
      assert (still m m3) as Hst3' by (by eapply still_trans).
      eapply judge_seq; [eapply j_place_store; [exact Wt|by apply sized_tsize]| |].
      + intros _. split; [done|]. apply (view_space m m3); [apply Hst3'|]. destruct Hr as [(bs & Hb & Hsa & _) _]. eexists. split; [exact Hb|].
        apply stores_span in Hsa. by rewrite nat_N_Z.
      + intros m4 _ _. cbn. by eexists _, _, _.
    - apply obind_ret in Hw as (ty & Hw1 & Hw). apply sized_of in Hw as Hs.
      eapply judge_seq; [by apply (j_place m m p)|intros (ptr & t & Hp & _); by eexists _, _, _|].
      intros [[pl t] m1] _ (Hst1 & Hp & Hpu). cbn [fst snd] in *. destruct (place_type m p _ _ _ _ Htop Hp Hw1) as [-> Wt]; [apply Hgap; constructor|].
      destruct (pl_aligned pl) eqn:Ea; cbn [negb].
      2: { cbn. intros (ptr & t & Hp' & _). by destruct (Hpu _ _ _ Hp') as (_ & ? & _). }
      rewrite (sized_tsize T _ Hs). cbn [obind]. eapply judge_seq; [apply j_deinit| |].
      + intros (ptr & t & Hp' & s & Hs' & Hsp). destruct (Hpu _ _ _ Hp') as (-> & _ & ->). rewrite (sized_tsize T _ Hs) in Hs'. injection Hs' as <-.
        split; [|by rewrite Z.mod_1_r]. by apply (span_view m m1); [apply Hst1|].
      + intros m2 _ (Hsp & _). cbn. eexists _, _. split; [exact Hp|]. eexists. split; [by apply sized_tsize|]. by apply (span_view m m1) in Hsp; [|apply Hst1].
    - apply judge_drop; [apply cur_safe|]. intros f Hf. apply top_frame_cur in Hf as Hf'.
      eapply judge_seq; [eapply (j_storage_live prog); [by rewrite (Htop _ Hf')|by eapply top_locals]|done|].
      intros [[f1 mem] cs1] _ _. apply judge_drop; [apply set_cur_safe|]. done.
    - apply judge_drop; [apply cur_safe|]. intros f Hf. apply top_frame_cur in Hf as Hf'.
      eapply judge_seq; [eapply j_storage_dead; by eapply top_locals|done|].
      intros [f1 mem] _ _. apply judge_drop; [apply set_cur_safe|]. done.
  Qed.
End Ub.
