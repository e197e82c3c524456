(** An expression that has a meaning evaluates to it, in the basic memory model. *)
From Verif Require Export ExprProofs.
Local Open Scope Z_scope.
From Coq Require Import ZifyBool ZifyN ZifyNat.

(** [o] is a result for which [Q] holds, or a panic; it is not undefined behaviour *)
Definition safely {A} (o : Outcome A) (Q : A -> Prop) : Prop :=
  match o with Ret a => Q a | Panic => True | Stop _ | NoBehavior => False end.
Lemma safely_bind {A B} (o : Outcome A) (k : A -> Outcome B) Q : safely o (fun a => safely (k a) Q) -> safely (obind o k) Q.
Proof. by destruct o. Qed.
Lemma safely_mono {A} (o : Outcome A) (Q R : A -> Prop) : safely o Q -> (forall a, o = Ret a -> Q a -> R a) -> safely o R.
Proof. destruct o; cbn; auto. Qed.
Lemma safely_unwrap {A} (o : option A) (Q : A -> Prop) : (forall a, o = Some a -> Q a) -> safely (unwrap o) Q.
Proof. destruct o; cbn; auto. Qed.
Lemma safely_assert b (Q : unit -> Prop) : (b = true -> Q tt) -> safely (assert_ b) Q.
Proof. destruct b; cbn; auto. Qed.
Lemma safely_ret {A} (o : Outcome A) a (Q : A -> Prop) : o = Ret a -> Q a -> safely o Q.
Proof. by intros ->. Qed.

Lemma layout_safe T ty : safely (layout T ty) (fun _ => True).
Proof.
  induction ty as [it| |pt|fields head u IHf IHu|elem count IHe|elem IHe|fields chunks size align IHf|variants dty discr size align IHv|tn] using Ty_ind'; cbn [layout]; try done.
  - apply safely_bind. unfold int_align. apply safely_bind, safely_unwrap. intros. done.
  - by destruct (ptr_meta_kind pt).
  - destruct u as [t|]; [|by destruct (head_size_and_align head)]. apply safely_bind. eapply safely_mono; [by apply IHu|done].
  - apply safely_bind. eapply safely_mono; [exact IHe|]. intros l _ _. apply safely_bind.
    destruct l; cbn; try done. apply safely_bind, safely_unwrap. done.
  - apply safely_bind. eapply safely_mono; [exact IHe|]. intros l _ _. by destruct l.
Qed.
Lemma size_of_safe T ty : safely (size_of T ty) (fun _ => True).
Proof. unfold size_of. apply safely_bind. eapply safely_mono; [apply layout_safe|]. intros l _ _. by destruct l. Qed.

Section Valid.
  Context {P : Type} `{EqDecision P}.
  Variable T : Target.
  Variable env env' : ChkEnv P.
  Hypothesis Hd : forall p n, ce_deref env p n = Ret tt -> ce_deref env' p n = Ret tt.
  Hypothesis Hf : ce_vtable_from_ptr env = ce_vtable_from_ptr env'.
  Hypothesis Hl : ce_vtable_lookup env = ce_vtable_lookup env'.
  Lemma pointee_size_env l meta s a : pointee_size env l meta s a -> pointee_size env' l meta s a.
  Proof. induction 1; econstructor; eauto. by rewrite <-Hl. Qed.
  Lemma vtable_for_env p tn : vtable_for env p tn -> vtable_for env' p tn.
  Proof. unfold vtable_for. by rewrite Hf. Qed.
  Lemma valid_meta_env k meta : valid_meta T env k meta -> valid_meta T env' k meta.
  Proof. destruct 1; constructor; try done. by apply vtable_for_env. Qed.
  Lemma points_env p pi : ValueSpec.points_to T env p pi -> ValueSpec.points_to T env' p pi.
  Proof. intros (s & a & H1 & H2 & H3 & H4 & H5 & H6). exists s, a. split; [by apply pointee_size_env|]. repeat (split; [done|]). by apply Hd. Qed.
  Lemma valid_ptr_env pt p : valid_ptr T env pt p -> valid_ptr T env' pt p.
  Proof. destruct 1; constructor; try done; by (apply valid_meta_env || apply points_env || apply vtable_for_env). Qed.
  Lemma valid_value_env ty v : valid_value T env ty v -> valid_value T env' ty v.
  Proof.
    revert v. induction ty as [it| |pt|fields head u IHf IHu|elem count IHe|elem IHe|fields chunks size align IHf|variants dty discr size align IHv|tn] using Ty_ind'; intros v Hv.
    - inversion Hv; subst; by constructor.
    - inversion Hv; subst; by constructor.
    - inversion Hv; subst; constructor. by apply valid_ptr_env.
    - inversion Hv as [| | | | |fs hd vs HF| | |]; subst. constructor. clear Hv IHu. revert vs HF.
      induction IHf as [|f fs Hf' _ IH]; intros vs HF; inversion_clear HF; constructor; eauto.
    - inversion Hv as [| | | | | |e c vs Hc HF| |]; subst. constructor; [done|]. eapply Forall_impl; [exact HF|]. exact IHe.
    - inversion Hv.
    - inversion Hv; subst; by constructor.
    - inversion Hv as [| | | | | | | |vs dt ds sz al d t tg w Hg Hw]; subst. econstructor; [done|].
      apply map_get_in in Hg. rewrite List.Forall_forall in IHv. exact (IHv _ Hg _ Hw).
    - inversion Hv.
  Qed.
End Valid.

Scheme value_means_min := Minimality for value_means Sort Prop
  with values_mean_min := Minimality for values_mean Sort Prop
  with place_means_min := Minimality for place_means Sort Prop.
Combined Scheme means_min from value_means_min, values_mean_min, place_means_min.

Section Defined.
  Context `{EqDecision (nat * unit)}.
  Variable T : Target.
  Hypothesis Tok : target_ok T.
  Notation P := (nat * unit)%type.
  Notation M := (BMem unit unit).
  Notation Mach := (Machine P unit M).
  Notation MO := (BasicOps T).
  Implicit Types m : Mach.
  Let BL := basic_like T.

  (** ** Memory *)

  Lemma valid_check m m1 ty v : still m m1 -> valid T m ty v -> check_value T (chk_env MO m1) ty v = Ret tt.
  Proof.
    intros Hst (env & Hd & Hf & Hl & Hv). apply check_value_iff; [done|]. eapply valid_value_env; [| | |exact Hv].
    - intros p n Hp. cbn. apply (span_deref T MO BL). eapply alike_span; [symmetry; apply Hst|]. by apply Hd.
    - rewrite Hf. cbn. unfold vtable_from_ptr. by rewrite (still_prog _ _ Hst), (still_vtptrs _ _ Hst).
    - rewrite Hl. cbn. symmetry. apply (still_lookup _ _ Hst).
  Qed.
  Lemma reach_signed m p d : reach m p d -> cm_signed_deref MO (m_mem m) p d = Ret tt.
  Proof.
    intros [H1 H2]. unfold cm_signed_deref, mo_signed_deref. destruct (0 <? d) eqn:Ed.
    - unfold size_from_bytes. destruct (d <? 0) eqn:E; [lia|]. cbn [unwrap obind]. apply (span_deref T MO BL). rewrite Z2N.id by lia. apply H1. lia.
    - unfold size_from_bytes. destruct (- d <? 0) eqn:E; [lia|]. cbn [unwrap obind]. apply (span_deref T MO BL). rewrite Z2N.id by lia.
      destruct (Z.eq_dec d 0) as [->|]; [by left|]. apply H2. lia.
  Qed.
  Lemma inbounds_safe m m1 p d : still m m1 -> reach m p d ->
    safely (ptr_offset_inbounds T MO m1 p d) (fun q => q = mkThin (tp_addr p + d) (tp_prov p)).
  Proof.
    intros Hst Hr. apply (still_reach m1 m) in Hr; [|by apply still_sym]. unfold ptr_offset_inbounds. rewrite (reach_signed _ _ _ Hr).
    cbn [obind]. apply safely_bind, safely_assert. intros _. apply safely_bind, safely_assert. done.
  Qed.
  Lemma stores_unique m p bs bs' : stores_at m p bs -> stores_at m p bs' -> length bs = length bs' -> bs = bs'.
  Proof.
    intros [->|(id & i & Hp & Hc)] Hs' Hlen; [by destruct bs'|]. destruct Hs' as [->|(id' & i' & Hp' & Hc')]; [by destruct bs|].
    destruct Hp as (pe & a & H1 & H2 & H3 & H4), Hp' as (pe' & a' & H1' & H2' & H3' & H4'). rewrite H1 in H1'. injection H1' as <- _.
    rewrite H2 in H2'. injection H2' as <-. assert (i = i') as <- by lia.
    apply list_eq. intros k. destruct (decide (k < length bs)%nat) as [Hk|Hk].
    - by rewrite <-Hc, <-Hc' by lia.
    - rewrite !lookup_ge_None_2 by lia. done.
  Qed.
  Lemma stores_span m p bs : stores_at m p bs -> span m p (Z.of_nat (length bs)).
  Proof.
    intros [->|(id & i & Hp & Hc)]; [by left|]. destruct (decide (length bs = 0)%nat) as [->|Hn]; [by left|]. right.
    pose proof Hp as (pe & a & _ & Ha & _). exists id, i, a. split; [done|]. split; [done|]. split; [lia|].
    specialize (Hc (length bs - 1)%nat ltac:(lia)). unfold cell in Hc. rewrite Ha in Hc.
    destruct (lookup_lt_is_Some_2 bs (length bs - 1)) as [x Hx]; [lia|]. rewrite Hx in Hc. apply lookup_lt_Some in Hc. unfold al_size. lia.
  Qed.
  Lemma load_safe m m1 p bs n : still m m1 -> stores_at m p bs -> n = N.of_nat (length bs) ->
    safely (cm_load MO (m_mem m1) p n align_one NonAtomic) (fun r => fst r = bs /\ still m (set_mem m1 (snd r))).
  Proof.
    intros Hst Hs ->. assert (stores_at m1 p bs) as Hs1 by (by apply (alike_stores _ _ _ _ (proj2 Hst))).
    pose proof (cm_load_still T MO BL m1 p (N.of_nat (length bs)) align_one NonAtomic) as Hp.
    assert (safely (cm_load MO (m_mem m1) p (N.of_nat (length bs)) align_one NonAtomic) (fun _ => True)) as Hsafe.
    { unfold cm_load. apply safely_bind. cbn. unfold bm_load. rewrite (proj2 (is_aligned_spec _ _)); [|by rewrite Z.mod_1_r]. cbn [negb].
      pose proof (span_deref T MO BL m1 p (N.of_nat (length bs))) as Hd. unfold cm_deref in Hd. rewrite (bl_deref _ _ BL) in Hd.
      rewrite nat_N_Z in Hd. specialize (Hd (stores_span _ _ _ Hs1)). apply obind_ret in Hd as (o & Ho & _). rewrite Ho. cbn [obind].
      destruct o as [[[id pe] off]|]; [|done]. apply safely_bind, safely_unwrap. intros a Ha. cbn [obind]. apply safely_bind.
      unfold subslice. by destruct (_ <=? _)%nat. }
    eapply safely_mono; [exact Hsafe|]. intros [bs' mem] El _. cbn. rewrite El in Hp. cbn in Hp. split; [|by eapply still_trans].
    apply (cm_load_reads T MO BL) in El as [Hlen Hst']. eapply stores_unique; [exact Hst'|done|]. by rewrite Nat2N.id in Hlen.
  Qed.
  Lemma same_dest_eq (p q : Pointer P) : same_dest p q -> q = p.
  Proof.
    destruct p as [[a o] me], q as [[a' o'] me']. intros (H1 & H2 & H3). cbn in *. subst. destruct o as [[? []]|], o' as [[? []]|]; cbn in H3; try done; congruence.
  Qed.

  (** ** Parts of expressions *)

  Lemma compute_safe m l meta : safely (compute_size_and_align l meta (vtable_lookup m)) (fun _ => True).
  Proof.
    revert meta. induction l as [s a|s a|tn|h l IH]; intros [[c|p]|]; cbn [compute_size_and_align]; try done.
    - apply safely_bind, safely_unwrap. done.
    - apply safely_bind. unfold vtable_lookup. apply safely_bind, safely_unwrap. intros kv _. by apply safely_unwrap.
    - apply safely_bind. eapply safely_mono; [apply IH|]. intros [s a] _ _. done.
    - apply safely_bind. eapply safely_mono; [apply IH|]. intros [s a] _ _. done.
  Qed.
  Lemma compute_size_safe m m1 l meta : still m m1 ->
    safely (compute_size (chk_env MO m1) l meta) (fun s => exists a, compute_size_and_align l meta (vtable_lookup m) = Ret (s, a)).
  Proof.
    intros Hst. unfold compute_size. rewrite (chk_compute MO _ _ _ _ Hst). apply safely_bind. eapply safely_mono; [apply compute_safe|].
    intros [s a] E _. cbn. by exists a.
  Qed.
  Lemma compute_align_safe m m1 l meta : still m m1 ->
    safely (compute_align (chk_env MO m1) l meta) (fun a => exists s, compute_size_and_align l meta (vtable_lookup m) = Ret (s, a)).
  Proof.
    intros Hst. unfold compute_align. rewrite (chk_compute MO _ _ _ _ Hst). apply safely_bind. eapply safely_mono; [apply compute_safe|].
    intros [s a] E _. cbn. by exists s.
  Qed.
  Lemma measures_size m m1 ty meta s al : still m m1 -> measures T m ty meta s al ->
    exists l, layout T ty = Ret l /\ compute_size (chk_env MO m1) l meta = Ret s /\ compute_align (chk_env MO m1) l meta = Ret al.
  Proof.
    intros Hst (l & Hl & Hc). exists l. split; [done|]. unfold compute_size, compute_align. rewrite !(chk_compute MO _ _ _ _ Hst), Hc. done.
  Qed.
  Lemma accessor_safe m m1 p off it x : still m m1 -> reach m p (Z.of_N off) -> holds_int T m (past p off) it x ->
    safely (load_accessor T MO p m1 off (it_size it)) (fun r => decode_int_opt T it (fst r) = Ret (Some x) /\ still m (snd r)).
  Proof.
    intros Hst Hr (bs & Hlen & Hs & Hd). unfold load_accessor. apply safely_bind. eapply safely_mono; [by apply (inbounds_safe m)|].
    intros q _ ->. apply safely_bind. eapply safely_mono; [apply (load_safe m m1 _ bs); [done|exact Hs|lia]|].
    intros [bs' mem] _ [Hb Hst']. cbn in *. subst bs'. split; [|done]. unfold decode_int in Hd. destruct (decode_int_opt T it bs) as [[y|]| | |]; try done.
    cbn in Hd. congruence.
  Qed.
  Lemma find_child_first {A} (f : Discriminator -> A) x l1 lo hi c l2 : lo <= x < hi ->
    (forall lo' hi' c', In ((lo', hi'), c') l1 -> ~ lo' <= x < hi') -> find_child f x (l1 ++ ((lo, hi), c) :: l2) = Some (f c).
  Proof.
    intros Hx Hn. induction l1 as [|[[lo' hi'] c'] l1 IH]; cbn [find_child app].
    - rewrite (proj2 (in_range_iff _ _ _)); done.
    - destruct (in_range x (lo', hi')) eqn:E.
      + apply in_range_iff in E. exfalso. apply (Hn lo' hi' c'); [by left|done].
      + apply IH. intros. apply (Hn lo'0 hi'0 c'0). by right.
  Qed.
  Lemma find_child_none {A} (f : Discriminator -> A) x l : (forall lo hi c, In ((lo, hi), c) l -> ~ lo <= x < hi) -> find_child f x l = None.
  Proof.
    intros Hn. induction l as [|[[lo hi] c] l IH]; cbn [find_child]; [done|]. destruct (in_range x (lo, hi)) eqn:E.
    - apply in_range_iff in E. exfalso. apply (Hn lo hi c); [by left|done].
    - apply IH. intros. apply (Hn lo0 hi0 c0). by right.
  Qed.
  Lemma discr_safe m p d x : discr_at T m p d x -> forall m1, still m m1 ->
    safely (decode_discriminant T (load_accessor T MO p) d m1) (fun r => fst r = Some x /\ still m (snd r)).
  Proof.
    induction 1 as [d|off it fb l1 lo hi c l2 x d Hr Hx Hlo Hno Hc IH|off it fb ch x d Hr Hx Hno Hc IH]; intros m1 Hst; cbn [decode_discriminant]; [done|..];
      (apply safely_bind; eapply safely_mono; [by eapply (accessor_safe m m1)|]; intros [bs m2] _ [Hd Hst2]; cbn in Hd, Hst2; rewrite Hd; cbn [obind]).
    - rewrite find_child_first by done. by apply IH.
    - rewrite find_child_none by done. by apply IH.
  Qed.
  Lemma list_get_nat {A} (l : list A) k : list_get l (Z.of_nat k) = l !! k.
  Proof. unfold list_get. destruct (_ <? 0) eqn:E; [lia|]. by rewrite Nat2Z.id. Qed.
  Lemma field_safe m m1 ty meta i off fty : still m m1 -> field_at T m ty meta i off fty ->
    safely (field_of T MO m1 ty meta i) (fun r => r = (off, fty)).
  Proof.
    intros Hst. destruct 1 as [fields head u meta k off t Hk|fields head t meta s al c off Hm -> Ho|fields chunks s al meta k off t Hk]; cbn [field_of].
    - pose proof (lookup_lt_Some _ _ _ Hk). destruct ((0 <=? _) && _) eqn:E; [|lia]. by rewrite list_get_nat, Hk.
    - destruct ((0 <=? _) && _) eqn:E; [lia|]. rewrite Z.eqb_refl. cbn [unwrap obind].
      destruct (measures_size _ m1 _ _ _ _ Hst Hm) as (l & -> & _ & Ha). cbn [obind]. rewrite Ha. cbn. f_equal.
      rewrite <-capped_bytes in Ho. unfold tail_offset. pose proof (align_to_spec (th_end head) (capped_tail_align head al)) as (Hx & Hy & Hz).
      generalize dependent (align_to (th_end head) (capped_tail_align head al)). intros r Hx Hy Hz.
      set (a := align_bytes (capped_tail_align head al)) in *. destruct Ho as [Ho1 Ho2].
      assert (0 < a)%N by apply align_bytes_pos. 
      assert (r = a * (r / a))%N as Er by (apply N.div_exact; lia). assert (off = a * (off / a))%N as Eo by (apply N.div_exact; lia).
      destruct (N.lt_trichotomy (r / a) (off / a)) as [Hq|[Hq|Hq]]; [exfalso|congruence|exfalso].
      + assert (a * (r / a) + a <= a * (off / a))%N by nia. lia.
      + assert (a * (off / a) + a <= a * (r / a))%N by nia. lia.
    - by rewrite list_get_nat, Hk.
  Qed.
  Lemma meta_decode_of mk meta (w : Value P) mty : meta_value T mk meta w mty -> meta_decode_value mk w = Ret meta.
  Proof. by destruct 1. Qed.
  Lemma meta_encode_of mk meta (w : Value P) mty : meta_value T mk meta w mty -> meta_encode_as_value mk meta = Ret w /\ mty = meta_kind_ty T mk.
  Proof. by destruct 1. Qed.

  Lemma un_op_safe m m1 op v ty w wty : still m m1 -> (forall n n' p, In (n, p) (m_vtptrs m) -> In (n', p) (m_vtptrs m) -> n = n') ->
    un_means T m op v ty w wty -> safely (eval_un_op T MO m1 op (v, ty)) (fun r => r = (w, wty)).
  Proof.
    intros Hst Huniq. destruct 1 as [op i it r Hr|it i ty|v ty w ty' s bs H1 H2 H3 H4 H5|p ty|p pt w ty Hm|t v ty meta mty s al Hm Hs|t v ty meta mty s al Hm Hs|p pt n vt method fn fp H1 H2 H3 H4]; cbn [eval_un_op].
    - rewrite Hr. cbn [obind]. apply safely_bind. cbn [check_value]. unfold ensure_else_ub. by destruct (can_represent _ _).
    - done.
    - rewrite H1, H2. cbn [obind]. rewrite N.eqb_refl. cbn [negb]. unfold transmute. rewrite H1, H2. cbn [obind]. 
      apply safely_bind. apply safely_bind, safely_assert. intros _. rewrite H3. cbn [obind]. rewrite H4. cbn [obind].
      rewrite (valid_check m m1 _ _ Hst H5). done.
    - done.
    - pose proof Hm as Hme. apply meta_encode_of in Hm as [Hm ->]. rewrite Hm. cbn [obind]. apply safely_bind.
      inversion Hme as [E1 E2|c E1 E2|tn q E1 E2]; subst; cbn [meta_kind_ty]; cbn [check_value].
      + done.
      + unfold ensure_else_ub. by destruct (can_represent _ _).
      + unfold check_ptr, ensure_else_ub. destruct (in_bounds _ _ _); [|done]. cbn. unfold vtable_from_ptr.
        destruct (find _ _) as [kv|]; [|done]. destruct (map_get _ _) as [vt|]; [|done]. cbn. by destruct (bool_decide _).
    - rewrite (meta_decode_of _ _ _ _ Hm). destruct (measures_size _ m1 _ _ _ _ Hst Hs) as (l & -> & Hc & _). cbn [obind]. by rewrite Hc.
    - rewrite (meta_decode_of _ _ _ _ Hm). destruct (measures_size _ m1 _ _ _ _ Hst Hs) as (l & -> & _ & Hc). cbn [obind]. by rewrite Hc.
    - unfold vtable_lookup. apply safely_bind. rewrite (still_prog _ _ Hst), (still_vtptrs _ _ Hst), (still_fnptrs _ _ Hst).
      destruct (find _ _) as [[n' q]|] eqn:Ef; [|done]. apply find_some in Ef as [Hin Hq]. cbn in Hq. apply bool_decide_eq_true in Hq as ->.
      rewrite (Huniq _ _ _ Hin H1). cbn [unwrap obind fst]. rewrite H2. cbn [unwrap safely]. rewrite H3. cbn. by rewrite H4.
  Qed.
  Lemma wrap_eq sg x a : wraps_to (mkIntTy sg (PTR_SIZE T)) x a -> bring_in_bounds sg (PTR_SIZE T) x = a.
  Proof.
    intros Hw. assert (int_ok (mkIntTy sg (PTR_SIZE T))) as Ho by (destruct sg; apply (usize_ok T Tok)).
    exact (wraps_unique _ _ _ _ Ho (wraps_bring _ x Ho) Hw).
  Qed.
  Lemma bin_op_safe m m1 op v1 ty1 v2 ty2 w wty : still m m1 -> bin_means T m op v1 ty1 v2 w wty ->
    safely (eval_bin_op T MO m1 op (v1, ty1) (v2, ty2)) (fun r => r = (w, wty)).
  Proof.
    intros Hst.
    destruct 1 as [op i it j r Hr|op i it j r o ty Hr Ht|rel v ty w r rty Hr|p ty i Hr|p ty i a Ha|nn p ty q d Hd H1 H2 Hn|nn p ty q d Hd Hn|pt p ty w meta mty Hm Hv]; cbn [eval_bin_op].
    - by rewrite Hr.
    - rewrite Hr, Ht. done.
    - by rewrite Hr.
    - apply safely_bind. eapply safely_mono; [by apply (inbounds_safe m)|]. intros q _ ->. done.
    - cbn. unfold ptr_offset_wrapping, wrapping_offset. by rewrite (wrap_eq _ _ _ Ha).
    - apply (still_reach m1 m) in H1, H2; [|by apply still_sym..]. replace (tp_addr p - tp_addr q) with d by lia.
      rewrite (reach_signed _ _ _ H2), (reach_signed _ _ _ H1). cbn [obind]. destruct (nn && (d <? 0)) eqn:E; [|done].
      destruct nn; [|done]. specialize (Hn eq_refl). cbn in E. lia.
    - cbn [obind]. rewrite (wrap_eq _ _ _ Hd).
      destruct (nn && (d <? 0)) eqn:E; [|done]. destruct nn; [|done]. specialize (Hn eq_refl). cbn in E. lia.
    - rewrite (meta_decode_of _ _ _ _ Hm). cbn [obind]. rewrite (valid_check m m1 _ _ Hst Hv). done.
  Qed.
  Lemma constant_safe m m1 c v : still m m1 -> const_means T m c v -> eval_constant T m1 c = Ret v.
  Proof.
    intros Hst. destruct 1 as [i|b|r p a Hp Ha|f p Hp|vt p Hp|a]; cbn [eval_constant]; try done.
    - rewrite (still_globals _ _ Hst), Hp. cbn. unfold wrapping_offset. by rewrite (wrap_eq _ _ _ Ha).
    - by rewrite (still_fnptrs _ _ Hst), Hp.
    - by rewrite (still_vtptrs _ _ Hst), Hp.
  Qed.

  Lemma place_load_safe m m1 ptr ty v : still m m1 -> holds T m (p_thin ptr) ty v -> valid T m ty v ->
    safely (place_load T MO m1 (mkPlace ptr true) ty) (fun r => fst r = v /\ still m (snd r)).
  Proof.
    intros Hst (bs & Hs & Hst' & Hd) Hv. unfold place_load. cbn [pl_aligned negb pl_ptr]. unfold typed_load. rewrite Hs. cbn [obind].
    apply safely_bind. eapply safely_mono; [by apply (load_safe m m1 _ bs)|]. intros [bs' mem] _ [Hb Hsm]. cbn [fst snd] in Hb, Hsm. subst bs'.
    rewrite Hd. cbn [obind]. rewrite (valid_check m (set_mem m1 mem) _ _ Hsm Hv). done.
  Qed.
  Lemma eval_defined m : (forall n n' p, In (n, p) (m_vtptrs m) -> In (n', p) (m_vtptrs m) -> n = n') ->
    (forall e v ty, value_means T m e v ty -> forall m1, still m m1 ->
       safely (eval_value T MO e m1) (fun r => fst r = (v, ty) /\ still m (snd r))) /\
    (forall es vs, values_mean T m es vs -> forall m1, still m m1 ->
       safely (map_st (fun m e => eval_value T MO e m) es m1) (fun r => List.map fst (fst r) = vs /\ still m (snd r))) /\
    (forall p ptr b ty, place_means T m p ptr b ty -> forall m1, still m m1 ->
       safely (eval_place T MO p m1) (fun r => fst r = (mkPlace ptr b, ty) /\ still m (snd r))).
  Proof.
    intros Huniq. apply means_min.
    - intros c v ty Hc m1 Hst. cbn [eval_value]. rewrite (constant_safe _ _ _ _ Hst Hc). done.
    - intros es vs ty _ IH m1 Hst. cbn [eval_value]. apply safely_bind. eapply safely_mono; [by apply IH|].
      intros [r m2] _ [<- Hst2]. done.
    - intros i e fields chunks s al off fty v ety bs data u Hf _ IH Hb Hlen Hdata Hu m1 Hst. cbn [eval_value].
      rewrite list_get_nat, Hf. cbn [unwrap obind]. apply safely_bind. eapply safely_mono; [by apply IH|].
      intros [[v' ty'] m2] _ [E Hst2]. cbn in E, Hst2. injection E as -> ->. rewrite Hb. cbn [obind]. apply safely_bind.
      destruct (write_subslice _ _ _) as [data'| | |] eqn:Ew; try done; cbn [safely]; [|unfold write_subslice in Ew; by destruct (_ <=? _)%nat|unfold write_subslice in Ew; by destruct (_ <=? _)%nat].
      assert (data' = data) as ->; [|by rewrite Hu].
      assert (length (list_repeat (@Uninit P) s) = N.to_nat s) as Hls by (by rewrite list_repeat_std, repeat_length).
      pose proof (write_subslice_length _ _ _ _ Ew) as Hl'. apply list_eq. intros j. destruct (decide (j < length data)%nat) as [Hj|Hj].
      + rewrite Hdata by done. rewrite (write_subslice_lookup _ _ _ _ _ Ew). destruct ((_ <=? _)%nat && _); [done|].
        destruct (list_repeat _ _ !! j) as [b|] eqn:Ej; [by apply list_repeat_lookup_uninit in Ej as ->|]. apply lookup_ge_None in Ej. lia.
      + rewrite !lookup_ge_None_2 by lia. done.
    - intros d e v ety ty _ IH m1 Hst. cbn [eval_value]. apply safely_bind. eapply safely_mono; [by apply IH|].
      intros [[v' ty'] m2] _ [E Hst2]. cbn in E, Hst2. injection E as -> ->. done.
    - intros p ptr variants dty discr s al d _ IH Hd m1 Hst. cbn [eval_value]. apply safely_bind. eapply safely_mono; [by apply IH|].
      intros [[pl ty'] m2] _ [E Hst2]. cbn in E, Hst2. injection E as -> ->. cbn [pl_aligned negb]. apply safely_bind.
      eapply safely_mono; [by apply (discr_safe m)|]. intros [o m3] _ [Eo Hst3]. cbn in Eo, Hst3. subst o. done.
    - intros p ptr ty v _ IH Hh Hv m1 Hst. cbn [eval_value]. apply safely_bind. eapply safely_mono; [by apply IH|].
      intros [[pl ty'] m2] _ [E Hst2]. cbn in E, Hst2. injection E as -> ->. apply safely_bind.
      eapply safely_mono; [by apply (place_load_safe m)|]. intros [v' m3] _ [E Hst3]. cbn in E, Hst3. subst v'. done.
    - intros p ptr al ty pt q _ IH Hv Hq m1 Hst. cbn [eval_value]. apply same_dest_eq in Hq as ->. apply safely_bind. eapply safely_mono; [by apply IH|].
      intros [[pl ty'] m2] _ [E Hst2]. cbn in E, Hst2. injection E as -> ->. cbn [pl_ptr]. rewrite (valid_check m m2 _ _ Hst2 Hv). cbn [obind].
      apply safely_bind. pose proof (retag_ptr_still T MO BL m2 ptr pt false) as Hr.
      assert (safely (retag_ptr MO m2 ptr pt false) (fun r => fst r = ptr)) as Hsafe.
      { unfold retag_ptr. apply safely_bind. unfold cur_frame, active_thread. apply safely_bind, safely_unwrap. intros t Ht. apply safely_unwrap. intros f Hf.
        unfold cm_retag. cbn. apply safely_bind. unfold set_cur_frame, active_thread. cbn. rewrite Ht. cbn. by destruct (t_stack t). }
      eapply safely_mono; [exact Hsafe|]. intros [q m3] Eq Hq. cbn in Hq. subst q. rewrite Eq in Hr. cbn in *. split; [done|by eapply still_trans].
    - intros op e v ty w wty _ IH Hop m1 Hst. cbn [eval_value]. apply safely_bind. eapply safely_mono; [by apply IH|].
      intros [[v' ty'] m2] _ [E Hst2]. cbn in E, Hst2. injection E as -> ->. apply safely_bind.
      eapply safely_mono; [by apply (un_op_safe m)|]. intros [w' wty'] _ [= -> ->]. done.
    - intros op e1 v1 ty1 e2 v2 ty2 w wty _ IH1 _ IH2 Hop m1 Hst. cbn [eval_value]. apply safely_bind. eapply safely_mono; [by apply IH1|].
      intros [[v' ty'] m2] _ [E Hst2]. cbn in E, Hst2. injection E as -> ->. apply safely_bind. eapply safely_mono; [by apply IH2|].
      intros [[v' ty'] m3] _ [E Hst3]. cbn in E, Hst3. injection E as -> ->. apply safely_bind.
      eapply safely_mono; [by apply (bin_op_safe m)|]. intros [w' wty'] _ [= -> ->]. done.
    - intros m1 Hst. done.
    - intros e v ty es vs _ IH _ IHs m1 Hst. cbn [map_st]. apply safely_bind. eapply safely_mono; [by apply IH|].
      intros [[v' ty'] m2] _ [E Hst2]. cbn in E, Hst2. injection E as -> ->. apply safely_bind. eapply safely_mono; [by apply IHs|].
      intros [r m3] _ [<- Hst3]. done.
    - intros l f p ty Hf Hl Ht m1 Hst. cbn [eval_place]. apply safely_bind. destruct (cur_frame m1) as [g| | |] eqn:Eg; try done.
      + cbn [safely]. destruct (cur_frame_top _ _ _ Hst Eg) as (f' & Hf' & Efn & Elo & _).
        assert (f' = f) as ->. { destruct Hf as (t & r & H1 & H2), Hf' as (t' & r' & H1' & H2'). congruence. }
        rewrite Efn, Ht. cbn [unwrap obind]. rewrite Elo, Hl. done.
      + unfold cur_frame, active_thread in Eg. destruct (m_threads m1 !! _) as [t0|]; cbn in Eg; [|done]. by destruct (head _).
      + unfold cur_frame, active_thread in Eg. destruct (m_threads m1 !! _) as [t0|]; cbn in Eg; [|done]. by destruct (head _).
    - intros e ptr pt ty s al b _ IH Hm Hb Hsafe m1 Hst. cbn [eval_place]. apply safely_bind. eapply safely_mono; [by apply IH|].
      intros [[v' ty'] m2] _ [E Hst2]. cbn in E, Hst2. injection E as -> ->. apply safely_bind.
      assert (safely (match safe_pointee pt with
              | Some pi =>
                  let! a := compute_align (chk_env MO m2) (pi_layout pi) (p_meta ptr) in
                  let! _ := assert_ (is_aligned a (tp_addr (p_thin ptr))) in
                  let! s := compute_size (chk_env MO m2) (pi_layout pi) (p_meta ptr) in
                  cm_deref MO (m_mem m2) (p_thin ptr) s
              | None => Ret tt
              end) (fun _ => True)) as Hs.
      { destruct (safe_pointee pt) as [pi|]; [|done]. apply safely_bind. eapply safely_mono; [by apply (compute_align_safe m)|].
        intros a _ [s' Ha]. apply safely_bind, safely_assert. intros _. apply safely_bind. eapply safely_mono; [by apply (compute_size_safe m)|].
        intros s2 _ [a2 Hs2]. destruct (Hsafe pi _ _ eq_refl Hs2) as [Hsp _]. rewrite (span_deref T MO BL); [done|].
        eapply alike_span; [symmetry; apply Hst2|done]. }
      eapply safely_mono; [exact Hs|]. intros [] _ _. destruct (measures_size _ m2 _ _ _ _ Hst2 Hm) as (l & -> & _ & Hc). cbn [obind]. rewrite Hc. cbn.
      split; [|done]. do 2 f_equal. rewrite <-is_aligned_spec in Hb. destruct (is_aligned _ _), b; try done; by (symmetry; apply Hb) || (apply Hb).
    - intros p ptr b ty i off fty meta _ IH Hf Hr Hmeta m1 Hst. cbn [eval_place]. apply safely_bind. eapply safely_mono; [by apply IH|].
      intros [[pl ty'] m2] _ [E Hst2]. cbn in E, Hst2. injection E as -> ->. cbn [pl_ptr pl_aligned]. apply safely_bind.
      eapply safely_mono; [by apply (field_safe m)|]. intros [off' fty'] _ [= -> ->]. apply safely_bind. eapply safely_mono; [apply layout_safe|].
      intros l _ _. apply safely_bind. eapply safely_mono; [by apply (compute_size_safe m)|]. intros s _ _. apply safely_bind, safely_assert. intros _.
      apply safely_bind. eapply safely_mono; [by apply (inbounds_safe m)|]. intros q _ ->. apply safely_bind. eapply safely_mono; [apply layout_safe|].
      intros fl Hfl _. cbn. split; [|done]. do 3 f_equal. destruct Hmeta as [[(s' & al' & E) ->]|[E ->]].
      + rewrite Hfl in E. injection E as ->. done.
      + destruct fl; cbn; try done. exfalso. by eapply E.
    - intros p ptr b ty e i ity elem count s _ IHp _ IHe Hty Hi Hs Hr m1 Hst. cbn [eval_place]. apply safely_bind. eapply safely_mono; [by apply IHp|].
      intros [[pl ty'] m2] _ [E Hst2]. cbn in E, Hst2. injection E as -> ->. cbn [pl_ptr pl_aligned]. apply safely_bind. eapply safely_mono; [by apply IHe|].
      intros [[v' ty'] m3] _ [E Hst3]. cbn in E, Hst3. injection E as -> ->. apply safely_bind.
      assert (match ty, p_meta ptr with
              | TArray elem count, _ => Ret (elem, count)
              | TSlice elem, Some (MElementCount count) => Ret (elem, count)
              | _, _ => Panic
              end = Ret (elem, count)) as ->. { destruct Hty as [->|[-> ->]]; done. }
      cbn [safely]. destruct ((i <? 0) || (count <=? i)) eqn:Eb; [lia|]. rewrite Hs. cbn [obind]. unfold size_mul, size_from_bytes.
      assert (0 <= Z.of_N s * i) as E0 by nia. rewrite (proj2 (Z.ltb_ge _ _) E0). cbn [unwrap obind]. apply safely_bind. eapply safely_mono; [apply layout_safe|].
      intros l _ _. apply safely_bind. eapply safely_mono; [by apply (compute_size_safe m)|]. intros s' _ _. apply safely_bind, safely_assert. intros _.
      apply safely_bind. assert (Z.of_N (Z.to_N (Z.of_N s * i)) = Z.of_N s * i) as E1 by lia. rewrite E1. eapply safely_mono; [by apply (inbounds_safe m)|].
      intros q _ ->. cbn. split; [|done]. unfold past. do 4 f_equal. lia.
    - intros p ptr b variants dty discr s al d ty tg _ IH Hg m1 Hst. cbn [eval_place]. apply safely_bind. eapply safely_mono; [by apply IH|].
      intros [[pl ty'] m2] _ [E Hst2]. cbn in E, Hst2. injection E as -> ->. rewrite Hg. done.
  Qed.
End Defined.
