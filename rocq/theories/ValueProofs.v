(** check_value accepts exactly the well-formed values. *)
From Verif Require Export ValueSpec ReprTy.

Lemma align_bytes_min a b : align_bytes (align_min a b) = N.min (align_bytes a) (align_bytes b).
Proof.
  unfold align_bytes, align_min. cbn [align_log2].
  destruct (N.le_ge_cases (align_log2 a) (align_log2 b)) as [H|H]; pose proof (N.pow_le_mono_r 2 _ _ ltac:(done) H).
  - by rewrite !N.min_l.
  - by rewrite !N.min_r.
Qed.
Lemma align_bytes_max a b : align_bytes (align_max a b) = N.max (align_bytes a) (align_bytes b).
Proof.
  unfold align_bytes, align_max. cbn [align_log2].
  destruct (N.le_ge_cases (align_log2 a) (align_log2 b)) as [H|H]; pose proof (N.pow_le_mono_r 2 _ _ ltac:(done) H).
  - by rewrite !N.max_r.
  - by rewrite !N.max_l.
Qed.

Lemma rounds_up_align n a r : rounds_up n (align_bytes a) r <-> r = align_to n a.
Proof.
  unfold rounds_up. pose proof (align_to_spec n a) as (H1 & H2 & H3). split; [|intros ->; lia].
  intros ((H4 & H5) & H6). pose proof (align_to_least n a r H4 H6). pose proof (align_bytes_pos a).
  apply N.mod_divides in H2 as [c Hc]; [|lia]. apply N.mod_divides in H6 as [d Hd]; [|lia].
  assert (c = d); [|congruence]. nia.
Qed.

Section ValueProofs.
  Context {P : Type} `{EqDecision P}.
  Variable T : Target.
  Hypothesis Tok : target_ok T.
  Variable env : ChkEnv P.

  Definition count_ok (m : option (PtrMeta P)) : Prop := forall c, m = Some (MElementCount c) -> 0 <= c.

  Lemma pointee_size_iff l m s b : count_ok m ->
    pointee_size env l m s b <->
    exists a, compute_size_and_align l m (ce_vtable_lookup env) = Ret (s, a) /\ b = align_bytes a.
  Proof using.
    intros Hm. revert s b. induction l as [s0 a0|s0 a0|tn|h l IH]; intros s b.
    - split; [inversion_clear 1; eexists; done|]. cbn. destruct m; [by intros (?&?&?)|].
      intros (a & [= <- <-] & ->). constructor.
    - split.
      + inversion_clear 1. cbn. unfold size_mul, size_from_bytes.
        rewrite <- N2Z.inj_mul. destruct (Z.ltb_spec (Z.of_N (s0 * n)) 0); [lia|]. cbn.
        rewrite N2Z.id. eexists. split; [|done]. by rewrite N.mul_comm.
      + cbn. destruct m as [[c|]|]; try by intros (?&?&?). pose proof (Hm c eq_refl).
        unfold size_mul, size_from_bytes. destruct (Z.ltb_spec (Z.of_N s0 * c) 0); [nia|]. cbn.
        intros (a & [= <- <-] & ->). rewrite <- (Z2N.id c) by done. rewrite <- N2Z.inj_mul, N2Z.id, N.mul_comm. constructor.
    - split.
      + inversion_clear 1 as [| |tn' p vt Hv|]. cbn. rewrite Hv. eexists. done.
      + cbn. destruct m as [[c|p]|]; try by intros (?&?&?). intros (a & Ha & ->).
        apply obind_ret in Ha as (vt & Hv & [= <- <-]). by constructor.
    - split.
      + inversion 1 as [| | |h' l' m' ts ta cap al off s' Hn Hts Hcap Hal Hoff Hs]; subst h' l' m' s' b.
        apply IH in Hts as (a & Ha & ->). destruct m as [m|]; [|done]. cbn. rewrite Ha. cbn.
        assert (cap = align_bytes (capped_tail_align h a)) as Hc.
        { rewrite Hcap. unfold capped_tail_align. destruct (th_packed h); [by rewrite align_bytes_min|done]. }
        rewrite Hc in Hoff. apply rounds_up_align in Hoff. rewrite Hc, <- align_bytes_max in Hs.
        apply rounds_up_align in Hs. eexists. unfold full_size_and_align, tail_offset. rewrite <- Hoff, <- Hs.
        split; [done|]. rewrite Hc. by rewrite align_bytes_max.
      + cbn. destruct m as [m|]; [|by intros (?&?&?)]. intros (a & Ha & ->).
        apply obind_ret in Ha as ([ts ta] & Hts & Ha). unfold full_size_and_align, tail_offset in Ha.
        injection Ha as <- <-. eapply ps_tuple; [done| | | | |].
        * apply IH. eexists. split; [exact Hts|reflexivity].
        * reflexivity.
        * rewrite align_bytes_max. f_equal. unfold capped_tail_align. destruct (th_packed h); [by rewrite align_bytes_min|done].
        * assert (match th_packed h with Some k => N.min (align_bytes ta) (align_bytes k) | None => align_bytes ta end =
            align_bytes (capped_tail_align h ta)) as ->.
          { unfold capped_tail_align. destruct (th_packed h); [by rewrite align_bytes_min|done]. }
          apply rounds_up_align. reflexivity.
        * by apply rounds_up_align.
  Qed.

  Lemma check_vtable_iff p tn : check_vtable_ptr T env p tn = Ret tt <-> address_ok T (tp_addr p) /\ vtable_for env p tn.
  Proof using.
    unfold check_vtable_ptr, vtable_for, address_ok. split.
    - intros H. apply obind_ret in H as (x & Hx & H). apply ensure_else_ub_ret in Hx. rewrite in_bounds_usize in Hx.
      apply obind_ret in H as (vt & Hv & H). apply ensure_else_ub_ret, bool_decide_eq_true in H. eauto.
    - intros (Ha & vt & Hv & <-). apply in_bounds_usize in Ha. rewrite Ha. cbn. rewrite Hv. cbn.
      by rewrite bool_decide_eq_true_2.
  Qed.

  Lemma check_meta_iff m mk : check_ptr_metadata T env m mk = Ret tt <-> valid_meta T env mk m.
  Proof using.
    unfold check_ptr_metadata. split.
    - destruct m as [[c|p]|], mk; try done.
      + intros H. apply ensure_else_ub_ret in H. unfold can_represent, usize_ty in H. cbn in H. apply in_bounds_usize in H. by constructor.
      + intros H. apply check_vtable_iff in H as []. by constructor.
      + constructor.
    - intros H; inversion_clear H as [|c Hc|tn p Hp Hv]; [done| |by apply check_vtable_iff].
      unfold can_represent, usize_ty. cbn. apply in_bounds_usize in Hc. by rewrite Hc.
  Qed.

  Lemma meta_count_ok mk m : valid_meta T env mk m -> count_ok m.
  Proof using. intros H c ->. inversion_clear H. lia. Qed.

  Lemma isize_iff s : in_bounds Signed (PTR_SIZE T) (Z.of_N s) = true <-> Z.of_N s < 2 ^ (8 * Z.of_N (PTR_SIZE T) - 1).
  Proof using Tok.
    rewrite in_bounds_spec. cbn. unfold size_bits. pose proof (ptr_size_pos T Tok).
    destruct (N.eqb_spec (PTR_SIZE T) 0); [lia|].
    assert (0 < 2 ^ (8 * Z.of_N (PTR_SIZE T) - 1)) by (apply Z.pow_pos_nonneg; lia).
    rewrite ?(Z.mul_comm (Z.of_N _)). lia.
  Qed.

  Lemma check_points_iff (p : Pointer P) pi : count_ok (p_meta p) ->
    (let! size := compute_size env (pi_layout pi) (p_meta p) in
     let! align := compute_align env (pi_layout pi) (p_meta p) in
     let! _ := ensure_else_ub (in_bounds Signed (PTR_SIZE T) (Z.of_N size)) "Value::Ptr: total size exeeds isize::MAX" in
     let! _ := ensure_else_ub (negb (tp_addr (p_thin p) =? 0)) "Value::Ptr: null safe pointer" in
     let! _ := ensure_else_ub (is_aligned align (tp_addr (p_thin p))) "Value::Ptr: unaligned safe pointer" in
     let! _ := ensure_else_ub (pi_inhabited pi) "Value::Ptr: safe pointer to uninhabited type" in
     let! ok := is_ok (ce_deref env (p_thin p) size) in
     ensure_else_ub ok "Value::Ptr: non-dereferenceable safe pointer") = Ret tt <-> points_to T env p pi.
  Proof using Tok.
    intros Hc. unfold points_to, compute_size, compute_align. split.
    - intros H. apply obind_ret in H as (s & Hs & H). apply obind_ret in Hs as ([s' a] & Hsa & [= ->]).
      rewrite Hsa in H. cbn [obind] in H.
      apply obind_ret in H as (? & H1 & H). apply obind_ret in H as (? & H2 & H). apply obind_ret in H as (? & H3 & H).
      apply obind_ret in H as (? & H4 & H). apply obind_ret in H as (ok & H5 & H).
      apply ensure_else_ub_ret in H1, H2, H3, H4, H. exists s, (align_bytes a).
      split; [apply pointee_size_iff; eauto|]. split; [by apply isize_iff|]. split; [lia|].
      split; [unfold is_aligned in H3; lia|]. split; [done|].
      destruct (ce_deref env (p_thin p) s) as [[]| | |]; try done; cbn in H5; congruence.
    - intros (s & b & Hs & H1 & H2 & H3 & H4 & H5). apply pointee_size_iff in Hs as (a & Hsa & ->); [|done].
      rewrite Hsa. cbn [obind]. apply isize_iff in H1. rewrite H1, H4, H5.
      apply Z.eqb_neq in H2. rewrite H2. apply Z.eqb_eq in H3. unfold is_aligned. rewrite H3. done.
  Qed.

  Lemma check_ptr_iff pt p : check_ptr T env p pt = Ret tt <-> valid_ptr T env pt p.
  Proof using Tok.
    unfold check_ptr. split.
    - intros H. apply obind_ret in H as (x & Ha & H). apply ensure_else_ub_ret in Ha. apply in_bounds_usize in Ha.
      apply obind_ret in H as ([] & Hm & H). apply check_meta_iff in Hm.
      destruct pt as [m pi|pi|mk| |tn]; cbn [safe_pointee ptr_meta_kind] in *.
      + apply check_points_iff in H; [by constructor|]. by eapply meta_count_ok.
      + apply check_points_iff in H; [by constructor|]. by eapply meta_count_ok.
      + by constructor.
      + constructor; [done|]. by inversion Hm.
      + apply obind_ret in H as (vt & Hv & H). apply ensure_else_ub_ret, bool_decide_eq_true in H.
        constructor; [done|by inversion Hm|]. exists vt. eauto.
    - intros H. assert (address_ok T (tp_addr (p_thin p)) /\ valid_meta T env (ptr_meta_kind pt) (p_meta p)) as [Ha Hm].
      { inversion H as [mk p' Ha Hm|p' Ha Hm|tn p' Ha Hm Hv|mu pi p' Ha Hm Hp|pi p' Ha Hm Hp]; subst pt p'; (split; [done|]); try done.
        - rewrite Hm. constructor.
        - rewrite Hm. constructor. }
      pose proof Ha as Ha'. apply in_bounds_usize in Ha'. rewrite Ha'.
      pose proof Hm as Hm'. apply check_meta_iff in Hm'. rewrite Hm'. cbn [ensure_else_ub obind].
      apply meta_count_ok in Hm.
      inversion H as [mk p' _ _|p' _ _|tn p' _ Hn Hv|mu pi p' _ _ Hp|pi p' _ _ Hp]; subst pt p'; cbn [safe_pointee]; try done.
      + destruct Hv as (vt & -> & <-). cbn. by rewrite bool_decide_eq_true_2.
      + by apply check_points_iff.
      + by apply check_points_iff.
  Qed.

  Lemma check_value_iff ty v : check_value T env ty v = Ret tt <-> valid_value T env ty v.
  Proof using Tok.
    revert v. induction ty as [it| |pt|fields head u IHf IHu|elem count IHe|elem IHe|fields chunks size align IHf|variants dty discr size align IHv|tn] using Ty_ind'; intros v.
    - destruct it as [sg s]. cbn. unfold can_represent. cbn. split.
      + destruct v; try done. intros H. apply ensure_else_ub_ret, in_bounds_spec in H.
        unfold int_min, int_max, size_bits in H. destruct sg; [|constructor; lia].
        destruct (N.eqb_spec s 0) as [->|Hs]; [|constructor; lia].
        replace i with 0 by lia. apply vv_signed0.
      + intros H. assert (exists i, v = VInt i /\ in_bounds sg s i = true) as (i & -> & Hi).
        { inversion H as [s' i Hi|s' i Hi| | | | | | |]; subst; eexists; (split; [done|]); apply in_bounds_spec;
            unfold int_min, int_max, size_bits; [lia| |cbn; lia].
          destruct (N.eqb_spec s 0) as [->|Hs]; [|lia]. cbn in Hi. lia. }
        by rewrite Hi.
    - cbn. split; [destruct v; try done; constructor|by inversion 1].
    - cbn. split.
      + destruct v; try done. intros H. constructor. by apply check_ptr_iff.
      + inversion_clear 1. by apply check_ptr_iff.
    - rewrite check_tuple_ret. split.
      + intros (-> & vs & -> & HF). constructor. clear IHu. revert vs HF.
        induction IHf as [|f fs Hf _ IH]; intros vs HF; inversion_clear HF as [|? v ? vs' Hv HF']; constructor; [by apply Hf|by apply IH].
      + intros H. inversion H as [| | | | |fs hd vs HF| | |]; subst. split; [done|]. exists vs. split; [done|].
        clear IHu H. revert vs HF.
        induction IHf as [|f fs Hf _ IH]; intros vs HF; inversion_clear HF as [|? v ? vs' Hv HF']; constructor; [by apply Hf|by apply IH].
    - rewrite check_array_ret. split.
      + intros (vs & -> & Hl & HF). constructor; [done|]. eapply Forall_impl; [exact HF|]. intros v. apply IHe.
      + intros H. inversion H as [| | | | | |e c vs Hl HF| |]; subst. exists vs. repeat (split; [done|]).
        eapply Forall_impl; [exact HF|]. intros v. apply IHe.
    - split; [by destruct v|by inversion 1].
    - rewrite check_union_ret. split.
      + intros (data & -> & HF). by constructor.
      + inversion 1; subst. eauto.
    - rewrite check_enum_ret. split.
      + intros (d & w & t & tg & -> & Hg & Hw). econstructor; [exact Hg|].
        pose proof (map_get_in _ _ _ Hg) as Hin. rewrite List.Forall_forall in IHv. by apply (IHv _ Hin).
      + intros H. inversion H as [| | | | | | | |vs' dt dc sz al d t tg w Hg Hw]; subst. exists d, w, t, tg. repeat (split; [done|]).
        pose proof (map_get_in _ _ _ Hg) as Hin. rewrite List.Forall_forall in IHv. by apply (IHv _ Hin).
    - split; [by destruct v|by inversion 1].
  Qed.
End ValueProofs.
