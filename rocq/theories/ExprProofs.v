(** Evaluation of expressions yields what they mean. *)
From Verif Require Export FlowProofs OpsProofs ValueProofs ExprSpec.
From Verif Require Export DataSpec.
Local Open Scope Z_scope.
From Coq Require Import ZifyBool ZifyN ZifyNat.

Section Expr.
  Context {PE AE F : Type} `{EqDecision (nat * PE)}.
  Variable T : Target.
  Notation P := (nat * PE)%type.
  Notation M := (BMem PE AE).
  Notation Mach := (Machine P F M).
  Variable MO : MemOps P F M.
  Hypothesis BL : bm_like T MO.
  Hypothesis Tok : target_ok T.
  Hypothesis Hret : forall mem f ptr pt fe lk q mem' f', mo_retag MO mem f ptr pt fe lk = Ret (q, mem', f') -> same_dest ptr q.

  (** ** What evaluation leaves as it is *)

  Lemma still_prog (m m1 : Mach) : still m m1 -> m_prog m1 = m_prog m.
  Proof. intros [E _]. exact (f_equal c_prog E). Qed.
  Lemma still_vtptrs (m m1 : Mach) : still m m1 -> m_vtptrs m1 = m_vtptrs m.
  Proof. intros [E _]. exact (f_equal c_vtptrs E). Qed.
  Lemma still_fnptrs (m m1 : Mach) : still m m1 -> m_fnptrs m1 = m_fnptrs m.
  Proof. intros [E _]. exact (f_equal c_fnptrs E). Qed.
  Lemma still_globals (m m1 : Mach) : still m m1 -> m_globals m1 = m_globals m.
  Proof. intros [E _]. exact (f_equal c_globals E). Qed.
  Lemma still_lookup (m m1 : Mach) : still m m1 -> vtable_lookup m1 = vtable_lookup m.
  Proof. intros E. unfold vtable_lookup. by rewrite (still_prog _ _ E), (still_vtptrs _ _ E). Qed.
  Lemma still_sym (m m1 : Mach) : still m m1 -> still m1 m.
  Proof. intros [E1 E2]. split; [by symmetry|by apply alike_sym]. Qed.
  Lemma still_holds (m m1 : Mach) p ty v : still m m1 -> holds T m1 p ty v -> holds T m p ty v.
  Proof. intros [_ E] (bs & Hs & Hst & Hd). exists bs. split; [done|]. split; [|done]. by apply (alike_stores _ _ _ _ E). Qed.
  Lemma alike_span (m m1 : Mach) p n : mview m1 = mview m -> span m1 p n -> span m p n.
  Proof.
    intros E [->|(id & i & a & Hp & Ha & Hn & Hb)]; [by left|]. right.
    apply (view_points _ _ _ _ _ E) in Hp. unfold mview in E.
    assert (mv (cm_mem (m_mem m)) !! id = Some (view a)) as Hv by (by rewrite <-E, mv_lookup, Ha).
    rewrite mv_lookup in Hv. destruct (cm_mem (m_mem m) !! id) as [a'|] eqn:Ea; [|done]. assert (view a' = view a) as Hv' by (cbn in Hv; congruence).
    exists id, i, a'. split; [done|]. split; [done|]. split; [done|]. assert (al_size a' = al_size a) as Es; [|by rewrite Es].
    exact (f_equal v_size Hv').
  Qed.
  Lemma still_reach (m m1 : Mach) p d : still m m1 -> reach m1 p d -> reach m p d.
  Proof. intros [_ [E _]] [H1 H2]. split; intros Hd; eapply alike_span; eauto. Qed.

  (** ** Memory *)

  Lemma deref_span (m : Mach) p n u : cm_deref MO (m_mem m) p n = Ret u -> span m p (Z.of_N n).
  Proof.
    unfold cm_deref. rewrite (bl_deref _ _ BL). intros E. apply obind_ret in E as ([[[id pe] off]|] & E & _).
    - apply bm_check_ptr_some in E as (Hn & Hp & a & Ha & Hl & [_ Hb] & Had). right.
      exists id, (N.to_nat off), a. split; [exists pe, a; repeat split; try done; lia|]. split; [done|]. lia.
    - apply bm_check_ptr_none in E as ->. by left.
  Qed.
  Lemma size_from_bytes_some z s : size_from_bytes z = Some s -> z = Z.of_N s.
  Proof. unfold size_from_bytes. destruct (z <? 0) eqn:E; [done|]. intros [= <-]. lia. Qed.
  Lemma signed_reach (m : Mach) p d u : cm_signed_deref MO (m_mem m) p d = Ret u -> reach m p d.
  Proof.
    unfold cm_signed_deref, mo_signed_deref. destruct (0 <? d) eqn:Ed; intros E.
    - apply obind_ret in E as (s & Hs%unwrap_ret%size_from_bytes_some & E). split; [|lia]. intros _. rewrite Hs. by eapply deref_span.
    - apply obind_ret in E as (s & Hs%unwrap_ret%size_from_bytes_some & E). split.
      + intros H0. left. lia.
      + intros _. rewrite Hs. by eapply deref_span.
  Qed.
  Lemma inbounds_ret (m : Mach) p d q : ptr_offset_inbounds T MO m p d = Ret q ->
    reach m p d /\ q = mkThin (tp_addr p + d) (tp_prov p).
  Proof.
    unfold ptr_offset_inbounds. intros E. apply obind_ret in E as (u & Hd & E). apply obind_ret in E as (u1 & _ & E).
    apply obind_ret in E as (u2 & _ & [= <-]). split; [by eapply signed_reach|done].
  Qed.

  Lemma span_deref (m : Mach) p n : span m p (Z.of_N n) -> cm_deref MO (m_mem m) p n = Ret tt.
  Proof.
    unfold cm_deref. rewrite (bl_deref _ _ BL). unfold bm_check_ptr. intros [Hn|(id & i & a & (pe & a' & Hp & Ha' & Hl & Had) & Ha & Hn & Hb)].
    - destruct (N.eqb_spec n 0); [done|lia].
    - destruct (N.eqb_spec n 0); [lia|]. rewrite Ha in Ha'. injection Ha' as <-. rewrite Hp, Ha. cbn [unwrap obind]. rewrite Hl. cbn [negb].
      cbn zeta. destruct ((_ <? 0) || _) eqn:E; [lia|]. unfold size_from_bytes. destruct (_ <? 0) eqn:E'; [lia|]. done.
  Qed.
  Lemma valid_of (m m1 : Mach) ty v : still m m1 -> check_value T (chk_env MO m1) ty v = Ret tt -> valid T m ty v.
  Proof.
    intros Hst Hc. exists (chk_env MO m1). split; [|split; [|split; [|by apply check_value_iff]]].
    - intros p n. cbn. split; intros Hd.
      + eapply alike_span; [apply Hst|by eapply deref_span].
      + apply span_deref. eapply alike_span; [symmetry; apply Hst|done].
    - cbn. unfold vtable_from_ptr. by rewrite (still_prog _ _ Hst), (still_vtptrs _ _ Hst).
    - cbn. apply (still_lookup _ _ Hst).
  Qed.

  (** ** Discriminants *)


  Lemma accessor_holds (m m1 m2 : Mach) p off it bs : still m m1 -> load_accessor T MO p m1 off (it_size it) = Ret (bs, m2) ->
    still m m2 /\ reach m p (Z.of_N off) /\ forall x, decode_int_opt T it bs = Ret (Some x) -> holds_int T m (past p off) it x.
  Proof.
    intros Hst Hl. unfold load_accessor in Hl. apply obind_ret in Hl as (q & [Hr ->]%inbounds_ret & Hl).
    apply obind_ret in Hl as ([bs' mem] & Hl & [= <- <-]).
    pose proof (cm_load_still T MO BL m1 (mkThin (tp_addr p + Z.of_N off) (tp_prov p)) (it_size it) align_one NonAtomic) as Hq.
    rewrite Hl in Hq. cbn in Hq. split; [by eapply still_trans|]. split; [by eapply still_reach|]. intros x Hd.
    apply (cm_load_reads T MO BL) in Hl as [Hn Hl]. exists bs'.
    split; [done|]. split; [by apply (alike_stores _ _ _ _ (proj2 Hst))|]. cbn [decode]; unfold decode_int; by rewrite Hd.
  Qed.
  Lemma in_range_iff x lo hi : in_range x (lo, hi) = true <-> lo <= x < hi.
  Proof. unfold in_range. cbn. lia. Qed.
  Lemma discr_means (m : Mach) p d m1 x m2 : still m m1 ->
    decode_discriminant T (load_accessor T MO p) d m1 = Ret (Some x, m2) -> discr_at T m p d x.
  Proof.
    revert m1 x m2. induction d as [d| |o it fb ch IHf IHc] using Discriminator_ind'; intros m1 x m2 Hst; cbn [decode_discriminant].
    { intros [= <- _]. constructor. } { done. }
    intros E. apply obind_ret in E as ([bs m3] & Hl & E). apply obind_ret in E as (o' & Ho & E). destruct o' as [y|]; [|done].
    destruct (accessor_holds _ _ _ _ _ _ _ Hst Hl) as (Hst' & Hre & Hy). specialize (Hy _ Ho).
    assert (forall l1 l2, ch = l1 ++ l2 -> (forall lo hi c, In ((lo, hi), c) l1 -> ~ lo <= y < hi) ->
       match find_child (fun c => decode_discriminant T (load_accessor T MO p) c m3) y l2 with
       | Some r => r = Ret (Some x, m2)
       | None => decode_discriminant T (load_accessor T MO p) fb m3 = Ret (Some x, m2)
       end -> discr_at T m p (DBranch o it fb ch) x) as Hg.
    { intros l1 l2. revert l1. induction l2 as [|[[lo hi] c] l2 IH]; intros l1 Hc Hno; cbn [find_child].
      - intros Hfb. rewrite app_nil_r in Hc. subst l1. eapply da_fallback; eauto.
      - destruct (in_range y (lo, hi)) eqn:Er.
        + intros Hr. apply in_range_iff in Er. subst ch. eapply da_child; eauto. rewrite Forall_forall in IHc.
          apply (IHc ((lo, hi), c)) with m3 m2; [|done|done]. rewrite elem_of_app. right. left.
        + apply (IH (l1 ++ [((lo, hi), c)])); [by rewrite <-app_assoc|]. intros lo' hi' c' [Hin|[[= <- <- <-]|[]]]%in_app_iff; [by eapply Hno|].
          rewrite <-in_range_iff, Er. done. }
    apply (Hg [] ch); [done|by intros ? ? ? []|]. by destruct (find_child _ _ _).
  Qed.

  (** ** Sizes, fields and operators *)

  Lemma chk_compute (m m1 : Mach) l meta : still m m1 ->
    compute_size_and_align l meta (ce_vtable_lookup (chk_env MO m1)) = compute_size_and_align l meta (vtable_lookup m).
  Proof. intros Hs. cbn [chk_env ce_vtable_lookup]. by rewrite (still_lookup _ _ Hs). Qed.
  Lemma compute_size_ret (m m1 : Mach) l meta s : still m m1 -> compute_size (chk_env MO m1) l meta = Ret s ->
    exists al, compute_size_and_align l meta (vtable_lookup m) = Ret (s, al).
  Proof.
    intros Hs. unfold compute_size. rewrite (chk_compute _ _ _ _ Hs). intros E. apply obind_ret in E as ([s' al] & E & [= <-]). by exists al.
  Qed.
  Lemma compute_align_ret (m m1 : Mach) l meta al : still m m1 -> compute_align (chk_env MO m1) l meta = Ret al ->
    exists s, compute_size_and_align l meta (vtable_lookup m) = Ret (s, al).
  Proof.
    intros Hs. unfold compute_align. rewrite (chk_compute _ _ _ _ Hs). intros E. apply obind_ret in E as ([s' al'] & E & [= <-]). by exists s'.
  Qed.
  Lemma list_get_some {A} (l : list A) i x : list_get l i = Some x -> exists k, i = Z.of_nat k /\ l !! k = Some x.
  Proof. unfold list_get. destruct (i <? 0) eqn:E; [done|]. intros E'. exists (Z.to_nat i). split; [lia|done]. Qed.
  Lemma capped_bytes h a : align_bytes (capped_tail_align h a) =
    match th_packed h with Some b => N.min (align_bytes a) (align_bytes b) | None => align_bytes a end.
  Proof.
    unfold capped_tail_align. destruct (th_packed h) as [b|]; [|done]. unfold align_min, align_bytes. cbn [align_log2].
    destruct (N.le_ge_cases (align_log2 a) (align_log2 b)) as [Hl|Hl].
    - rewrite N.min_l by done. rewrite N.min_l; [done|]. by apply N.pow_le_mono_r.
    - rewrite N.min_r by done. rewrite N.min_r; [done|]. by apply N.pow_le_mono_r.
  Qed.
  Lemma field_means (m m1 : Mach) ty meta i off fty : still m m1 -> field_of T MO m1 ty meta i = Ret (off, fty) ->
    field_at T m ty meta i off fty.
  Proof.
    intros Hst. destruct ty as [it| |pt|fields head u|elem count|elem|fields chunks s al|variants dty d s al|tn]; cbn [field_of]; try done.
    - destruct ((0 <=? i) && _) eqn:Ei.
      + intros Hg%unwrap_ret%list_get_some. destruct Hg as (k & -> & Hk). by constructor.
      + destruct (i =? _) eqn:Ee; [|done]. apply Z.eqb_eq in Ee as ->. intros E.
        apply obind_ret in E as (t & Ht%unwrap_ret & E). subst u. apply obind_ret in E as (l & Hl & E).
        apply obind_ret in E as (al & Ha & [= <- <-]). apply (compute_align_ret _ _ _ _ _ Hst) in Ha as [s Hs].
        eapply fa_tail; [by exists l|reflexivity|]. rewrite <-capped_bytes. unfold tail_offset.
        pose proof (align_to_spec (th_end head) (capped_tail_align head al)). lia.
    - intros Hg%unwrap_ret%list_get_some. destruct Hg as (k & -> & Hk). by constructor.
  Qed.
  Lemma meta_decode_means mk (v : Value P) (meta : option (PtrMeta P)) : meta_decode_value mk v = Ret meta -> exists mty, meta_value T mk meta v mty.
  Proof.
    destruct mk, v as [| |[p [|]]|[|]| |]; cbn; try done; intros [= <-]; eexists; constructor.
  Qed.
  Lemma meta_encode_means mk (meta : option (PtrMeta P)) (v : Value P) : meta_encode_as_value mk meta = Ret v -> meta_value T mk meta v (meta_kind_ty T mk).
  Proof. destruct mk, meta as [[|]|]; cbn; try done; intros [= <-]; constructor. Qed.
  Lemma usize_ok : int_ok (mkIntTy Unsigned (PTR_SIZE T)) /\ int_ok (mkIntTy Signed (PTR_SIZE T)).
  Proof.
    pose proof (tok_usize _ Tok) as E. unfold int_align in E. apply obind_ret in E as (a & Ha%unwrap_ret & _).
    apply align_from_bytes_some in Ha. pose proof (align_bytes_pos a). cbn in Ha. split; unfold int_ok; cbn; lia.
  Qed.

  Lemma transmute_ret env (v : Value P) ty ty' w : transmute T env v ty ty' = Ret w ->
    exists bs, encode T ty v = Ret bs /\ decode T ty' bs = Ret (Some w) /\ check_value T env ty' w = Ret tt.
  Proof.
    unfold transmute. intros E. apply obind_ret in E as (s1 & _ & E). apply obind_ret in E as (s2 & _ & E). apply obind_ret in E as (u0 & _ & E). apply obind_ret in E as (bs & Hb & E). apply obind_ret in E as (o & Ho & E). exists bs. split; [done|].
    destruct o as [u|]; [|done]. apply obind_ret in E as ([] & Hc & [= <-]). done.
  Qed.
  Lemma un_op_means (m m1 : Mach) op v ty w wty : still m m1 -> eval_un_op T MO m1 op (v, ty) = Ret (w, wty) ->
    un_means T m op v ty w wty.
  Proof.
    intros Hst. destruct op as [op|[it|ty']| | |t|t|method]; cbn [eval_un_op].
    - destruct ty as [it| | | | | | | |], v as [i| | | | |]; try done. intros E. apply obind_ret in E as (r & Hr & E).
      apply obind_ret in E as (u & _ & [= <- <-]). by constructor.
    - destruct v as [i| | | | |]; try done. intros [= <- <-]. constructor.
    - intros E. apply obind_ret in E as (s1 & H1 & E). apply obind_ret in E as (s2 & H2 & E).
      destruct (s1 =? s2)%N eqn:Es; [|done]. apply N.eqb_eq in Es as ->. cbn [negb] in E.
      apply obind_ret in E as (x & Hx & [= <- <-]). apply transmute_ret in Hx as (bs & Hb & Hd & Hc%(valid_of _ _ _ _ Hst)).
      by eapply um_transmute.
    - destruct v as [| |p| | |]; try done. intros [= <- <-]. constructor.
    - destruct v as [| |p| | |], ty as [| |pt| | | | | |]; try done. intros E. apply obind_ret in E as (mv & Hv & E).
      apply obind_ret in E as (u & _ & [= <- <-]). constructor. by apply meta_encode_means.
    - intros E. apply obind_ret in E as (meta & Hm & E). apply obind_ret in E as (l & Hl & E). apply obind_ret in E as (s & Hs & [= <- <-]).
      apply meta_decode_means in Hm as [mty Hm]. apply (compute_size_ret _ _ _ _ _ Hst) in Hs as [al Hs].
      eapply um_size; [done|]. by exists l.
    - intros E. apply obind_ret in E as (meta & Hm & E). apply obind_ret in E as (l & Hl & E). apply obind_ret in E as (al & Hs & [= <- <-]).
      apply meta_decode_means in Hm as [mty Hm]. apply (compute_align_ret _ _ _ _ _ Hst) in Hs as [s Hs].
      eapply um_align; [done|]. by exists l.
    - destruct v as [| |p| | |], ty as [| |pt| | | | | |]; try done. intros E. apply obind_ret in E as (vt & Hv & E).
      apply obind_ret in E as (fn & Hf%unwrap_ret & E). apply obind_ret in E as (fp & Hp%unwrap_ret & [= <- <-]).
      unfold vtable_lookup in Hv. apply obind_ret in Hv as ([n q] & Hn%unwrap_ret & Hv%unwrap_ret).
      apply find_some in Hn as [Hn Hq]. cbn in Hq. apply bool_decide_eq_true in Hq as ->.
      rewrite (still_vtptrs _ _ Hst) in Hn. rewrite (still_prog _ _ Hst) in Hv. rewrite (still_fnptrs _ _ Hst) in Hp.
      eapply um_method; eauto.
  Qed.
  Lemma bin_op_means (m m1 : Mach) op v1 ty1 v2 ty2 w wty : still m m1 -> eval_bin_op T MO m1 op (v1, ty1) (v2, ty2) = Ret (w, wty) ->
    bin_means T m op v1 ty1 v2 w wty.
  Proof.
    intros Hst. destruct usize_ok as [Hu Hi]. destruct op as [op|op|rel|inb|inb nn|pt]; cbn [eval_bin_op].
    - destruct ty1 as [it| | | | | | | |], v1 as [i| | | | |], v2 as [j| | | | |]; try done. intros E. apply obind_ret in E as (r & Hr & [= <- <-]). by constructor.
    - destruct ty1 as [it| | | | | | | |], v1 as [i| | | | |], v2 as [j| | | | |]; try done. destruct (int_bin_op_overflow _ _ _ _) as [r o] eqn:Er.
      intros E. apply obind_ret in E as (ty & Ht & [= <- <-]). by constructor.
    - intros E. by constructor.
    - destruct v1 as [| |[p [|]]| | |], v2 as [k| | | | |]; try done. destruct inb; intros E; apply obind_ret in E as (q & Hq & [= <- <-]).
      + apply inbounds_ret in Hq as [Hr ->]. constructor. by eapply still_reach.
      + injection Hq as <-. constructor. exact (wraps_bring (mkIntTy Unsigned (PTR_SIZE T)) (tp_addr p + k) Hu).
    - destruct v1 as [| |[p [|]]| | |], v2 as [| |[q [|]]| | |]; try done. intros E. apply obind_ret in E as (d & Hd & E).
      destruct (nn && (d <? 0)) eqn:En; [done|]. injection E as <- <-. destruct inb.
      + apply obind_ret in Hd as (u1 & H1%signed_reach & Hd). apply obind_ret in Hd as (u2 & H2%signed_reach & [= <-]).
        constructor; [lia|by eapply still_reach|by eapply still_reach|]. intros ->. lia.
      + injection Hd as <-. constructor; [exact (wraps_bring (mkIntTy Signed (PTR_SIZE T)) (tp_addr p - tp_addr q) Hi)|]. intros ->. lia.
    - destruct v1 as [| |[p [|]]| | |]; try done. intros E. apply obind_ret in E as (meta & Hm & E).
      apply obind_ret in E as ([] & Hc & [= <- <-]). apply meta_decode_means in Hm as [mty Hm]. econstructor; [done|]. by eapply valid_of.
  Qed.
  Lemma constant_means (m m1 : Mach) c v : still m m1 -> eval_constant T m1 c = Ret v -> const_means T m c v.
  Proof.
    intros Hst. destruct usize_ok as [Hu Hi]. destruct c as [i|b|r|f|vt|a]; cbn [eval_constant].
    - intros [= <-]. constructor.
    - intros [= <-]. constructor.
    - intros E. apply obind_ret in E as (p & Hp%unwrap_ret & [= <-]). rewrite (still_globals _ _ Hst) in Hp.
      econstructor; [done|]. exact (wraps_bring (mkIntTy Unsigned (PTR_SIZE T)) _ Hu).
    - intros E. apply obind_ret in E as (p & Hp%unwrap_ret & [= <-]). rewrite (still_fnptrs _ _ Hst) in Hp. by constructor.
    - intros E. apply obind_ret in E as (p & Hp%unwrap_ret & [= <-]). rewrite (still_vtptrs _ _ Hst) in Hp. by constructor.
    - intros [= <-]. constructor.
  Qed.

  (** ** Expressions *)

  Lemma place_load_valid (m m1 m2 : Mach) pl ty v : still m m1 -> place_load T MO m1 pl ty = Ret (v, m2) -> valid T m ty v.
  Proof.
    intros Hst E. unfold place_load in E. destruct (negb _); [done|]. pose proof (typed_load_still T MO BL m1 (p_thin (pl_ptr pl)) ty align_one NonAtomic) as Hs.
    rewrite E in Hs. cbn in Hs. unfold typed_load in E. apply obind_ret in E as (s & _ & E). apply obind_ret in E as ([bs mem] & _ & E).
    cbn zeta in E. apply obind_ret in E as ([w|] & _ & E); [|done]. apply obind_ret in E as ([] & Hc & [= <- <-]).
    eapply valid_of; [|exact Hc]. by eapply still_trans.
  Qed.

  Lemma retag_ptr_dest (m m1 : Mach) ptr pt fe q : retag_ptr MO m ptr pt fe = Ret (q, m1) -> same_dest ptr q.
  Proof.
    unfold retag_ptr. intros E. apply obind_ret in E as (f & _ & E). apply obind_ret in E as ([[q' mem] ex] & Hr & E).
    apply obind_ret in E as (m2 & _ & [= <- <-]). apply obind_ret in Hr as ([[q'' mem'] ex'] & Hr & [= <- <- <-]). by eapply Hret.
  Qed.
  Lemma cur_frame_top (m m1 : Mach) f : still m m1 -> cur_frame m1 = Ret f -> exists g, top_frame m g /\ same_frame g f.
  Proof.
    intros Hst Hf. unfold cur_frame in Hf. apply obind_ret in Hf as (t & Ht%unwrap_ret & Hh%unwrap_ret).
    assert (m_active m1 = m_active m) as Ea by exact (f_equal c_active (proj1 Hst)). rewrite Ea in Ht.
    destruct (same_thread _ _ _ _ (proj1 Hst) Ht) as (t0 & Ht0 & Hs & _). destruct (t_stack t) as [|f' r']; [done|]. injection Hh as ->.
    inversion Hs as [|g ? r ? Hg Hr E1 E2]; subst. exists g. split; [|done]. exists t0, r. done.
  Qed.

  Lemma eval_means :
    (forall e (m m1 : Mach), still m m1 -> post (eval_value T MO e m1) (fun r => value_means T m e (fst (fst r)) (snd (fst r)))) /\
    (forall p (m m1 : Mach), still m m1 -> post (eval_place T MO p m1) (fun r => place_means T m p (pl_ptr (fst (fst r))) (pl_aligned (fst (fst r))) (snd (fst r)))).
  Proof.
    apply Expr_ind'.
    - intros c ty m m1 Hst. cbn [eval_value]. apply post_intro. intros r E. apply obind_ret in E as (v & Hv & [= <-]).
      constructor. by eapply constant_means.
    - intros es ty IH m m1 Hst. cbn [eval_value]. apply post_intro. intros r E. apply obind_ret in E as ([vs m2] & Hv & [= <-]).
      cbn. constructor. revert m1 Hst vs m2 Hv. induction IH as [|e es He Hes IH]; intros m1 Hst vs m2 Hv; cbn in Hv.
      + injection Hv as <- <-. constructor.
      + apply obind_ret in Hv as ([[v vty] m3] & He' & Hv). apply obind_ret in Hv as ([vs' m4] & Hv' & [= <- <-]).
        pose proof (eval_value_still T MO BL e m1) as H3. specialize (He m m1 Hst). rewrite He' in He, H3. cbn in *.
        econstructor; [exact He|]. eapply IH; [|exact Hv']. by eapply still_trans.
    - intros i e ty IH m m1 Hst. cbn [eval_value]. apply post_intro. intros r E.
      destruct ty as [| | | | | |fields chunks s al| |]; try done.
      apply obind_ret in E as ([off fty] & Hg%unwrap_ret%list_get_some & E). destruct Hg as (k & -> & Hk).
      apply obind_ret in E as ([[v vty] m2] & Hv & E). apply obind_ret in E as (bs & Hb & E).
      apply obind_ret in E as (data & Hw & E). apply obind_ret in E as (o & Ho & E). apply obind_ret in E as (u & Hu%unwrap_ret & [= <-]).
      subst o. specialize (IH m m1 Hst). rewrite Hv in IH. cbn in *.
      assert (length (list_repeat (@Uninit P) s) = N.to_nat s) as Hls by (by rewrite list_repeat_std, repeat_length).
      econstructor; [done|exact IH|done| | |done]; [by rewrite (write_subslice_length _ _ _ _ Hw)|].
      intros j Hj. rewrite (write_subslice_length _ _ _ _ Hw) in Hj. rewrite (write_subslice_lookup _ _ _ _ _ Hw).
      destruct ((_ <=? _)%nat && _); [done|]. destruct (list_repeat _ _ !! j) as [b|] eqn:Ej; [by apply list_repeat_lookup_uninit in Ej as ->|].
      apply lookup_ge_None in Ej. lia.
    - intros d e ty IH m m1 Hst. cbn [eval_value]. apply post_intro. intros r E. apply obind_ret in E as ([[v vty] m2] & Hv & [= <-]).
      specialize (IH m m1 Hst). rewrite Hv in IH. by econstructor.
    - intros p IH m m1 Hst. cbn [eval_value]. apply post_intro. intros r E. apply obind_ret in E as ([[pl ty] m2] & Hv & E). change (eval_place T MO p m1 = Ret (pl, ty, m2)) in Hv.
      specialize (IH m m1 Hst). pose proof (eval_place_still T MO BL p m1) as H2. rewrite Hv in IH, H2. cbn in IH, H2.
      destruct ty as [| | | | | | |variants dty discr s al|]; try done. destruct (pl_aligned pl) eqn:Eal; [|done]. cbn [negb] in E.
      apply obind_ret in E as ([o m3] & Hd & E). destruct o as [d|]; [|done]. injection E as <-. cbn.
      econstructor; [exact IH|]. eapply discr_means; [|exact Hd]. by eapply still_trans.
    - intros p IH m m1 Hst. cbn [eval_value]. apply post_intro. intros r E. apply obind_ret in E as ([[pl ty] m2] & Hv & E). change (eval_place T MO p m1 = Ret (pl, ty, m2)) in Hv.
      specialize (IH m m1 Hst). pose proof (eval_place_still T MO BL p m1) as H2. rewrite Hv in IH, H2. cbn in IH, H2.
      apply obind_ret in E as ([v m3] & Hl & [= <-]). assert (still m m2) as Hst2 by (by eapply still_trans). assert (valid T m ty v) as Hva by (by eapply place_load_valid).
      apply (place_load_holds T MO BL) in Hl as [Hal Hl]. rewrite Hal in IH. cbn.
      econstructor; [exact IH| |done]. eapply still_holds; [|exact Hl]. done.
    - intros p pt IH m m1 Hst. cbn [eval_value]. apply post_intro. intros r E. apply obind_ret in E as ([[pl ty] m2] & Hv & E). change (eval_place T MO p m1 = Ret (pl, ty, m2)) in Hv.
      specialize (IH m m1 Hst). pose proof (eval_place_still T MO BL p m1) as H2. rewrite Hv in IH, H2. cbn in IH, H2. apply obind_ret in E as ([] & Hc & E).
      apply obind_ret in E as ([q m3] & Hr & [= <-]). cbn. econstructor; [exact IH| |by eapply retag_ptr_dest]. eapply valid_of; [|exact Hc]. by eapply still_trans.
    - intros op e IH m m1 Hst. cbn [eval_value]. apply post_intro. intros r E. apply obind_ret in E as ([[v vty] m2] & Hv & E).
      specialize (IH m m1 Hst). pose proof (eval_value_still T MO BL e m1) as H2. rewrite Hv in IH, H2. cbn in IH, H2.
      apply obind_ret in E as ([w wty] & Hw & [= <-]). cbn. econstructor; [exact IH|]. eapply un_op_means; [|exact Hw]. by eapply still_trans.
    - intros op e1 e2 IH1 IH2 m m1 Hst. cbn [eval_value]. apply post_intro. intros r E. apply obind_ret in E as ([[v1 ty1] m2] & Hv & E).
      specialize (IH1 m m1 Hst). pose proof (eval_value_still T MO BL e1 m1) as H2. rewrite Hv in IH1, H2. cbn in IH1, H2.
      assert (still m m2) as Hst2 by (by eapply still_trans). apply obind_ret in E as ([[v2 ty2] m3] & Hv2 & E).
      specialize (IH2 m m2 Hst2). pose proof (eval_value_still T MO BL e2 m2) as H3. rewrite Hv2 in IH2, H3. cbn in IH2, H3.
      apply obind_ret in E as ([w wty] & Hw & [= <-]). cbn. econstructor; [exact IH1|exact IH2|]. eapply bin_op_means; [|exact Hw].
      by eapply still_trans.
    - intros l m m1 Hst. cbn [eval_place]. apply post_intro. intros r E. apply obind_ret in E as (f & Hf & E).
      apply obind_ret in E as (ty & Ht%unwrap_ret & E). destruct (map_get (f_locals f) l) as [p|] eqn:Ep; [|done]. injection E as <-.
      destruct (cur_frame_top _ _ _ Hst Hf) as (g & Hg & Efn & Elo & _). rewrite Efn in Ht. rewrite Elo in Ep. cbn. by econstructor.
    - intros e ty IH m m1 Hst. cbn [eval_place]. apply post_intro. intros r E. apply obind_ret in E as ([[v vty] m2] & Hv & E). change (eval_value T MO e m1 = Ret (v, vty, m2)) in Hv.
      specialize (IH m m1 Hst). pose proof (eval_value_still T MO BL e m1) as H2. rewrite Hv in IH, H2. cbn in IH, H2.
      assert (still m m2) as Hst2 by (by eapply still_trans).
      destruct v as [| |ptr| | |], vty as [| |pt| | | | | |]; try done. apply obind_ret in E as (u & Hsafe & E).
      apply obind_ret in E as (l & Hl & E). apply obind_ret in E as (al & Ha & [= <-]). cbn.
      apply (compute_align_ret _ _ _ _ _ Hst2) in Ha as [s Hs].
      econstructor; [exact IH|by exists l|by rewrite <-is_aligned_spec|].
      intros pi n nal Hpi Hn. rewrite Hpi in Hsafe. apply obind_ret in Hsafe as (a' & Ha' & Hsafe).
      apply obind_ret in Hsafe as (u' & Has & Hsafe). apply obind_ret in Hsafe as (s' & Hs' & Hd).
      apply (compute_align_ret _ _ _ _ _ Hst2) in Ha' as [s2 Ha']. apply (compute_size_ret _ _ _ _ _ Hst2) in Hs' as [al2 Hs'].
      rewrite Hn in Ha', Hs'. injection Ha' as <- <-. injection Hs' as <- _. split.
      + apply deref_span in Hd. eapply alike_span; [|exact Hd]. apply Hst2.
      + apply is_aligned_spec. by destruct (is_aligned nal _).
    - intros p i IH m m1 Hst. cbn [eval_place]. apply post_intro. intros r E. apply obind_ret in E as ([[pl ty] m2] & Hv & E). change (eval_place T MO p m1 = Ret (pl, ty, m2)) in Hv.
      specialize (IH m m1 Hst). pose proof (eval_place_still T MO BL p m1) as H2. rewrite Hv in IH, H2. cbn in IH, H2.
      assert (still m m2) as Hst2 by (by eapply still_trans). apply obind_ret in E as ([off fty] & Hf & E).
      apply obind_ret in E as (l & _ & E). apply obind_ret in E as (s & _ & E). apply obind_ret in E as (u & _ & E).
      apply obind_ret in E as (q & Hq & E). apply obind_ret in E as (fl & Hfl & [= <-]). apply inbounds_ret in Hq as [Hr ->]. cbn.
      econstructor; [exact IH|by eapply field_means|by eapply still_reach|].
      destruct fl as [s' al'| | |]; cbn; [left|right|right|right]; (split; [|done]); [by eauto|..]; intros; rewrite Hfl; done.
    - intros p e IHp IHe m m1 Hst. cbn [eval_place]. apply post_intro. intros r E. apply obind_ret in E as ([[pl ty] m2] & Hv & E). change (eval_place T MO p m1 = Ret (pl, ty, m2)) in Hv.
      specialize (IHp m m1 Hst). pose proof (eval_place_still T MO BL p m1) as H2. rewrite Hv in IHp, H2. cbn in IHp, H2.
      assert (still m m2) as Hst2 by (by eapply still_trans). apply obind_ret in E as ([[iv ity] m3] & Hi & E). change (eval_value T MO e m2 = Ret (iv, ity, m3)) in Hi.
      specialize (IHe m m2 Hst2). pose proof (eval_value_still T MO BL e m2) as H3. rewrite Hi in IHe, H3. cbn in IHe, H3.
      assert (still m m3) as Hst3 by (by eapply still_trans). destruct iv as [i| | | | |]; try done.
      apply obind_ret in E as ([elem count] & Hty & E). destruct ((i <? 0) || (count <=? i)) eqn:Eb; [done|].
      apply obind_ret in E as (s & Hs & E). apply obind_ret in E as (off & Ho & E). apply obind_ret in E as (l & _ & E).
      apply obind_ret in E as (s2 & _ & E). apply obind_ret in E as (u & _ & E). apply obind_ret in E as (q & Hq & [= <-]).
      apply inbounds_ret in Hq as [Hr ->]. cbn. assert (off = s * Z.to_N i)%N as ->.
      { unfold size_mul in Ho. apply unwrap_ret, size_from_bytes_some in Ho. lia. }
      change (mkThin (tp_addr (p_thin (pl_ptr pl)) + Z.of_N (s * Z.to_N i)) (tp_prov (p_thin (pl_ptr pl)))) with (past (p_thin (pl_ptr pl)) (s * Z.to_N i)).
      eapply pm_index with (count := count); [exact IHp|exact IHe| |lia|done|].
      + destruct ty; try done; [left; congruence|right]. destruct (p_meta (pl_ptr pl)) as [[|]|]; try done. injection Hty as -> ->. done.
      + eapply still_reach; [exact Hst3|]. replace (Z.of_N s * i) with (Z.of_N (s * Z.to_N i)) by lia. done.
    - intros p d IH m m1 Hst. cbn [eval_place]. apply post_intro. intros r E. apply obind_ret in E as ([[pl ty] m2] & Hv & E). change (eval_place T MO p m1 = Ret (pl, ty, m2)) in Hv.
      specialize (IH m m1 Hst). rewrite Hv in IH. cbn in IH. destruct ty as [| | | | | | |variants dty discr s al|]; try done.
      apply obind_ret in E as ([t tg] & Ht%unwrap_ret & [= <-]). cbn. by econstructor.
  Qed.
  Lemma value_meaning (m m1 m2 : Mach) e v ty : still m m1 -> eval_value T MO e m1 = Ret (v, ty, m2) ->
    value_means T m e v ty /\ still m m2.
  Proof.
    intros Hst E. pose proof (proj1 eval_means e m m1 Hst) as H1. pose proof (eval_value_still T MO BL e m1) as H2.
    rewrite E in H1, H2. split; [done|by eapply still_trans].
  Qed.
  Lemma place_meaning (m m1 m2 : Mach) p pl ty : still m m1 -> eval_place T MO p m1 = Ret (pl, ty, m2) ->
    place_means T m p (pl_ptr pl) (pl_aligned pl) ty /\ still m m2.
  Proof.
    intros Hst E. pose proof (proj2 eval_means p m m1 Hst) as H1. pose proof (eval_place_still T MO BL p m1) as H2.
    rewrite E in H1, H2. split; [done|by eapply still_trans].
  Qed.
End Expr.
