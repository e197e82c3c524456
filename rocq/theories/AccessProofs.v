(** Typed memory accesses and in-bounds pointer arithmetic (C09, C25). *)
From Coq Require Import ZifyBool ZifyN ZifyNat.
From Verif Require Export Machine TreeLike TreeMore TreeGuard OpsProofs ReprTy3.

Section Frame.
  Context {PE AE F : Type}.
  Variable T : Target.
  Notation Prov := (nat * PE)%type.
  Notation Mem := (BMem PE AE).

  (** what dereferenceability looks at *)
  Definition al_view (a : Allocation PE AE) : bool * Z * N := (al_live a, al_addr a, al_size a).
  Definition same_view (m m' : Mem) : Prop :=
    forall id, option_map al_view (m !! id) = option_map al_view (m' !! id).

  Lemma same_view_check m m' ptr len :
    same_view m m' -> bm_check_ptr m ptr len = bm_check_ptr m' ptr len.
  Proof.
    intros H. unfold bm_check_ptr. destruct (len =? 0)%N; [done|].
    destruct (tp_prov ptr) as [[id pe]|]; [|done]. specialize (H id).
    destruct (m !! id) as [a|], (m' !! id) as [a'|]; try discriminate; [|done].
    injection H as H1 H2 H3. cbn [unwrap obind]. rewrite H1, H2, H3. done.
  Qed.

  Lemma same_view_insert m id a a' :
    m !! id = Some a -> al_view a' = al_view a -> same_view m (<[id := a']> m).
  Proof.
    intros Ha Hv j. destruct (decide (j = id)) as [->|Hj].
    - rewrite list_lookup_insert by (by eapply lookup_lt_Some). rewrite Ha. cbn. by rewrite Hv.
    - by rewrite list_lookup_insert_ne.
  Qed.

  Lemma same_view_trans m1 m2 m3 : same_view m1 m2 -> same_view m2 m3 -> same_view m1 m3.
  Proof. intros H1 H2 id. by rewrite H1. Qed.

  Variable MO : MemOps Prov F Mem.
  Variable BL : bm_like T MO.

  Lemma store_view m ptr bytes align m' : mo_store MO m ptr bytes align = Ret m' -> same_view m m'.
  Proof.
    intros H. destruct (bl_store _ _ BL m ptr bytes align) as [h E]. rewrite E in H.
    apply bm_store_ret in H as (_ & [[_ ->]|(_ & id & pe & off & a & ae & data & _ & Ha & _ & _ & _ & _ & Hw & ->)]);
      [done|].
    eapply same_view_insert; [done|]. unfold al_view, al_size. cbn.
    by rewrite (write_subslice_length _ _ _ _ Hw).
  Qed.

  Lemma load_view m ptr len align b m' : mo_load MO m ptr len align = Ret (b, m') -> same_view m m'.
  Proof.
    intros H. destruct (bl_load _ _ BL m ptr len align) as [h E]. rewrite E in H.
    apply bm_load_ret in H as (_ & [(_ & _ & ->)|(_ & id & pe & off & a & ae & _ & Ha & _ & _ & _ & _ & Hw & ->)]);
      [done|].
    by eapply same_view_insert.
  Qed.

  Lemma view_deref m m' ptr len : same_view m m' -> mo_deref MO m ptr len = mo_deref MO m' ptr len.
  Proof. intros H. rewrite !(bl_deref _ _ BL). by rewrite (same_view_check m m' ptr len). Qed.

  (** ** In-bounds pointer arithmetic *)

  Lemma signed_deref_range m p off :
    target_ok T -> allocs_fit T m -> mo_signed_deref MO m p off = Ret tt ->
    0 <= tp_addr p < 2 ^ (8 * Z.of_N (PTR_SIZE T)) ->
    - 2 ^ (8 * Z.of_N (PTR_SIZE T) - 1) <= off < 2 ^ (8 * Z.of_N (PTR_SIZE T) - 1) /\
    0 <= tp_addr p + off < 2 ^ (8 * Z.of_N (PTR_SIZE T)).
  Proof.
    intros Tok [Hfit _] Hd Hp. destruct (Z.eq_dec off 0) as [->|Hoff].
    { assert (0 < 2 ^ (8 * Z.of_N (PTR_SIZE T) - 1)).
      { apply half_pos. pose proof (ptr_size_pos T Tok). lia. }
      lia. }
    unfold mo_signed_deref in Hd.
    assert (exists q len, mo_deref MO m q len = Ret tt /\ len <> 0%N /\
              ((0 < off /\ tp_addr q = tp_addr p /\ Z.of_N len = off) \/
               (off < 0 /\ tp_addr q = tp_addr p + off /\ Z.of_N len = - off))) as (q & len & Hq & Hl & Hc).
    { unfold size_from_bytes in Hd. destruct (0 <? off) eqn:E.
      - destruct (off <? 0) eqn:E0; [lia|]. cbn in Hd. exists p, (Z.to_N off).
        split; [done|]. split; [lia|]. left. lia.
      - destruct (- off <? 0) eqn:E0; [lia|]. cbn in Hd. eexists _, (Z.to_N (- off)).
        split; [done|]. split; [lia|]. right. cbn. lia. }
    rewrite (bl_deref _ _ BL) in Hq. apply obind_ret in Hq as ([[[id pe] o]|] & Hq & _).
    2:{ by apply bm_check_ptr_none in Hq. }
    apply bm_check_ptr_some in Hq as (_ & _ & a & Ha & _ & (H1 & H2) & _).
    destruct (Hfit id a Ha) as (Hpos & _ & Hend & Hsz). unfold in_alloc in *. lia.
  Qed.

  Context `{EqDecision PE}.

  Lemma ptr_offset_inbounds_safe (m : Machine Prov F Mem) p off :
    target_ok T -> allocs_fit T (cm_mem (m_mem m)) ->
    0 <= tp_addr p < 2 ^ (8 * Z.of_N (PTR_SIZE T)) ->
    ptr_offset_inbounds T MO m p off =
    let! _ := mo_signed_deref MO (cm_mem (m_mem m)) p off in
    Ret (mkThin (tp_addr p + off) (tp_prov p)).
  Proof.
    intros Tok Hfit Hp. unfold ptr_offset_inbounds, cm_signed_deref.
    destruct (mo_signed_deref MO (cm_mem (m_mem m)) p off) as [[]| | |] eqn:E; try done.
    destruct (signed_deref_range _ p off Tok Hfit E Hp) as [H1 H2]. cbn [obind].
    assert (PTR_SIZE T <> 0%N) as Hnz by (pose proof (ptr_size_pos T Tok); lia).
    assert (in_bounds Signed (PTR_SIZE T) off = true) as ->.
    { apply in_bounds_spec. unfold int_min, int_max, size_bits.
      destruct (N.eqb_spec (PTR_SIZE T) 0); [done|]. lia. }
    assert (in_bounds Unsigned (PTR_SIZE T) (tp_addr p + off) = true) as ->.
    { apply in_bounds_spec. unfold int_min, int_max, size_bits. lia. }
    done.
  Qed.

  Lemma signed_deref_exact m p off :
    prov_known m p ->
    (offset_ok m p off -> mo_signed_deref MO m p off = Ret tt) /\
    (~ offset_ok m p off -> is_ub (mo_signed_deref MO m p off)).
  Proof.
    intros Hp. unfold mo_signed_deref, size_from_bytes, offset_ok.
    destruct (Z.ltb_spec 0 off) as [Hpos|Hneg].
    - destruct (Z.ltb_spec off 0); [lia|]. cbn [unwrap obind].
      destruct (deref_exact T MO m p (Z.to_N off) BL ltac:(lia) Hp) as [H1 H2]. split.
      + intros [?|[[_ H3]|?]]; [lia| |lia]. apply H1 in H3 as [[] H3]. done.
      + intros Hn. apply H2. intros H3. apply Hn. auto.
    - destruct (Z.ltb_spec (- off) 0); [lia|]. cbn [unwrap obind].
      destruct (Z.eq_dec off 0) as [->|Hz].
      + split; [|by intros []; left]. intros _. rewrite (bl_deref _ _ BL). done.
      + destruct (deref_exact T MO m (mkThin (tp_addr p + off) (tp_prov p)) (Z.to_N (- off)) BL ltac:(lia) Hp)
          as [H1 H2]. split.
        * intros [?|[?|[_ H3]]]; [lia|lia|]. apply H1 in H3 as [[] H3]. done.
        * intros Hn. apply H2. intros H3. apply Hn. right. right. split; [lia|done].
  Qed.

  Lemma ptr_offset_inbounds_exact (m : Machine Prov F Mem) p off :
    target_ok T -> allocs_fit T (cm_mem (m_mem m)) -> prov_known (cm_mem (m_mem m)) p ->
    0 <= tp_addr p < 2 ^ (8 * Z.of_N (PTR_SIZE T)) ->
    (offset_ok (cm_mem (m_mem m)) p off ->
       ptr_offset_inbounds T MO m p off = Ret (mkThin (tp_addr p + off) (tp_prov p)) /\
       - 2 ^ (8 * Z.of_N (PTR_SIZE T) - 1) <= off < 2 ^ (8 * Z.of_N (PTR_SIZE T) - 1) /\
       0 <= tp_addr p + off < 2 ^ (8 * Z.of_N (PTR_SIZE T))) /\
    (~ offset_ok (cm_mem (m_mem m)) p off -> is_ub (ptr_offset_inbounds T MO m p off)).
  Proof.
    intros Tok Hfit Hk Hp. rewrite ptr_offset_inbounds_safe by done.
    destruct (signed_deref_exact _ p off Hk) as [H1 H2]. split; intros Ho.
    - specialize (H1 Ho). rewrite H1. split; [done|]. by apply signed_deref_range with (m := cm_mem (m_mem m)).
    - destruct (H2 Ho) as [msg ->]. by eexists.
  Qed.
End Frame.

(** ** Store, then load *)

Definition store_load_ok {P F M} (MO : MemOps P F M) : Prop :=
  forall m ptr bytes align m1, mo_store MO m ptr bytes align = Ret m1 ->
    exists m2, mo_load MO m1 ptr (N.of_nat (length bytes)) align = Ret (bytes, m2).

Lemma bm_store_load {PE AE} (m m1 : BMem PE AE) ptr bytes align h h' :
  bm_store m ptr bytes align h = Ret m1 ->
  (forall root pe off root', h root pe off = Ret root' -> exists r, h' root' pe off = Ret r) ->
  exists m2, bm_load m1 ptr (N.of_nat (length bytes)) align h' = Ret (bytes, m2).
Proof.
  intros H Hh. pose proof H as H0.
  apply bm_store_ret in H as (Hal & [[-> ->]|(Hne & id & pe & off & a & ae & data & Hp & Ha & Hl & Hin & Hoff & He & Hw & ->)]).
  - unfold bm_load. rewrite Hal. eexists. done.
  - destruct (Hh _ _ _ _ He) as [r Hr]. unfold bm_load. rewrite Hal. cbn [negb].
    assert (Hlook : <[id := mkAlloc data (al_addr a) (al_align a) (al_kind a) (al_live a) ae]> m !! id
              = Some (mkAlloc data (al_addr a) (al_align a) (al_kind a) (al_live a) ae)).
    { apply list_lookup_insert. by eapply lookup_lt_Some. }
    assert (bm_check_ptr (<[id := mkAlloc data (al_addr a) (al_align a) (al_kind a) (al_live a) ae]> m)
              ptr (N.of_nat (length bytes)) = Ret (Some (id, pe, off))) as ->.
    { apply bm_check_ptr_some. split; [destruct bytes; [done|simpl; lia]|]. split; [done|].
      eexists. split; [exact Hlook|]. cbn. split; [done|]. split; [|done].
      unfold in_alloc, al_size in *. cbn. rewrite (write_subslice_length _ _ _ _ Hw). done. }
    cbn [obind]. rewrite Hlook. cbn [unwrap obind al_extra al_data]. rewrite Hr. cbn [obind].
    rewrite (subslice_write_same _ _ _ _ Hw). eexists. done.
Qed.

Lemma basic_store_load T : store_load_ok (BasicOps T).
Proof. intros m ptr bytes align m1 H. eapply bm_store_load; [exact H|]. by eexists. Qed.

Lemma write_then_read n q off size n' :
  node_access n q AkWrite off size = Ret n' -> exists n'', node_access n' q AkRead off size = Ret n''.
Proof.
  intros H. apply node_access_total. intros path ps' pr' o Hi Ho.
  pose proof (node_access_view _ _ _ _ _ _ path H) as Hv. rewrite Hi in Hv.
  destruct (ninfo n path) as [[ps pr]|] eqn:E; [|done]. destruct Hv as [_ Hv].
  apply perms_transition_ret in Hv as [_ Hv]. destruct (Hv o) as [Hv1 _].
  destruct (Hv1 Ho) as (p & p' & Hp & Ht & Hp'). exists p'.
  destruct (rel_at q path), p as [u|u]; cbn in Ht; destruct u as [| | | | |] || destruct u as [|[] []| |[]|];
    cbn in Ht; try discriminate Ht; injection Ht as <-; eexists; split; done.
Qed.

Lemma tree_store_load T : store_load_ok (TreeOps T).
Proof.
  intros m ptr bytes align m1 H. eapply bm_store_load; [exact H|].
  intros root pe off root' Hw. exact (write_then_read _ _ _ _ _ Hw).
Qed.

Section Typed.
  Context {P F M : Type} `{EqDecision P}.
  Variable T : Target.

  Lemma check_value_env (e1 e2 : ChkEnv P) ty v :
    (forall p s, ce_deref e1 p s = ce_deref e2 p s) ->
    (forall p, ce_vtable_from_ptr e1 p = ce_vtable_from_ptr e2 p) ->
    (forall p, ce_vtable_lookup e1 p = ce_vtable_lookup e2 p) ->
    check_value T e1 ty v = Ret tt -> check_value T e2 ty v = Ret tt.
  Proof.
    intros Hd Hv Hl. rewrite !check_value_leaves. intros [Hs H]. split; [done|].
    intros pt p Hlf. specialize (H pt p Hlf). revert H.
    assert (Hm : forall m mk, check_ptr_metadata T e1 m mk = check_ptr_metadata T e2 m mk).
    { intros [[c|q]|] []; cbn; try done. unfold check_vtable_ptr. by rewrite Hv. }
    assert (Hc : forall l m, compute_size_and_align l m (ce_vtable_lookup e1)
                         = compute_size_and_align l m (ce_vtable_lookup e2)).
    { intros l. induction l as [| | |h tl IH]; intros [[c|q]|]; cbn; try done; try (by rewrite Hl);
        by rewrite IH. }
    unfold check_ptr, compute_size, compute_align. rewrite Hm, Hv.
    destruct (safe_pointee pt) as [pi|]; [|done]. rewrite Hc.
    destruct (compute_size_and_align _ _ _) as [[s a]| | |]; cbn [obind]; [by rewrite Hd|done..].
  Qed.
End Typed.

Section StoreLoad.
  Context {PE AE F : Type} `{EqDecision PE}.
  Variable T : Target.
  Notation Prov := (nat * PE)%type.
  Notation Mem := (BMem PE AE).
  Variable MO : MemOps Prov F Mem.

  Lemma view_env (m : Machine Prov F Mem) c c' ty v :
    bm_like T MO -> same_view (cm_mem c) (cm_mem c') ->
    check_value T (chk_env MO (set_mem m c)) ty v = Ret tt ->
    check_value T (chk_env MO (set_mem m c')) ty v = Ret tt.
  Proof.
    intros BL Hv. apply check_value_env; try done. intros p s. by apply (view_deref T).
  Qed.

  Lemma typed_store_load (m m1 : Machine Prov F Mem) ht ptr v ty align at1 at2 :
    bm_like T MO -> store_load_ok MO -> target_ok T ->
    ty_check_wf T ht ty = Ret tt -> (exists s, size_of T ty = Ret s) ->
    coherent T (P := Prov) ty ->
    typed_store T MO m ptr v ty align at1 = Ret m1 ->
    exists m2, typed_load T MO m1 ptr ty align at2 = Ret (v, m2).
  Proof.
    intros BL Hsl Tok Hwf [s Hs] Hco H. unfold typed_store in H.
    apply obind_ret in H as (ok & Hok & H). apply obind_ret in H as ([] & Has & H).
    apply assert_ret in Has as ->.
    assert (Hc : check_value T (chk_env MO m) ty v = Ret tt).
    { destruct (check_value T (chk_env MO m) ty v) as [[]|t| |]; try done; by destruct t. }
    apply obind_ret in H as (bytes & He & H). apply obind_ret in H as (c1 & Hst & [= <-]).
    unfold cm_store in Hst. cbn in Hst. apply obind_ret in Hst as (mm1 & Hst & [= <-]).
    pose proof (store_view T MO BL _ _ _ _ _ Hst) as Hv1.
    destruct (Hsl _ _ _ _ _ Hst) as [mm2 Hld]. pose proof (load_view T MO BL _ _ _ _ _ _ Hld) as Hv2.
    destruct (encode_total T Tok ht ty v Hwf (check_value_shape T (chk_env MO m) ty v Hc)) as (b & Hb & Hlen).
    rewrite He in Hb. injection Hb as <-.
    rewrite (size_of_tsize T _ _ Hs) in Hlen.
    unfold typed_load. rewrite Hs. cbn [obind]. unfold cm_load. cbn [cm_push cm_mem cm_set set_mem m_mem].
    rewrite <- Hlen, Hld. cbn [obind].
    rewrite (decode_encode T Tok ht (chk_env MO m) ty v bytes Hwf Hco Hc He). cbn [obind].
    match goal with |- context [check_value T (chk_env MO ?mm)] =>
      assert (check_value T (chk_env MO mm) ty v = Ret tt) as -> end; [|by eexists].
    unfold set_mem. cbn.
    match goal with |- context [cm_set ?a ?b] => apply (view_env m (m_mem m) (cm_set a b)) end;
      [done| |by destruct m].
    cbn. eapply same_view_trans; [exact Hv1|exact Hv2].
  Qed.
End StoreLoad.
