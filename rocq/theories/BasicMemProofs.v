(** Proofs about the basic memory model. *)
From Verif Require Export MemSpec ReprMore.
From Coq Require Import ZifyBool ZifyN ZifyNat.

Section Generic.
  Context {PE AE : Type}.
  Variable T : Target.
  Notation Prov := (nat * PE)%type.
  Notation Mem := (BMem PE AE).

  (** ** Inversion *)

  Lemma bm_allocate_ret (m : Mem) kind size align pe ae addr p m' :
    bm_allocate T m kind size align pe ae addr = Ret (p, m') ->
    valid_size T size = true /\ bm_addr_ok T m size align addr = true /\
    p = mkThin addr (Some (length m, pe)) /\
    m' = m ++ [mkAlloc (list_repeat Uninit size) addr align kind true ae].
  Proof.
    unfold bm_allocate. destruct (valid_size T size); [|discriminate]. simpl.
    destruct (bm_addr_ok T m size align addr); [|discriminate]. simpl. intros [= <- <-]. done.
  Qed.

  (** the pointer is in the allocation *)
  Definition in_alloc (a : Allocation PE AE) (addr : Address) (len : Size) : Prop :=
    al_addr a <= addr /\ addr + Z.of_N len <= al_addr a + Z.of_N (al_size a).

  Lemma bm_check_ptr_some (m : Mem) ptr len id pe off :
    bm_check_ptr m ptr len = Ret (Some (id, pe, off)) <->
    len <> 0%N /\ tp_prov ptr = Some (id, pe) /\
    exists a, m !! id = Some a /\ al_live a = true /\ in_alloc a (tp_addr ptr) len /\
              tp_addr ptr = al_addr a + Z.of_N off.
  Proof.
    unfold bm_check_ptr, in_alloc. split.
    - destruct (N.eqb_spec len 0); [discriminate|].
      destruct (tp_prov ptr) as [[id' pe']|]; [|discriminate].
      destruct (m !! id') as [a|] eqn:E; [|discriminate]. simpl.
      destruct (al_live a) eqn:El; [|discriminate]. simpl.
      destruct ((_ <? 0) || _) eqn:Eb; [discriminate|].
      unfold size_from_bytes. destruct (_ <? 0) eqn:E0; [discriminate|]. simpl.
      intros [= <- <- <-]. split; [done|]. split; [done|]. exists a. repeat split; try done; lia.
    - intros (Hlen & Hp & a & Ha & Hl & (H1 & H2) & Hoff).
      destruct (N.eqb_spec len 0); [done|]. rewrite Hp, Ha. simpl. rewrite Hl. simpl.
      destruct ((_ <? 0) || _) eqn:Eb; [lia|]. unfold size_from_bytes.
      destruct (_ <? 0) eqn:E0; [lia|]. simpl. do 3 f_equal. lia.
  Qed.

  Lemma bm_check_ptr_none (m : Mem) ptr len : bm_check_ptr m ptr len = Ret None <-> len = 0%N.
  Proof.
    split.
    - unfold bm_check_ptr. destruct (N.eqb_spec len 0); [done|].
      destruct (tp_prov ptr) as [[id' pe']|]; [|discriminate].
      destruct (m !! id') as [a|]; [|discriminate]. simpl.
      destruct (al_live a); [|discriminate]. simpl.
      destruct ((_ <? 0) || _); [discriminate|].
      unfold size_from_bytes. destruct (_ <? 0); discriminate.
    - intros ->. done.
  Qed.

  Lemma bm_store_ret (m m' : Mem) ptr bytes align h :
    bm_store m ptr bytes align h = Ret m' ->
    is_aligned align (tp_addr ptr) = true /\
    ((bytes = [] /\ m' = m) \/
     (bytes <> [] /\ exists id pe off a ae data,
        tp_prov ptr = Some (id, pe) /\ m !! id = Some a /\ al_live a = true /\
        in_alloc a (tp_addr ptr) (N.of_nat (length bytes)) /\
        tp_addr ptr = al_addr a + Z.of_N off /\
        h (al_extra a) pe off = Ret ae /\ write_subslice (al_data a) off bytes = Ret data /\
        m' = <[id := mkAlloc data (al_addr a) (al_align a) (al_kind a) (al_live a) ae]> m)).
  Proof.
    unfold bm_store. destruct (is_aligned align (tp_addr ptr)); [|discriminate]. simpl.
    intros H. split; [done|]. apply obind_ret in H as ([[[id pe] off]|] & Hc & H).
    - apply bm_check_ptr_some in Hc as (Hl & Hp & a & Ha & Hli & Hin & Hoff).
      rewrite Ha in H. simpl in H. apply obind_ret in H as (ae & Hae & H).
      apply obind_ret in H as (data & Hd & [= <-]). right. split.
      { intros ->. simpl in Hl. lia. }
      exists id, pe, off, a, ae, data. repeat split; try done; apply Hin.
    - apply bm_check_ptr_none in Hc. left. injection H as ->. split; [|done].
      destruct bytes; [done|simpl in Hc; lia].
  Qed.

  Lemma bm_load_ret (m m' : Mem) ptr len align h bytes :
    bm_load m ptr len align h = Ret (bytes, m') ->
    is_aligned align (tp_addr ptr) = true /\
    ((len = 0%N /\ bytes = [] /\ m' = m) \/
     (len <> 0%N /\ exists id pe off a ae,
        tp_prov ptr = Some (id, pe) /\ m !! id = Some a /\ al_live a = true /\
        in_alloc a (tp_addr ptr) len /\ tp_addr ptr = al_addr a + Z.of_N off /\
        h (al_extra a) pe off = Ret ae /\ subslice (al_data a) off len = Ret bytes /\
        m' = <[id := mkAlloc (al_data a) (al_addr a) (al_align a) (al_kind a) (al_live a) ae]> m)).
  Proof.
    unfold bm_load. destruct (is_aligned align (tp_addr ptr)); [|discriminate]. simpl.
    intros H. split; [done|]. apply obind_ret in H as ([[[id pe] off]|] & Hc & H).
    - apply bm_check_ptr_some in Hc as (Hl & Hp & a & Ha & Hli & Hin & Hoff).
      rewrite Ha in H. simpl in H. apply obind_ret in H as (ae & Hae & H).
      apply obind_ret in H as (data & Hd & [= <- <-]). right. split; [done|].
      exists id, pe, off, a, ae. repeat split; try done; apply Hin.
    - apply bm_check_ptr_none in Hc. left. injection H as <- <-. done.
  Qed.

  Lemma bm_deallocate_ret (m m' : Mem) ptr kind size align h :
    bm_deallocate m ptr kind size align h = Ret m' ->
    exists id pe a ae, tp_prov ptr = Some (id, pe) /\ m !! id = Some a /\ al_live a = true /\
      tp_addr ptr = al_addr a /\ kind = al_kind a /\ size = al_size a /\ align = al_align a /\
      h (al_extra a) pe = Ret ae /\
      m' = <[id := mkAlloc (al_data a) (al_addr a) (al_align a) (al_kind a) false ae]> m.
  Proof.
    unfold bm_deallocate. destruct (tp_prov ptr) as [[id pe]|]; [|discriminate].
    destruct (m !! id) as [a|] eqn:E; [|discriminate]. simpl.
    destruct (al_live a) eqn:El; [|discriminate]. simpl.
    destruct (Z.eqb_spec (tp_addr ptr) (al_addr a)); [|discriminate]. simpl.
    case_bool_decide; [|discriminate]. simpl.
    destruct (N.eqb_spec size (al_size a)); [|discriminate]. simpl.
    case_bool_decide; [|discriminate]. simpl.
    intros H'. apply obind_ret in H' as (ae & Hae & [= <-]).
    exists id, pe, a, ae. done.
  Qed.

  (** ** Steps of memory *)

  (** what an operation may do to the allocation list *)
  Inductive bm_change : Mem -> Mem -> Prop :=
  | bc_alloc m kind size align pe ae addr p m' :
      bm_allocate T m kind size align pe ae addr = Ret (p, m') -> bm_change m m'
  | bc_update m id a a' :
      m !! id = Some a ->
      al_addr a' = al_addr a -> al_align a' = al_align a -> al_kind a' = al_kind a ->
      length (al_data a') = length (al_data a) ->
      (al_live a' = true -> al_live a = true) ->
      bm_change m (<[id := a']> m)
  | bc_same m : bm_change m m.

  Lemma bm_store_change m m' ptr bytes align h :
    bm_store m ptr bytes align h = Ret m' -> bm_change m m'.
  Proof.
    intros (_ & [(_ & ->)|(_ & id & pe & off & a & ae & data & _ & Ha & Hl & _ & _ & _ & Hd & ->)])%bm_store_ret.
    - constructor.
    - eapply bc_update; eauto. simpl. by apply write_subslice_length in Hd.
  Qed.
  Lemma bm_load_change m m' ptr len align h bytes :
    bm_load m ptr len align h = Ret (bytes, m') -> bm_change m m'.
  Proof.
    intros (_ & [(_ & _ & ->)|(_ & id & pe & off & a & ae & _ & Ha & Hl & _ & _ & _ & Hd & ->)])%bm_load_ret.
    - constructor.
    - eapply bc_update; eauto.
  Qed.
  Lemma bm_deallocate_change m m' ptr kind size align h :
    bm_deallocate m ptr kind size align h = Ret m' -> bm_change m m'.
  Proof.
    intros (id & pe & a & ae & _ & Ha & _ & _ & _ & _ & _ & _ & ->)%bm_deallocate_ret.
    eapply bc_update; eauto. done.
  Qed.

  (** ** Allocations fit (C17) *)

  Lemma addr_ok_spec (m : Mem) size align addr :
    bm_addr_ok T m size align addr = true <->
    0 < addr /\ addr mod Z.of_N (align_bytes align) = 0 /\
    in_bounds Unsigned (PTR_SIZE T) (addr + Z.of_N size) = true /\
    forall i a, m !! i = Some a -> al_live a = true ->
      al_addr a <> addr /\ ranges_apart (al_addr a) (al_size a) addr size.
  Proof.
    unfold bm_addr_ok, is_aligned. rewrite !andb_true_iff, negb_true_iff.
    assert (existsb (fun a => al_live a && al_overlaps a addr size) m = false <->
      forall i a, m !! i = Some a -> al_live a = true ->
        al_addr a <> addr /\ ranges_apart (al_addr a) (al_size a) addr size) as ->;
      [|rewrite Z.ltb_lt, Z.eqb_eq; tauto].
    rewrite <- not_true_iff_false, existsb_exists. split.
    - intros Hn i a Ha Hl. destruct (al_overlaps a addr size) eqn:Eo.
      { exfalso. apply Hn. exists a. rewrite Hl, Eo. split; [|done].
        apply elem_of_list_In. by eapply elem_of_list_lookup_2. }
      unfold al_overlaps in Eo. destruct ((_ <=? _) || _) eqn:E; [|discriminate].
      split; [lia|]. unfold ranges_apart. lia.
    - intros H (a & Hin & Ho). apply elem_of_list_In, elem_of_list_lookup in Hin as [i Hi].
      apply andb_true_iff in Ho as [Hl Ho]. destruct (H i a Hi Hl) as [Hne Hap].
      unfold al_overlaps in Ho. destruct ((_ <=? _) || _) eqn:E; [lia|].
      unfold ranges_apart in Hap. lia.
  Qed.

  Lemma allocs_fit_nil : allocs_fit T ([] : Mem).
  Proof. split; intros i; intros; simpl in *; discriminate. Qed.

  Lemma allocs_fit_change (m m' : Mem) :
    target_ok T -> allocs_fit T m -> bm_change m m' -> allocs_fit T m'.
  Proof.
    intros Tok [H1 H2] Hc. destruct Hc as [m kind size align pe ae addr p m' Ha|m id a a' Ha He1 He2 He3 He4 Hl|m]; [| |done].
    - apply bm_allocate_ret in Ha as (Hv & Hok & -> & ->).
      apply addr_ok_spec in Hok as (Hpos & Hal & Hin & Hap).
      apply (tok_valid T Tok) in Hv.
      pose proof (ptr_size_pos T Tok) as Hps.
      assert (forall i a, (m ++ [mkAlloc (list_repeat Uninit size) addr align kind true ae]) !! i = Some a ->
        m !! i = Some a \/ (i = length m /\ a = mkAlloc (list_repeat Uninit size) addr align kind true ae)) as Hlk.
      { intros i a Hi. apply lookup_app_Some in Hi as [?|[Hge Hi]]; [by left|right].
        destruct (i - length m)%nat as [|k] eqn:E; simpl in Hi; [|done]. injection Hi as <-.
        split; [lia|done]. }
      assert (al_size (mkAlloc (list_repeat Uninit size) addr align kind true ae : Allocation PE AE) = size) as Hsz.
      { unfold al_size. simpl. rewrite list_repeat_length. lia. }
      split.
      + intros i a [Hi|[-> ->]]%Hlk; [by eapply H1|]. rewrite Hsz. simpl.
        apply in_bounds_spec in Hin. apply in_bounds_spec in Hv. unfold int_max, size_bits in *. simpl in *.
        destruct (N.eqb_spec (PTR_SIZE T) 0); [done|].
        split; [done|]. split; [done|]. lia.
      + intros i j a b [Hi|[-> ->]]%Hlk [Hj|[-> ->]]%Hlk Hne Hla Hlb.
        * by eapply H2.
        * rewrite Hsz. simpl. by eapply Hap.
        * rewrite Hsz. simpl. destruct (Hap _ _ Hj Hlb) as [? Hr]. split; [congruence|].
          unfold ranges_apart in *. tauto.
        * done.
    - assert (al_size a' = al_size a) as Hs by (unfold al_size; congruence).
      assert (forall i b, <[id:=a']> m !! i = Some b ->
        exists b0, m !! i = Some b0 /\ al_addr b = al_addr b0 /\ al_align b = al_align b0 /\
          al_size b = al_size b0 /\ (al_live b = true -> al_live b0 = true)) as Hlk.
      { intros i b Hi. destruct (decide (i = id)) as [->|Hn].
        - rewrite list_lookup_insert in Hi by (by eapply lookup_lt_Some). injection Hi as <-.
          exists a. done.
        - rewrite list_lookup_insert_ne in Hi by done. exists b. done. }
      split.
      + intros i b (b0 & Hb0 & -> & -> & -> & _)%Hlk. by eapply H1.
      + intros i j b c (b0 & Hb0 & Eb1 & _ & Eb3 & Lb)%Hlk (c0 & Hc0 & Ec1 & _ & Ec3 & Lc)%Hlk Hne Hb Hc.
        rewrite Eb1, Eb3, Ec1, Ec3. eapply H2; eauto.
  Qed.

  (** ** Liveness never returns *)
  Lemma bm_change_dead (m m' : Mem) id a :
    bm_change m m' -> m !! id = Some a -> al_live a = false ->
    exists a', m' !! id = Some a' /\ al_live a' = false.
  Proof.
    intros Hc Ha Hd. destruct Hc as [m kind size align pe ae addr p m' He|m id' b b' Hb _ _ _ _ Hl|m].
    - apply bm_allocate_ret in He as (_ & _ & _ & ->). exists a. split; [|done].
      by apply lookup_app_l_Some.
    - destruct (decide (id = id')) as [->|Hn].
      + rewrite list_lookup_insert by (by eapply lookup_lt_Some). eexists. split; [done|].
        destruct (al_live b') eqn:E; [|done]. assert (b = a) as -> by congruence.
        rewrite (Hl eq_refl) in Hd. discriminate.
      + rewrite list_lookup_insert_ne by done. eauto.
    - eauto.
  Qed.


  (** ** Memories built on the basic memory *)

  (** What an instance of the interface inherits from the basic memory: allocation, deallocation,
      stores and loads are those of the basic memory with some handlers for the extra data; retags and
      call ends only touch the extra data. *)
  Inductive extra_change : Mem -> Mem -> Prop :=
  | ec_same m : extra_change m m
  | ec_step m m1 id a ae :
      extra_change m m1 -> m1 !! id = Some a ->
      extra_change m (<[id := mkAlloc (al_data a) (al_addr a) (al_align a) (al_kind a) (al_live a) ae]> m1).

  Record bm_like {F} (MO : MemOps Prov F Mem) : Prop := {
    bl_new : mo_new MO = [];
    bl_alloc : forall m kind size align, exists pe ae, forall addr,
      mo_allocate MO m kind size align addr = bm_allocate T m kind size align pe ae addr;
    bl_dealloc : forall m ptr kind size align, exists h,
      mo_deallocate MO m ptr kind size align = bm_deallocate m ptr kind size align h;
    bl_store : forall m ptr bytes align, exists h,
      mo_store MO m ptr bytes align = bm_store m ptr bytes align h;
    bl_load : forall m ptr len align, exists h,
      mo_load MO m ptr len align = bm_load m ptr len align h;
    bl_deref : forall m ptr len,
      mo_deref MO m ptr len = let! _ := bm_check_ptr m ptr len in Ret tt;
    bl_retag : forall m f ptr pt fe vl p m' f',
      mo_retag MO m f ptr pt fe vl = Ret (p, m', f') -> extra_change m m';
    bl_end : forall m f m', mo_end_call MO m f = Ret m' -> extra_change m m';
    bl_leak : forall m, mo_leak_check MO m = bm_leak_check m;
  }.

  Lemma fold_m_app {A S} (f : S -> A -> Outcome S) l1 l2 s :
    fold_m f (l1 ++ l2) s = let! s' := fold_m f l1 s in fold_m f l2 s'.
  Proof.
    revert s. induction l1 as [|x l1 IH]; intros s; simpl; [done|].
    destruct (f s x); simpl; [apply IH|done..].
  Qed.

  (** induction over histories, one change at a time *)
  Lemma extra_change_ind' (Q : Mem -> Prop) (m m' : Mem) :
    Q m -> (forall m1 m2, Q m1 -> bm_change m1 m2 -> Q m2) -> extra_change m m' -> Q m'.
  Proof.
    intros H0 Hs Hc. induction Hc as [m|m m1 id a ae Hc IH Ha]; [done|].
    eapply Hs; [by apply IH|]. by eapply bc_update.
  Qed.

  Lemma mem_run_ind {F} (MO : MemOps Prov F Mem) (Q : Mem -> Prop) (m m' : Mem) ops :
    bm_like MO ->
    Q m -> (forall m1 m2, Q m1 -> bm_change m1 m2 -> Q m2) -> mem_run MO m ops = Ret m' -> Q m'.
  Proof.
    intros BL H0 Hs. unfold mem_run. revert m H0. induction ops as [|op ops IH]; intros m H0; simpl.
    - intros [= <-]. done.
    - intros H. apply obind_ret in H as (m1 & H1 & H). eapply IH; [|exact H].
      destruct op as [kind size align addr|ptr kind size align|ptr bytes align|ptr len align|f ptr pt fe vl|f];
        simpl in H1.
      + apply obind_ret in H1 as ([p m2] & Ha & [= <-]).
        destruct (bl_alloc _ BL m kind size align) as (pe & ae & E). rewrite E in Ha.
        eapply Hs; [exact H0|]. by eapply bc_alloc.
      + destruct (bl_dealloc _ BL m ptr kind size align) as [h E]. rewrite E in H1.
        eapply Hs; [exact H0|]. by eapply bm_deallocate_change.
      + destruct (bl_store _ BL m ptr bytes align) as [h E]. rewrite E in H1.
        eapply Hs; [exact H0|]. by eapply bm_store_change.
      + apply obind_ret in H1 as ([p m2] & Ha & [= <-]).
        destruct (bl_load _ BL m ptr len align) as [h E]. rewrite E in Ha.
        eapply Hs; [exact H0|]. by eapply bm_load_change.
      + apply obind_ret in H1 as ([[p m2] f'] & Ha & [= <-]).
        apply (bl_retag _ BL) in Ha. by eapply extra_change_ind'.
      + apply (bl_end _ BL) in H1. by eapply extra_change_ind'.
  Qed.

  (** C17 *)
  Theorem run_allocs_fit {F} (MO : MemOps Prov F Mem) (m : Mem) ops :
    bm_like MO -> target_ok T -> mem_run MO (mo_new MO) ops = Ret m -> allocs_fit T m.
  Proof.
    intros BL Tok. rewrite (bl_new _ BL). apply mem_run_ind; [done|apply allocs_fit_nil|].
    intros m1 m2. by apply allocs_fit_change.
  Qed.

  (** C21: dead allocations stay dead *)
  Theorem run_dead {F} (MO : MemOps Prov F Mem) (m m' : Mem) ops id a :
    bm_like MO -> mem_run MO m ops = Ret m' -> m !! id = Some a -> al_live a = false ->
    exists a', m' !! id = Some a' /\ al_live a' = false.
  Proof.
    intros BL Hr Ha Hd. revert Hr.
    apply (mem_run_ind MO (fun m' => exists a', m' !! id = Some a' /\ al_live a' = false)); [done|eauto|].
    intros m1 m2 (a1 & H1 & H2) Hc. by eapply bm_change_dead.
  Qed.

  Lemma dead_dealloc_ub (m : Mem) p pe id a kind size align h :
    m !! id = Some a -> al_live a = false -> tp_prov p = Some (id, pe) ->
    is_ub (bm_deallocate m p kind size align h).
  Proof.
    intros Ha Hd Hp. simpl. unfold bm_deallocate. rewrite Hp, Ha. simpl. rewrite Hd. by eexists.
  Qed.
  Lemma dead_check_ub (m : Mem) p pe id a len :
    m !! id = Some a -> al_live a = false -> tp_prov p = Some (id, pe) -> len <> 0%N ->
    is_ub (bm_check_ptr m p len).
  Proof.
    intros Ha Hd Hp Hl. unfold bm_check_ptr. destruct (N.eqb_spec len 0); [done|].
    rewrite Hp, Ha. simpl. rewrite Hd. by eexists.
  Qed.
  Lemma dead_load_ub (m : Mem) p pe id a len align h :
    m !! id = Some a -> al_live a = false -> tp_prov p = Some (id, pe) -> len <> 0%N ->
    is_ub (bm_load m p len align h).
  Proof.
    intros Ha Hd Hp Hl. simpl. unfold bm_load. destruct (is_aligned _ _); [|by eexists]. simpl.
    destruct (dead_check_ub m p pe id a len) as [msg ->]; try done. by eexists.
  Qed.
  Lemma dead_store_ub (m : Mem) p pe id a bytes align h :
    m !! id = Some a -> al_live a = false -> tp_prov p = Some (id, pe) -> bytes <> [] ->
    is_ub (bm_store m p bytes align h).
  Proof.
    intros Ha Hd Hp Hl. simpl. unfold bm_store. destruct (is_aligned _ _); [|by eexists]. simpl.
    destruct (dead_check_ub m p pe id a (N.of_nat (length bytes))) as [msg ->]; try done.
    { destruct bytes; [done|simpl; lia]. } by eexists.
  Qed.

  Theorem dealloc_final {F} (MO : MemOps Prov F Mem) (m m1 m2 : Mem) ptr kind size align ops :
    bm_like MO -> mo_deallocate MO m ptr kind size align = Ret m1 -> mem_run MO m1 ops = Ret m2 ->
    forall p id pe pe', tp_prov ptr = Some (id, pe) -> tp_prov p = Some (id, pe') ->
      (forall k s a, is_ub (mo_deallocate MO m2 p k s a)) /\
      (forall len a, len <> 0%N -> is_ub (mo_load MO m2 p len a)) /\
      (forall len, len <> 0%N -> is_ub (mo_deref MO m2 p len)) /\
      (forall bytes a, bytes <> [] -> is_ub (mo_store MO m2 p bytes a)).
  Proof.
    intros BL Hd Hr p id pe pe2 Hptr Hp.
    destruct (bl_dealloc _ BL m ptr kind size align) as [h E]. rewrite E in Hd. clear E.
    apply bm_deallocate_ret in Hd as (id' & pe' & a & ae & Hptr' & Ha & _ & _ & _ & _ & _ & _ & ->).
    assert (id' = id) as -> by congruence.
    destruct (run_dead MO _ _ _ id _ BL Hr (list_lookup_insert _ _ _ (lookup_lt_Some _ _ _ Ha)) eq_refl)
      as (a' & Ha' & Hl').
    split; [|split; [|split]].
    - intros k s al. destruct (bl_dealloc _ BL m2 p k s al) as [h' ->]. by eapply dead_dealloc_ub.
    - intros len al ?. destruct (bl_load _ BL m2 p len al) as [h' ->]. by eapply dead_load_ub.
    - intros len ?. rewrite (bl_deref _ BL).
      destruct (dead_check_ub m2 p pe2 id a' len) as [msg ->]; try done. by eexists.
    - intros bytes al ?. destruct (bl_store _ BL m2 p bytes al) as [h' ->]. by eapply dead_store_ub.
  Qed.

  (** ** Stores and loads (C18, C19) *)

  (** the byte of allocation [id] at address [a] *)
  Definition mem_byte (m : Mem) (id : nat) (a : Address) : option (AByte Prov) :=
    match m !! id with
    | Some al => if (al_addr al <=? a) then al_data al !! Z.to_nat (a - al_addr al) else None
    | None => None
    end.

  Lemma mem_byte_extra (m m' : Mem) id a : extra_change m m' -> mem_byte m' id a = mem_byte m id a.
  Proof.
    intros Hc. induction Hc as [m|m m1 id' b ae Hc IH Ha]; [done|]. rewrite <- IH. unfold mem_byte.
    destruct (decide (id = id')) as [->|Hn].
    - rewrite list_lookup_insert by (by eapply lookup_lt_Some). rewrite Ha. done.
    - rewrite list_lookup_insert_ne by done. done.
  Qed.

  Lemma extra_change_length m m' : extra_change m m' -> length m' = length m.
  Proof. induction 1; [done|]. by rewrite insert_length. Qed.

  Lemma mem_byte_store (m m' : Mem) ptr bytes align h id a :
    bm_store m ptr bytes align h = Ret m' ->
    mem_byte m' id a =
      match mem_byte m id a with
      | None => None
      | Some cur => Some
        (match tp_prov ptr with
         | Some (id', _) =>
             if (id' =? id)%nat then
               match byte_at (tp_addr ptr) bytes a with Some b => b | None => cur end
             else cur
         | None => cur
         end)
      end.
  Proof.
    intros (_ & [(-> & ->)|(Hne & id' & pe & off & b & ae & data & Hp & Hb & Hl & [Hi1 Hi2] & Hoff & _ & Hd & ->)])%bm_store_ret.
    - destruct (mem_byte m id a); [|done]. destruct (tp_prov ptr) as [[id' ?]|]; [|done].
      destruct (_ =? _)%nat; [|done]. unfold byte_at. destruct (_ && _); [|done]. rewrite lookup_nil. done.
    - rewrite Hp. unfold mem_byte. destruct (Nat.eqb_spec id' id) as [->|Hn].
      + rewrite list_lookup_insert by (by eapply lookup_lt_Some). rewrite Hb. simpl.
        destruct (Z.leb_spec (al_addr b) a); [|done].
        apply write_subslice_lookup with (i := Z.to_nat (a - al_addr b)) in Hd.
        unfold byte_at. unfold al_size in *.
        destruct ((_ <=? _)%nat && _) eqn:E1; destruct ((_ <=? a) && _) eqn:E2; try lia.
        * rewrite Hd. replace (Z.to_nat (a - tp_addr ptr)) with (Z.to_nat (a - al_addr b) - N.to_nat off)%nat by lia.
          destruct (al_data b !! _) eqn:E3.
          -- destruct (bytes !! _) eqn:E4; [done|]. apply lookup_ge_None in E4. lia.
          -- apply lookup_ge_None in E3. lia.
        * rewrite Hd. destruct (al_data b !! _); done.
      + rewrite list_lookup_insert_ne by done. destruct (m !! id); [|done].
        by destruct (if _ <=? _ then _ else _).
  Qed.

  Lemma bm_store_length (m m' : Mem) ptr bytes align h :
    bm_store m ptr bytes align h = Ret m' -> length m' = length m.
  Proof.
    intros (_ & [(_ & ->)|(_ & id & pe & off & a & ae & data & _ & Ha & Hl & _ & _ & _ & Hd & ->)])%bm_store_ret;
      [done|]. by rewrite insert_length.
  Qed.

  Lemma list_repeat_lookup_uninit {A} (x : A) n i b : list_repeat x n !! i = Some b -> b = x.
  Proof. unfold list_repeat. by intros [-> _]%lookup_replicate. Qed.

  (** what is known about the byte at address [a] of allocation [id] *)
  Definition byte_inv (id : nat) (a : Address) (m : Mem) (cur : AByte Prov) : Prop :=
    ((length m <= id)%nat /\ cur = Uninit) \/
    ((id < length m)%nat /\ forall b, mem_byte m id a = Some b -> b = cur).

  Lemma byte_inv_same id a (m m' : Mem) cur :
    length m' = length m -> mem_byte m' id a = mem_byte m id a ->
    byte_inv id a m cur -> byte_inv id a m' cur.
  Proof. intros Hl Hb. unfold byte_inv. rewrite Hl, Hb. done. Qed.

  Lemma last_store_cons {F} (op : MemOp Prov F) ops id a cur :
    last_store (op :: ops) id a cur = last_store ops id a (last_store [op] id a cur).
  Proof. destruct op; done. Qed.

  Lemma byte_inv_step {F} (MO : MemOps Prov F Mem) (m m' : Mem) op id a cur :
    bm_like MO -> mem_op MO m op = Ret m' -> byte_inv id a m cur ->
    byte_inv id a m' (last_store [op] id a cur).
  Proof.
    intros BL H Hi.
    destruct op as [kind size align addr|ptr kind size align|ptr bytes align|ptr len align|f ptr pt fe vl|f];
      simpl in H; cbn [last_store].
    - apply obind_ret in H as ([p m2] & Ha & [= <-]).
      destruct (bl_alloc _ BL m kind size align) as (pe & ae & E). rewrite E in Ha.
      apply bm_allocate_ret in Ha as (_ & _ & _ & ->). unfold byte_inv, mem_byte in *. rewrite app_length. simpl.
      destruct Hi as [[Hl ->]|[Hl Hi]].
      + destruct (decide (id = length m)) as [->|Hn]; [right|left; split; [lia|done]].
        split; [lia|]. intros b. rewrite lookup_app_r by done. rewrite Nat.sub_diag. simpl.
        destruct (_ <=? _); [|done]. apply list_repeat_lookup_uninit.
      + right. split; [lia|]. intros b. rewrite lookup_app_l by done. apply Hi.
    - destruct (bl_dealloc _ BL m ptr kind size align) as [h E]. rewrite E in H.
      apply bm_deallocate_ret in H as (id' & pe & b & ae & Hp & Hb & _ & _ & _ & _ & _ & _ & ->).
      revert Hi. apply byte_inv_same; [by rewrite insert_length|]. unfold mem_byte.
      destruct (decide (id = id')) as [->|Hn].
      + rewrite list_lookup_insert by (by eapply lookup_lt_Some). by rewrite Hb.
      + by rewrite list_lookup_insert_ne.
    - destruct (bl_store _ BL m ptr bytes align) as [h E]. rewrite E in H.
      pose proof (bm_store_length _ _ _ _ _ _ H) as Hlen.
      pose proof (mem_byte_store _ _ _ _ _ _ id a H) as Hb.
      unfold byte_inv in *. rewrite Hlen. destruct Hi as [[Hl ->]|[Hl Hi]].
      + left. split; [done|].
        apply bm_store_ret in H as (_ & [(-> & ->)|(Hne & id' & pe & off & b & ae & data & Hp & Hlk & _)]).
        * destruct (tp_prov ptr) as [[id' ?]|]; [|done]. destruct (_ =? _)%nat; [|done].
          unfold byte_at. destruct (_ && _); [|done]. by rewrite lookup_nil.
        * rewrite Hp. destruct (Nat.eqb_spec id' id) as [->|]; [|done].
          apply lookup_lt_Some in Hlk. lia.
      + right. split; [done|]. intros b. rewrite Hb. destruct (mem_byte m id a) as [c|]; [|done].
        rewrite (Hi c eq_refl). by intros [= <-].
    - apply obind_ret in H as ([p m2] & Ha & [= <-]).
      destruct (bl_load _ BL m ptr len align) as [h E]. rewrite E in Ha.
      apply bm_load_ret in Ha as (_ & [(_ & _ & ->)|(_ & id' & pe & off & b & ae & _ & Hb & Hl & _ & _ & _ & Hd & ->)]).
      + done.
      + revert Hi. apply byte_inv_same; [by rewrite insert_length|]. unfold mem_byte.
        destruct (decide (id = id')) as [->|Hn].
        * rewrite list_lookup_insert by (by eapply lookup_lt_Some). by rewrite Hb.
        * by rewrite list_lookup_insert_ne.
    - apply obind_ret in H as ([[p m2] f'] & Ha & [= <-]). apply (bl_retag _ BL) in Ha.
      revert Hi. apply byte_inv_same; [by apply extra_change_length|by apply mem_byte_extra].
    - apply (bl_end _ BL) in H.
      revert Hi. apply byte_inv_same; [by apply extra_change_length|by apply mem_byte_extra].
  Qed.

  Lemma byte_inv_run {F} (MO : MemOps Prov F Mem) (m m' : Mem) ops id a cur :
    bm_like MO -> mem_run MO m ops = Ret m' -> byte_inv id a m cur ->
    byte_inv id a m' (last_store ops id a cur).
  Proof.
    intros BL. unfold mem_run. revert m cur. induction ops as [|op ops IH]; intros m cur; simpl fold_m.
    - intros [= <-]. done.
    - intros H Hi. apply obind_ret in H as (m1 & H1 & H). rewrite last_store_cons.
      eapply IH; [exact H|]. by eapply byte_inv_step.
  Qed.

  (** C18 *)
  Theorem load_last_store {F} (MO : MemOps Prov F Mem) (m m' : Mem) ops ptr id pe len align bs i :
    bm_like MO -> mem_run MO (mo_new MO) ops = Ret m ->
    mo_load MO m ptr len align = Ret (bs, m') -> tp_prov ptr = Some (id, pe) -> (i < N.to_nat len)%nat ->
    bs !! i = Some (last_store ops id (tp_addr ptr + Z.of_nat i) Uninit).
  Proof.
    intros BL Hr Hl Hp Hi. rewrite (bl_new _ BL) in Hr.
    destruct (bl_load _ BL m ptr len align) as [h E]. rewrite E in Hl.
    apply bm_load_ret in Hl as (_ & [(-> & _)|(_ & id' & pe' & off & a & ae & Hp' & Ha & _ & [Hi1 Hi2] & Hoff & _ & Hs & _)]).
    { simpl in Hi. lia. }
    assert (id' = id) as -> by congruence.
    pose proof (byte_inv_run MO [] m ops id (tp_addr ptr + Z.of_nat i) Uninit BL Hr) as Hb.
    destruct Hb as [[Hl _]|[_ Hb]]; [left; simpl; split; [lia|done]|apply lookup_lt_Some in Ha; lia|].
    pose proof (subslice_length _ _ _ _ Hs) as Hlen.
    destruct (lookup_lt_is_Some_2 bs i) as [b Eb]; [lia|]. rewrite Eb. f_equal.
    apply Hb. unfold mem_byte. rewrite Ha.
    destruct (Z.leb_spec (al_addr a) (tp_addr ptr + Z.of_nat i)); [|lia].
    rewrite <- Eb. rewrite (subslice_lookup _ _ _ _ i Hs Hi). f_equal. lia.
  Qed.

  (** C19 *)
  Theorem store_frame {F} (MO : MemOps Prov F Mem) (m m' : Mem) ptr bytes align :
    bm_like MO -> mo_store MO m ptr bytes align = Ret m' ->
    length m' = length m /\
    forall id a, m !! id = Some a -> exists a', m' !! id = Some a' /\
      al_addr a' = al_addr a /\ al_size a' = al_size a /\ al_align a' = al_align a /\
      al_kind a' = al_kind a /\ al_live a' = al_live a /\
      (forall i, (forall pe, tp_prov ptr <> Some (id, pe)) \/
                 al_addr a + Z.of_nat i < tp_addr ptr \/
                 tp_addr ptr + Z.of_nat (length bytes) <= al_addr a + Z.of_nat i ->
         al_data a' !! i = al_data a !! i) /\
      (forall i pe, tp_prov ptr = Some (id, pe) -> (i < length bytes)%nat ->
         al_data a' !! Z.to_nat (tp_addr ptr + Z.of_nat i - al_addr a) = bytes !! i).
  Proof.
    intros BL H. destruct (bl_store _ BL m ptr bytes align) as [h E]. rewrite E in H.
    split; [by eapply bm_store_length|]. intros id a Ha.
    apply bm_store_ret in H as (_ & [(-> & ->)|(Hne & id' & pe & off & b & ae & data & Hp & Hb & Hl & [Hi1 Hi2] & Hoff & _ & Hd & ->)]).
    - exists a. repeat split; try done. simpl. intros; lia.
    - destruct (decide (id = id')) as [->|Hn].
      + rewrite list_lookup_insert by (by eapply lookup_lt_Some). assert (b = a) as -> by congruence.
        eexists. split; [done|]. simpl. split; [done|]. split.
        { unfold al_size. simpl. by rewrite (write_subslice_length _ _ _ _ Hd). }
        repeat split.
        * intros i Hi. rewrite (write_subslice_lookup _ _ _ _ i Hd).
          destruct (_ && _) eqn:Eb; [|done]. destruct Hi as [Hi|Hi]; [by destruct (Hi pe)|]. lia.
        * intros i pe' _ Hi. rewrite (write_subslice_lookup _ _ _ _ _ Hd).
          destruct (_ && _) eqn:Eb; [|lia]. f_equal. lia.
      + rewrite list_lookup_insert_ne by done. exists a. repeat split; try done.
        intros i pe' Hp'. congruence.
  Qed.

  (** loads change nothing but the extra data *)
  Theorem load_frame {F} (MO : MemOps Prov F Mem) (m m' : Mem) ptr len align bs :
    bm_like MO -> mo_load MO m ptr len align = Ret (bs, m') -> extra_change m m'.
  Proof.
    intros BL H. destruct (bl_load _ BL m ptr len align) as [h E]. rewrite E in H.
    apply bm_load_ret in H as (_ & [(_ & _ & ->)|(_ & id' & pe & off & b & ae & _ & Hb & Hl & _ & _ & _ & Hd & ->)]).
    - constructor.
    - eapply ec_step; [constructor|done].
  Qed.

  (** ** When accesses are undefined behaviour (C20, C22) *)

  Lemma check_ptr_cases (m : Mem) ptr len :
    len <> 0%N -> prov_known m ptr ->
    (access_ok m ptr len /\ exists id pe off, bm_check_ptr m ptr len = Ret (Some (id, pe, off))) \/
    (~ access_ok m ptr len /\ is_ub (bm_check_ptr m ptr len)).
  Proof.
    intros Hl Hv. destruct (tp_prov ptr) as [[id pe]|] eqn:Hp.
    2:{ right. split; [intros (? & ? & ? & ? & _); congruence|]. unfold bm_check_ptr.
        destruct (N.eqb_spec len 0); [done|]. rewrite Hp. by eexists. }
    destruct (lookup_lt_is_Some_2 m id (Hv id pe Hp)) as [a Ha].
    destruct (al_live a) eqn:El.
    2:{ right. split; [intros (? & ? & ? & ? & ? & ? & _); congruence|]. by eapply dead_check_ub. }
    destruct (decide (al_addr a <= tp_addr ptr /\ tp_addr ptr + Z.of_N len <= al_addr a + Z.of_N (al_size a)))
      as [[H1 H2]|Hn].
    - left. split; [by exists id, pe, a|]. exists id, pe, (Z.to_N (tp_addr ptr - al_addr a)).
      apply bm_check_ptr_some. repeat split; try done. exists a. repeat split; try done. lia.
    - right. split.
      + intros (id' & pe' & a' & Hp' & Ha' & _ & H1 & H2). assert (id' = id) as -> by congruence.
        assert (a' = a) as -> by congruence. by apply Hn.
      + unfold bm_check_ptr. destruct (N.eqb_spec len 0); [done|]. rewrite Hp, Ha. simpl. rewrite El. simpl.
        destruct ((_ <? 0) || _) eqn:E; [by eexists|]. exfalso. apply Hn. lia.
  Qed.

  Lemma ret_or_ub {X} (A : Prop) (o : Outcome X) :
    (A /\ exists r, o = Ret r) \/ (~ A /\ is_ub o) ->
    (A <-> exists r, o = Ret r) /\ (~ A <-> is_ub o).
  Proof.
    intros [[HA [r ->]]|[HA [msg ->]]]; split; split; intros H; try done; try (by eexists).
    - by destruct H.
    - by destruct H.
  Qed.
  Lemma ub_unless {X} (A : Prop) (o : Outcome X) :
    ~ A -> is_ub o -> (A /\ exists r, o = Ret r) \/ (~ A /\ is_ub o).
  Proof. by right. Qed.

  (** deref: exactly when the range is inside a live allocation the pointer has provenance for *)
  Theorem deref_exact {F} (MO : MemOps Prov F Mem) (m : Mem) ptr len :
    bm_like MO -> len <> 0%N -> prov_known m ptr ->
    (access_ok m ptr len <-> exists r, mo_deref MO m ptr len = Ret r) /\
    (~ access_ok m ptr len <-> is_ub (mo_deref MO m ptr len)).
  Proof.
    intros BL Hl Hv. apply ret_or_ub. rewrite (bl_deref _ BL).
    destruct (check_ptr_cases m ptr len Hl Hv) as [[H1 (id & pe & off & ->)]|[H1 [msg ->]]].
    - left. split; [done|]. by eexists.
    - right. split; [done|]. by eexists.
  Qed.

  (** A misaligned or invalid access is undefined behaviour in every memory built this way. *)
  Theorem bad_access_ub {F} (MO : MemOps Prov F Mem) (m : Mem) ptr align :
    bm_like MO -> prov_known m ptr ->
    (forall len, len <> 0%N ->
       ~ (tp_addr ptr mod Z.of_N (align_bytes align) = 0 /\ access_ok m ptr len) ->
       is_ub (mo_load MO m ptr len align)) /\
    (forall bytes, bytes <> [] ->
       ~ (tp_addr ptr mod Z.of_N (align_bytes align) = 0 /\ access_ok m ptr (N.of_nat (length bytes))) ->
       is_ub (mo_store MO m ptr bytes align)).
  Proof.
    intros BL Hv. split.
    - intros len Hl Hn. destruct (bl_load _ BL m ptr len align) as [h ->]. unfold bm_load, is_aligned.
      destruct (Z.eqb_spec (tp_addr ptr mod Z.of_N (align_bytes align)) 0); [|by eexists]. simpl.
      destruct (check_ptr_cases m ptr len Hl Hv) as [[H1 _]|[H1 [msg ->]]]; [by destruct Hn|by eexists].
    - intros bytes Hne Hn. assert (N.of_nat (length bytes) <> 0%N) as Hl by (destruct bytes; [done|simpl; lia]).
      destruct (bl_store _ BL m ptr bytes align) as [h ->]. unfold bm_store, is_aligned.
      destruct (Z.eqb_spec (tp_addr ptr mod Z.of_N (align_bytes align)) 0); [|by eexists]. simpl.
      destruct (check_ptr_cases m ptr _ Hl Hv) as [[H1 _]|[H1 [msg ->]]]; [by destruct Hn|by eexists].
  Qed.

  Lemma is_aligned_spec align addr :
    is_aligned align addr = true <-> addr mod Z.of_N (align_bytes align) = 0.
  Proof. unfold is_aligned. apply Z.eqb_eq. Qed.

  (** the other direction, in terms of the handler *)
  Lemma bm_load_ok (m : Mem) ptr len align h :
    len <> 0%N -> tp_addr ptr mod Z.of_N (align_bytes align) = 0 -> access_ok m ptr len ->
    exists id pe a off bytes, tp_prov ptr = Some (id, pe) /\ m !! id = Some a /\ al_live a = true /\
      tp_addr ptr = al_addr a + Z.of_N off /\ (off + len <= al_size a)%N /\
      bm_load m ptr len align h =
      let! ae := h (al_extra a) pe off in
      Ret (bytes, <[id := mkAlloc (al_data a) (al_addr a) (al_align a) (al_kind a) (al_live a) ae]> m).
  Proof.
    intros Hl Hal (id & pe & a & Hp & Ha & Hli & H1 & H2).
    destruct (subslice_total (al_data a) (Z.to_N (tp_addr ptr - al_addr a)) len) as [b Hb].
    { unfold al_size in *. lia. }
    exists id, pe, a, (Z.to_N (tp_addr ptr - al_addr a)), b. repeat split; try done; [lia| |].
    { unfold al_size in *. lia. }
    unfold bm_load. apply is_aligned_spec in Hal. rewrite Hal. simpl.
    assert (bm_check_ptr m ptr len = Ret (Some (id, pe, Z.to_N (tp_addr ptr - al_addr a)))) as ->.
    { apply bm_check_ptr_some. repeat split; try done. exists a. repeat split; try done. lia. }
    simpl. rewrite Ha. simpl. rewrite Hb. by destruct (h _ _ _).
  Qed.
  Lemma bm_store_ok (m : Mem) ptr bytes align h :
    bytes <> [] -> tp_addr ptr mod Z.of_N (align_bytes align) = 0 ->
    access_ok m ptr (N.of_nat (length bytes)) ->
    exists id pe a off data, tp_prov ptr = Some (id, pe) /\ m !! id = Some a /\ al_live a = true /\
      tp_addr ptr = al_addr a + Z.of_N off /\ (off + N.of_nat (length bytes) <= al_size a)%N /\
      bm_store m ptr bytes align h =
      let! ae := h (al_extra a) pe off in
      Ret (<[id := mkAlloc data (al_addr a) (al_align a) (al_kind a) (al_live a) ae]> m).
  Proof.
    intros Hne Hal (id & pe & a & Hp & Ha & Hli & H1 & H2).
    destruct (write_subslice_total (al_data a) (Z.to_N (tp_addr ptr - al_addr a)) bytes) as [b Hb].
    { unfold al_size in *. lia. }
    exists id, pe, a, (Z.to_N (tp_addr ptr - al_addr a)), b. repeat split; try done; [lia| |].
    { unfold al_size in *. lia. }
    unfold bm_store. apply is_aligned_spec in Hal. rewrite Hal. simpl.
    assert (bm_check_ptr m ptr (N.of_nat (length bytes)) = Ret (Some (id, pe, Z.to_N (tp_addr ptr - al_addr a)))) as ->.
    { apply bm_check_ptr_some. split; [destruct bytes; [done|simpl; lia]|]. split; [done|]. exists a. repeat split; try done. lia. }
    simpl. rewrite Ha. simpl. rewrite Hb. by destruct (h _ _ _).
  Qed.

  (** zero-sized accesses need alignment only *)
  Theorem zero_sized {F} (MO : MemOps Prov F Mem) (m : Mem) ptr align :
    bm_like MO ->
    (tp_addr ptr mod Z.of_N (align_bytes align) = 0 ->
       mo_load MO m ptr 0 align = Ret ([], m) /\ mo_store MO m ptr [] align = Ret m) /\
    (tp_addr ptr mod Z.of_N (align_bytes align) <> 0 ->
       is_ub (mo_load MO m ptr 0 align) /\ is_ub (mo_store MO m ptr [] align)) /\
    mo_deref MO m ptr 0 = Ret tt.
  Proof.
    intros BL. destruct (bl_load _ BL m ptr 0 align) as [h ->]. destruct (bl_store _ BL m ptr [] align) as [h' ->].
    rewrite (bl_deref _ BL). unfold bm_load, bm_store, is_aligned, bm_check_ptr. simpl.
    destruct (Z.eqb_spec (tp_addr ptr mod Z.of_N (align_bytes align)) 0); simpl.
    - done.
    - split; [done|]. split; [|done]. intros _. split; by eexists.
  Qed.

  Lemma bm_deallocate_cases (m : Mem) ptr kind size align h :
    prov_known m ptr ->
    (exists id pe a, tp_prov ptr = Some (id, pe) /\ m !! id = Some a /\ dealloc_ok m ptr kind size align /\
       al_size a = size /\
       bm_deallocate m ptr kind size align h =
         let! ae := h (al_extra a) pe in
         Ret (<[id := mkAlloc (al_data a) (al_addr a) (al_align a) (al_kind a) false ae]> m)) \/
    (~ dealloc_ok m ptr kind size align /\ is_ub (bm_deallocate m ptr kind size align h)).
  Proof.
    intros Hv. unfold bm_deallocate, dealloc_ok. destruct (tp_prov ptr) as [[id pe]|] eqn:Hp.
    2:{ right. split; [intros (? & ? & ? & ? & _); congruence|by eexists]. }
    destruct (lookup_lt_is_Some_2 m id (Hv id pe Hp)) as [a Ha]. rewrite Ha. simpl.
    assert (~ (al_live a = true /\ tp_addr ptr = al_addr a /\ kind = al_kind a /\ size = al_size a /\ align = al_align a) ->
       ~ exists id' pe' a', Some (id, pe) = Some (id', pe') /\ m !! id' = Some a' /\
       al_live a' = true /\ tp_addr ptr = al_addr a' /\ kind = al_kind a' /\ size = al_size a' /\ align = al_align a') as Hno.
    { intros Hn (id' & pe' & a' & E & Ha' & H). injection E as <- <-. assert (a' = a) as -> by congruence. by apply Hn. }
    destruct (al_live a) eqn:E1; simpl.
    2:{ right. split; [|by eexists]. apply Hno. by intros [? _]. }
    destruct (Z.eqb_spec (tp_addr ptr) (al_addr a)); simpl.
    2:{ right. split; [|by eexists]. apply Hno. by intros (_ & ? & _). }
    case_bool_decide; simpl.
    2:{ right. split; [|by eexists]. apply Hno. by intros (_ & _ & ? & _). }
    destruct (N.eqb_spec size (al_size a)); simpl.
    2:{ right. split; [|by eexists]. apply Hno. by intros (_ & _ & _ & ? & _). }
    case_bool_decide; simpl.
    2:{ right. split; [|by eexists]. apply Hno. by intros (_ & _ & _ & _ & ?). }
    left. exists id, pe, a. repeat split; try done. by exists id, pe, a.
  Qed.

  (** ** Fresh memory (C24) *)
  Theorem allocate_exact {F} (MO : MemOps Prov F Mem) (m : Mem) kind size align addr :
    bm_like MO -> target_ok T ->
    let small := valid_size T size = true in
    let legal := 0 < addr /\ addr mod Z.of_N (align_bytes align) = 0 /\
       addr + Z.of_N size < 2 ^ (8 * Z.of_N (PTR_SIZE T)) /\
       forall i a, m !! i = Some a -> al_live a = true ->
         al_addr a <> addr /\ ranges_apart (al_addr a) (al_size a) addr size in
    (~ small -> is_ub (mo_allocate MO m kind size align addr)) /\
    (small -> legal -> exists p m', mo_allocate MO m kind size align addr = Ret (p, m')) /\
    (small -> ~ legal -> mo_allocate MO m kind size align addr = NoBehavior) /\
    (forall p m', mo_allocate MO m kind size align addr = Ret (p, m') ->
       small /\ legal /\ tp_addr p = addr /\ (exists pe, tp_prov p = Some (length m, pe)) /\
       exists a, m' = m ++ [a] /\ al_addr a = addr /\ al_size a = size /\ al_align a = align /\
         al_kind a = kind /\ al_live a = true /\ Forall (fun b => b = Uninit) (al_data a)).
  Proof.
    intros BL Tok small legal. destruct (bl_alloc _ BL m kind size align) as (pe & ae & E).
    assert (valid_size T size = true <-> small) as Hsm.
    { done. }
    assert (bm_addr_ok T m size align addr = true <-> legal) as Hlg.
    { rewrite addr_ok_spec. unfold legal. rewrite in_bounds_spec. unfold int_min, int_max, size_bits.
      pose proof (ptr_size_pos T Tok). destruct (N.eqb_spec (PTR_SIZE T) 0); [done|].
      split; intros (H1 & H2 & H3 & H4); (split; [done|split; [done|split; [lia|done]]]). }
    rewrite E. split; [|split; [|split]].
    - intros Hn. unfold bm_allocate. destruct (valid_size T size) eqn:Ev; [tauto|]. by eexists.
    - intros Hs Hl. unfold bm_allocate. apply Hsm in Hs. apply Hlg in Hl. rewrite Hs, Hl. simpl. by eexists _, _.
    - intros Hs Hl. unfold bm_allocate. apply Hsm in Hs. rewrite Hs. simpl.
      destruct (bm_addr_ok _ _ _ _ _) eqn:Ea; [tauto|]. done.
    - intros p m' H. apply bm_allocate_ret in H as (Hv & Ho & -> & ->). split; [tauto|]. split; [tauto|].
      simpl. split; [done|]. split; [by eexists|]. eexists. split; [done|]. simpl.
      repeat split; try done.
      + unfold al_size. simpl. rewrite list_repeat_length. lia.
      + apply Forall_forall. intros b Hb. apply elem_of_list_lookup in Hb as [i Hb].
        by apply list_repeat_lookup_uninit in Hb.
  Qed.

  (** ** Leaks (C23) *)
  Theorem leak_exact {F} (MO : MemOps Prov F Mem) (m : Mem) :
    bm_like MO ->
    let leaked := exists i a, m !! i = Some a /\ al_live a = true /\ al_kind a = AHeap in
    (leaked <-> mo_leak_check MO m = Stop TMemoryLeak) /\
    (~ leaked <-> mo_leak_check MO m = Ret tt).
  Proof.
    intros BL leaked. rewrite (bl_leak _ BL).
    assert ((leaked /\ bm_leak_check m = Stop TMemoryLeak) \/ (~ leaked /\ bm_leak_check m = Ret tt)) as H.
    { subst leaked. induction m as [|a m IH].
      - right. split; [|done]. intros (i & a & Hi & _). by rewrite lookup_nil in Hi.
      - unfold bm_leak_check. simpl. fold (bm_leak_check (PE:=PE) (AE:=AE)).
        destruct (decide (al_live a = true /\ al_kind a = AHeap)) as [[H1 H2]|Hn].
        + left. split; [by exists 0%nat, a|]. by rewrite H1, H2.
        + assert ((if al_live a then match al_kind a with AHeap => Stop TMemoryLeak | AGlobal | AFunction | AStack | AVTable => Ret tt end else Ret tt) = Ret tt) as Hr.
          { destruct (al_live a); [|done]. destruct (al_kind a); try done. by destruct Hn. }
          destruct IH as [[(i & b & Hi & Hb) IH]|[Hno IH]].
          * left. split; [by exists (S i), b|]. unfold bm_leak_check in IH. rewrite Hr. exact IH.
          * right. split.
            -- intros ([|i] & b & Hi & Hb1 & Hb2); simpl in Hi; [injection Hi as ->; by destruct Hn|].
               apply Hno. by exists i, b.
            -- unfold bm_leak_check in IH. rewrite Hr. exact IH. }
    destruct H as [[H1 H2]|[H1 H2]]; rewrite H2; split; split; intros; try done.
  Qed.
End Generic.

(** ** The basic memory instance *)
Lemma basic_like T : bm_like T (BasicOps T).
Proof.
  constructor; try done; intros; simpl; try (by eexists).
  - by exists tt, tt.
  - injection H as <- <- <-. constructor.
  - injection H as <-. constructor.
Qed.

(** C20: in the basic memory nothing else is undefined behaviour *)
Lemma basic_load_exact T (m : BMem unit unit) ptr len align :
  len <> 0%N -> prov_known m ptr ->
  let ok := tp_addr ptr mod Z.of_N (align_bytes align) = 0 /\ access_ok m ptr len in
  (ok <-> exists r, mo_load (BasicOps T) m ptr len align = Ret r) /\
  (~ ok <-> is_ub (mo_load (BasicOps T) m ptr len align)).
Proof.
  intros Hl Hv ok. apply ret_or_ub.
  assert (ok \/ ~ ok) as [H|H].
  { subst ok. destruct (decide (tp_addr ptr mod Z.of_N (align_bytes align) = 0)); [|tauto].
    destruct (check_ptr_cases m ptr len Hl Hv) as [[H1 _]|[H1 _]]; tauto. }
  - left. split; [done|]. destruct H as [H1 H2].
    destruct (bm_load_ok m ptr len align (fun _ _ _ => Ret tt) Hl H1 H2)
      as (id & pe & a & off & bytes & _ & _ & _ & _ & _ & E).
    simpl. rewrite E. simpl. by eexists.
  - right. split; [done|]. by apply (bad_access_ub T _ m ptr align (basic_like T) Hv).
Qed.
Lemma basic_store_exact T (m : BMem unit unit) ptr bytes align :
  bytes <> [] -> prov_known m ptr ->
  let ok := tp_addr ptr mod Z.of_N (align_bytes align) = 0 /\ access_ok m ptr (N.of_nat (length bytes)) in
  (ok <-> exists r, mo_store (BasicOps T) m ptr bytes align = Ret r) /\
  (~ ok <-> is_ub (mo_store (BasicOps T) m ptr bytes align)).
Proof.
  intros Hne Hv ok. apply ret_or_ub.
  assert (N.of_nat (length bytes) <> 0%N) as Hl by (destruct bytes; [done|simpl; lia]).
  assert (ok \/ ~ ok) as [H|H].
  { subst ok. destruct (decide (tp_addr ptr mod Z.of_N (align_bytes align) = 0)); [|tauto].
    destruct (check_ptr_cases m ptr _ Hl Hv) as [[H1 _]|[H1 _]]; tauto. }
  - left. split; [done|]. destruct H as [H1 H2].
    destruct (bm_store_ok m ptr bytes align (fun _ _ _ => Ret tt) Hne H1 H2)
      as (id & pe & a & off & data & _ & _ & _ & _ & _ & E).
    simpl. rewrite E. simpl. by eexists.
  - right. split; [done|]. by apply (bad_access_ub T _ m ptr align (basic_like T) Hv).
Qed.
Lemma basic_dealloc_exact T (m : BMem unit unit) ptr kind size align :
  prov_known m ptr ->
  (dealloc_ok m ptr kind size align <-> exists r, mo_deallocate (BasicOps T) m ptr kind size align = Ret r) /\
  (~ dealloc_ok m ptr kind size align <-> is_ub (mo_deallocate (BasicOps T) m ptr kind size align)).
Proof.
  intros Hv. apply ret_or_ub.
  destruct (bm_deallocate_cases m ptr kind size align (fun _ _ => Ret tt) Hv)
    as [(id & pe & a & _ & _ & H & _ & E)|H].
  - left. split; [done|]. simpl. rewrite E. simpl. by eexists.
  - by right.
Qed.

(** C26 *)
From Verif Require Import IntPtrCast.
Lemma exposed_in {P} (es : list (ThinPtr P)) e0 pr :
  In pr (fold_left ipc_expose es e0) <-> In pr e0 \/ exists q, In q es /\ tp_prov q = Some pr.
Proof.
  revert e0. induction es as [|q es IH]; intros e0; simpl.
  - split; [tauto|]. intros [?|(q & [] & _)]; done.
  - rewrite IH. unfold ipc_expose. destruct (tp_prov q) as [pq|] eqn:E; simpl.
    + split.
      * intros [[->|H]|(q' & H1 & H2)]; [right; exists q; auto|auto|right; exists q'; auto].
      * intros [H|(q' & [->|H1] & H2)]; [auto| |right; exists q'; auto]. left. left. congruence.
    + split.
      * intros [H|(q' & H1 & H2)]; [auto|right; exists q'; auto].
      * intros [H|(q' & [->|H1] & H2)]; [auto|congruence|right; exists q'; auto].
Qed.
Lemma int2ptr_exact {P} `{EqDecision P} (es : list (ThinPtr P)) addr prov :
  let legal := prov = None \/ exists q, In q es /\ tp_prov q = prov in
  (legal -> ipc_int2ptr (fold_left ipc_expose es ipc_new) addr prov = Ret (mkThin addr prov)) /\
  (~ legal -> ipc_int2ptr (fold_left ipc_expose es ipc_new) addr prov = NoBehavior).
Proof.
  intros legal. unfold ipc_int2ptr.
  assert ((match prov with None => true
           | Some p => existsb (fun q => bool_decide (p = q)) (fold_left ipc_expose es ipc_new) end) = true <-> legal) as H.
  { subst legal. destruct prov as [pr|]; [|tauto]. rewrite existsb_exists. split.
    - intros (x & Hx & Hd). apply bool_decide_eq_true in Hd as <-. apply exposed_in in Hx as [[]|Hx]. by right.
    - intros [?|(q & Hq & Hp)]; [done|]. exists pr. split; [|by apply bool_decide_eq_true].
      apply exposed_in. right. by exists q. }
  destruct (match prov with None => _ | Some p => _ end).
  - split; [done|]. intros Hn. destruct Hn. by apply H.
  - split; [|done]. intros Hl. apply H in Hl. done.
Qed.
