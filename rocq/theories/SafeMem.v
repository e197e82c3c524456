(** What the machine needs from a memory in order not to panic, and that both memories provide it. *)
From Verif Require Export Wp ProvVal TreeMask.
From stdpp Require Import relations.
From Coq Require Import ZifyBool ZifyN ZifyNat.
Local Open Scope Z_scope.

(** the two pointers point into the same allocation at the same address *)
Definition same_target {PE} (p q : ThinPtr (nat * PE)) : Prop :=
  tp_addr p = tp_addr q /\
  match tp_prov p, tp_prov q with
  | Some (i, _), Some (j, _) => i = j
  | None, None => True
  | _, _ => False
  end.
Definition cells_ok {P} (lk : ThinPtr P -> Outcome VTable) : Prop :=
  forall p vt, lk p = Ret vt -> check_cells (vt_cells vt) (vt_size vt) = Ret tt.
(** the retag can compute the size of the pointee *)
Definition retag_pre {P} (ptr : Pointer P) (pt : PtrType) (lk : ThinPtr P -> Outcome VTable) : Prop :=
  cells_ok lk /\
  forall pi, safe_pointee pt = Some pi -> cells_check_wf (pi_cells pi) (pi_layout pi) = Ret tt /\
    exists size align, compute_size_and_align (pi_layout pi) (p_meta ptr) lk = Ret (size, align).

(** [sm_inv m fs]: a well-formed memory when [fs] is the frame data of all frames. [sm_prov m pr]: [m]
    knows the provenance. [sm_root m id pe]: nothing but stores through [(id, pe)] has touched the
    allocation. [sm_bad]: the retags that crash. *)
Record safe_mem (T : Target) {PE AE F : Type} (MO : MemOps (nat * PE) F (BMem PE AE)) := {
  sm_like : bm_like T MO;
  sm_inv : BMem PE AE -> list F -> Prop;
  sm_prov : BMem PE AE -> nat * PE -> Prop;
  sm_root : BMem PE AE -> nat -> PE -> Prop;
  sm_bad : BMem PE AE -> Pointer (nat * PE) -> PtrType -> (ThinPtr (nat * PE) -> Outcome VTable) -> Prop;
  sm_known : forall m id pe, sm_prov m (id, pe) -> (id < length m)%nat;
  sm_new : sm_inv (mo_new MO) [];
  sm_call : forall m L, sm_inv m L -> sm_inv m (mo_new_call MO :: L);
  sm_perm : forall m L L', L ≡ₚ L' -> sm_inv m L -> sm_inv m L';
  sm_alloc : forall m L kind size align addr p m', sm_inv m L ->
    mo_allocate MO m kind size align addr = Ret (p, m') ->
    sm_inv m' L /\ (forall pr, sm_prov m pr -> sm_prov m' pr) /\ thin_in (sm_prov m') p /\
    (forall id pe, tp_prov p = Some (id, pe) -> sm_root m' id pe) /\
    (forall id pe, sm_root m id pe -> sm_root m' id pe);
  sm_dealloc : forall m L p kind size align, sm_inv m L -> thin_in (sm_prov m) p ->
    wp False (mo_deallocate MO m p kind size align)
      (fun m' => sm_inv m' L /\ forall pr, sm_prov m pr -> sm_prov m' pr);
  sm_store : forall m L p bytes align, sm_inv m L -> thin_in (sm_prov m) p ->
    wp False (mo_store MO m p bytes align)
      (fun m' => sm_inv m' L /\ forall pr, sm_prov m pr -> sm_prov m' pr);
  sm_load : forall m L p len align, sm_inv m L -> thin_in (sm_prov m) p ->
    wp False (mo_load MO m p len align)
      (fun r => sm_inv (snd r) L /\ forall pr, sm_prov m pr -> sm_prov (snd r) pr);
  sm_retag : forall m f L ptr pt fe lk, sm_inv m (f :: L) -> thin_in (sm_prov m) (p_thin ptr) ->
    retag_pre ptr pt lk ->
    wp (sm_bad m ptr pt lk) (mo_retag MO m f ptr pt fe lk)
      (fun r => sm_inv (snd (fst r)) (snd r :: L) /\
         (forall pr, sm_prov m pr -> sm_prov (snd (fst r)) pr) /\
         thin_in (sm_prov (snd (fst r))) (p_thin (fst (fst r))) /\
         p_meta (fst (fst r)) = p_meta ptr /\ same_target (p_thin ptr) (p_thin (fst (fst r))));
  sm_end : forall m f L, sm_inv m (f :: L) ->
    wp False (mo_end_call MO m f) (fun m' => sm_inv m' L /\ forall pr, sm_prov m pr -> sm_prov m' pr);
  sm_root_store : forall m L id pe a addr bytes align, sm_inv m L -> sm_root m id pe ->
    m !! id = Some a -> al_live a = true -> addr = al_addr a ->
    is_aligned align addr = true -> (N.of_nat (length bytes) <= al_size a)%N ->
    exists m', mo_store MO m (mkThin addr (Some (id, pe))) bytes align = Ret m' /\
      forall id' pe', sm_root m id' pe' -> sm_root m' id' pe';
  sm_raw : forall m f ptr pt fe lk, safe_pointee pt = None -> mo_retag MO m f ptr pt fe lk = Ret (ptr, m, f);
  sm_bad_view : forall m m' ptr pt lk, al_addr <$> m' = al_addr <$> m -> sm_bad m' ptr pt lk -> sm_bad m ptr pt lk;
}.
Arguments sm_like {T PE AE F MO}.
Arguments sm_inv {T PE AE F MO}.
Arguments sm_prov {T PE AE F MO}.
Arguments sm_root {T PE AE F MO}.
Arguments sm_bad {T PE AE F MO}.

Section Generic.
  Context {PE AE : Type}.
  Variable T : Target.
  Notation Mem := (BMem PE AE).

  Lemma bm_check_safe (m : Mem) ptr len : prov_known m ptr -> bm_check_ptr m ptr len <> Panic.
  Proof.
    intros Hk. unfold bm_check_ptr. destruct (len =? 0)%N; [done|].
    destruct (tp_prov ptr) as [[id pe]|] eqn:Hp; [|done].
    destruct (lookup_lt_is_Some_2 m id (Hk _ _ Hp)) as [a Ha]. rewrite Ha. cbn [unwrap obind].
    destruct (negb _); [done|]. destruct (_ || _) eqn:E; [done|].
    apply orb_false_iff in E as [E _]. unfold size_from_bytes.
    destruct (Z.ltb_spec (tp_addr ptr - al_addr a) 0); [done|]. cbn. done.
  Qed.
  Lemma bm_store_safe (m : Mem) ptr bytes align h :
    prov_known m ptr ->
    (forall id pe a off, tp_prov ptr = Some (id, pe) -> m !! id = Some a -> al_live a = true ->
       (off + N.of_nat (length bytes) <= al_size a)%N -> h (al_extra a) pe off <> Panic) ->
    bm_store m ptr bytes align h <> Panic.
  Proof.
    intros Hk Hh. unfold bm_store. destruct (negb _); [done|].
    pose proof (bm_check_safe m ptr (N.of_nat (length bytes)) Hk) as Hc.
    destruct (bm_check_ptr m ptr _) as [[[[id pe] off]|]| | |] eqn:E; cbn [obind]; try done.
    apply bm_check_ptr_some in E as (Hl & Hp & a & Ha & Hv & [Hi1 Hi2] & Haddr). rewrite Ha. cbn [unwrap obind].
    assert (Hoff : (off + N.of_nat (length bytes) <= al_size a)%N) by lia.
    pose proof (Hh id pe a off Hp Ha Hv Hoff) as Hh'. destruct (h _ _ _); cbn [obind]; try done.
    destruct (write_subslice_total (al_data a) off bytes) as [d Hd]; [unfold al_size in Hoff; lia|]. by rewrite Hd.
  Qed.
  Lemma bm_load_safe (m : Mem) ptr len align h :
    prov_known m ptr ->
    (forall id pe a off, tp_prov ptr = Some (id, pe) -> m !! id = Some a -> al_live a = true ->
       (off + len <= al_size a)%N -> h (al_extra a) pe off <> Panic) ->
    bm_load m ptr len align h <> Panic.
  Proof.
    intros Hk Hh. unfold bm_load. destruct (negb _); [done|].
    pose proof (bm_check_safe m ptr len Hk) as Hc.
    destruct (bm_check_ptr m ptr _) as [[[[id pe] off]|]| | |] eqn:E; cbn [obind]; try done.
    apply bm_check_ptr_some in E as (Hl & Hp & a & Ha & Hv & [Hi1 Hi2] & Haddr). rewrite Ha. cbn [unwrap obind].
    assert (Hoff : (off + len <= al_size a)%N) by lia.
    pose proof (Hh id pe a off Hp Ha Hv Hoff) as Hh'. destruct (h _ _ _); cbn [obind]; try done.
    destruct (subslice_total (al_data a) off len) as [d Hd]; [unfold al_size in Hoff; lia|]. by rewrite Hd.
  Qed.
  Lemma bm_dealloc_safe (m : Mem) ptr kind size align h :
    prov_known m ptr ->
    (forall id pe a, tp_prov ptr = Some (id, pe) -> m !! id = Some a -> al_live a = true ->
       size = al_size a -> h (al_extra a) pe <> Panic) ->
    bm_deallocate m ptr kind size align h <> Panic.
  Proof.
    intros Hk Hh. destruct (bm_deallocate_cases m ptr kind size align h Hk) as [(id & pe & a & Hp & Ha & Hok & Hs & ->)|[_ [msg ->]]]; [|done].
    destruct Hok as (id' & pe' & a' & Hp' & Ha' & Hv & _). assert (a' = a) as -> by congruence.
    pose proof (Hh id pe a Hp Ha Hv (eq_sym Hs)) as Hh'. by destruct (h _ _).
  Qed.
  Lemma bm_store_at (m : Mem) id pe a addr bytes align h :
    m !! id = Some a -> al_live a = true -> addr = al_addr a -> is_aligned align addr = true ->
    (N.of_nat (length bytes) <= al_size a)%N ->
    (exists ae, h (al_extra a) pe 0%N = Ret ae) ->
    exists m', bm_store m (mkThin addr (Some (id, pe))) bytes align h = Ret m'.
  Proof.
    intros Ha Hv -> Hal Hl [ae Hae]. unfold bm_store, bm_check_ptr. cbn [tp_addr tp_prov]. rewrite Hal. cbn [negb].
    destruct (N.of_nat (length bytes) =? 0)%N; cbn [obind]; [by eexists|]. rewrite Ha. cbn [unwrap obind]. rewrite Hv. cbn [negb].
    rewrite Z.sub_diag. replace (_ || _) with false by lia. unfold size_from_bytes. cbn. rewrite Ha. cbn [unwrap obind].
    rewrite Hae. cbn [obind].
    destruct (write_subslice_total (al_data a) 0%N bytes) as [d Hd]; [unfold al_size in Hl; lia|]. rewrite Hd. by eexists.
  Qed.
  Lemma known_thin (m : Mem) (Q : nat * PE -> Prop) ptr :
    (forall id pe, Q (id, pe) -> (id < length m)%nat) -> thin_in Q ptr -> prov_known m ptr.
  Proof. intros H Hp id pe E. eapply H, Hp, E. Qed.
  Lemma same_target_refl (p : ThinPtr (nat * PE)) : same_target p p.
  Proof. split; [done|]. by destruct (tp_prov p) as [[]|]. Qed.
End Generic.

(** ** The basic memory *)

Definition basic_safe (T : Target) : safe_mem T (BasicOps T).
Proof.
  refine {| sm_like := basic_like T; sm_inv := fun _ _ => True;
            sm_prov := fun m pr => (fst pr < length m)%nat; sm_root := fun _ _ _ => True;
            sm_bad := fun _ _ _ _ => False |}; try done.
  - intros m L kind size align addr p m' _ H. cbn in H. apply bm_allocate_ret in H as (_ & _ & -> & ->).
    repeat split; auto.
    + intros pr Hpr. rewrite app_length. cbn. lia.
    + intros pr [= <-]. rewrite app_length. cbn. lia.
  - intros m L p kind size align _ Hp. apply wp_safe; cbn.
    + apply bm_dealloc_safe; [|done]. intros id pe Hpr. apply (Hp _ Hpr).
    + intros m' H. split; [done|]. intros pr Hpr. apply bm_deallocate_ret in H as (id & pe & a & ae & _ & _ & _ & _ & _ & _ & _ & _ & ->).
      by rewrite insert_length.
  - intros m L p bytes align _ Hp. apply wp_safe; cbn.
    + apply bm_store_safe; [|done]. intros id pe Hpr. apply (Hp _ Hpr).
    + intros m' H. split; [done|]. intros pr Hpr. by rewrite (bm_store_length _ _ _ _ _ _ H).
  - intros m L p len align _ Hp. apply wp_safe; cbn.
    + apply bm_load_safe; [|done]. intros id pe Hpr. apply (Hp _ Hpr).
    + intros [bs m'] H. split; [done|]. intros pr Hpr. cbn.
      apply bm_load_ret in H as (_ & [(_ & _ & ->)|(_ & id & pe & off & a & ae & _ & _ & _ & _ & _ & _ & _ & ->)]); [done|].
      by rewrite insert_length.
  - intros m f L ptr pt fe lk _ Hp _. cbn. repeat split; auto. apply same_target_refl.
  - intros m L id pe a addr bytes align _ _ Ha Hv Haddr Hal Hl. cbn.
    destruct (bm_store_at m id pe a addr bytes align (fun _ _ _ => Ret tt)) as [m' H]; eauto.
Defined.

(** ** Tree Borrows *)

Section Tree.
  Variable T : Target.
  Notation TO := (TreeOps T).

  Definition tprov (m : TMem) (pr : nat * list nat) : Prop := mem_prot m (fst pr) (snd pr) <> None.
  Definition troot (m : TMem) (id : nat) (path : list nat) : Prop :=
    path = [] /\ exists a, m !! id = Some a /\ Forall (fun p => p = Unprot UUnique) (n_perms (al_extra a)) /\
      n_children (al_extra a) = [].
  Definition tinv (m : TMem) (fs : list TFrame) : Prop := tb_len m /\ prot_inv m (concat fs).
  (** a safe pointer to a pointee of size zero, with an address before its allocation *)
  Definition tbad (m : TMem) (ptr : Pointer TProv) (pt : PtrType) (lk : ThinPtr TProv -> Outcome VTable) : Prop :=
    exists pi align, safe_pointee pt = Some pi /\
      compute_size_and_align (pi_layout pi) (p_meta ptr) lk = Ret (0%N, align) /\ ~ not_before m (p_thin ptr).

  Lemma tprov_valid m p : thin_in (tprov m) p <-> valid_prov m p.
  Proof.
    unfold thin_in, valid_prov, tprov. destruct (tp_prov p) as [[id path]|]; split; intros H; try done.
    - by apply (H (id, path)).
    - by intros pr [= <-].
  Qed.
  Lemma tprov_steps R m m' pr : rtc (tb_step T R) m m' -> tprov m pr -> tprov m' pr.
  Proof.
    intros Hs Hp. destruct pr as [id path].
    by apply (valid_prov_steps T R m m' (mkThin 0 (Some (id, path))) Hs).
  Qed.
  Lemma tprov_known m id path : tprov m (id, path) -> (id < length m)%nat.
  Proof.
    unfold tprov, mem_prot. cbn. destruct (m !! id) eqn:E; [|done]. intros _. by eapply lookup_lt_Some.
  Qed.
  Lemma concat_perm {A} (L L' : list (list A)) : L ≡ₚ L' -> concat L ≡ₚ concat L'.
  Proof.
    induction 1; cbn; [done|by apply Permutation_app_head| |by etrans].
    rewrite !app_assoc. apply Permutation_app_tail, Permutation_app_comm.
  Qed.

  (** one plain operation *)
  Lemma tinv_plain m L op m' :
    plain_op op = true -> mem_op TO m op = Ret m' -> tinv m L -> tinv m' L /\ forall pr, tprov m pr -> tprov m' pr.
  Proof.
    intros Hpl Hop [Hl Hi]. pose proof (mem_op_steps _ _ _ _ Hop) as Hs. split; [split|].
    - by eapply tb_steps_len.
    - by eapply prot_inv_plain.
    - intros pr. by eapply tprov_steps.
  Qed.
  Lemma handler_safe m id a q ak off size :
    tb_len m -> m !! id = Some a -> (off + size <= al_size a)%N -> node_access (al_extra a) q ak off size <> Panic.
  Proof.
    intros Hl Ha Hs. destruct (node_access_cases (al_extra a) q ak off size _ (Hl _ _ Ha)) as [[n' ->]|[msg ->]]; try done.
    unfold al_size in Hs. lia.
  Qed.
  Lemma root_write (n : Node) off size :
    Forall (fun p => p = Unprot UUnique) (n_perms n) -> n_children n = [] ->
    (N.to_nat off + N.to_nat size <= length (n_perms n))%nat ->
    node_access n (Some []) AkWrite off size = Ret n.
  Proof.
    destruct n as [cs ps pr]. cbn. intros HF -> Hl.
    assert (perms_transition ps Local AkWrite off size = Ret ps) as ->; [|done].
    apply perms_transition_iff. split; [done|]. intros o. split; [|done]. intros [H1 H2].
    destruct (lookup_lt_is_Some_2 ps o) as [p Hp]; [lia|]. rewrite Forall_lookup in HF.
    exists p, p. rewrite Hp. split; [done|]. split; [|done]. by rewrite (HF _ _ Hp).
  Qed.
  Lemma root_length (n : Node) len : tree_len n len -> length (n_perms n) = len.
  Proof. destruct n. by intros [H _]%tree_len_cons. Qed.

  Definition tree_safe : safe_mem T TO.
  Proof.
    refine {| sm_like := tree_like T; sm_inv := tinv; sm_prov := tprov; sm_root := troot; sm_bad := tbad |}.
    - apply tprov_known.
    - split.
      + intros id a Ha. by destruct id.
      + split; [constructor|]. split; [intros id path H; by apply elem_of_nil in H|].
        intros id a path ps pr Ha. by destruct id.
    - intros m L [Hl Hi]. split; done.
    - intros m L L' HL [Hl Hi]. split; [done|]. eapply prot_inv_perm; [by apply concat_perm|done].
    - intros m L kind size align addr p m' Hi H.
      assert (Hop : mem_op TO m (OpAllocate kind size align addr) = Ret m') by (unfold mem_op; by rewrite H).
      destruct (tinv_plain m L (OpAllocate kind size align addr) m' eq_refl Hop Hi) as [Hi' Hg]. split; [done|]. split; [done|].
      split; [by eapply tprov_valid, valid_prov_alloc|].
      cbn in H. apply bm_allocate_ret in H as (_ & _ & -> & ->). split.
      + intros id pe [= <- <-]. split; [done|]. eexists. split; [by rewrite lookup_app_r, Nat.sub_diag by lia|].
        cbn. split; [|done]. unfold list_repeat. by apply Forall_replicate.
      + intros id pe (-> & a & Ha & H1 & H2). split; [done|]. exists a. split; [|done]. by apply lookup_app_l_Some.
    - intros m L p kind size align Hi Hp. apply wp_safe.
      + intros H. cbn in H. destruct Hi as [Hl _]. revert H. apply bm_dealloc_safe.
        * eapply known_thin; [|exact Hp]. apply tprov_known.
        * intros id pe a Hpr Ha Hv ->. unfold tb_dealloc.
          pose proof (handler_safe m id a (Some pe) AkWrite 0%N (al_size a) Hl Ha) as Hh.
          destruct (node_access _ _ _ _ _); cbn [obind]; try done; [by destruct (node_blocks_dealloc _)|].
          intros _. apply Hh; [lia|done].
      + intros m' H. by eapply (tinv_plain m L (OpDeallocate p kind size align)).
    - intros m L p bytes align Hi Hp. apply wp_safe.
      + intros H. cbn in H. destruct Hi as [Hl _]. revert H. apply bm_store_safe.
        * eapply known_thin; [|exact Hp]. apply tprov_known.
        * intros id pe a off Hpr Ha Hv Hs. by eapply handler_safe.
      + intros m' H. by eapply (tinv_plain m L (OpStore p bytes align)).
    - intros m L p len align Hi Hp. apply wp_safe.
      + intros H. cbn in H. destruct Hi as [Hl _]. revert H. apply bm_load_safe.
        * eapply known_thin; [|exact Hp]. apply tprov_known.
        * intros id pe a off Hpr Ha Hv Hs. by eapply handler_safe.
      + intros [bs m'] H. apply (tinv_plain m L (OpLoad p len align)); [done| |done]. unfold mem_op. by rewrite H.
    - intros m f L ptr pt fe lk Hi Hp [Hcells Hpre]. pose proof Hi as [Hl Hpi]. apply wp_safe.
      + intros H. destruct (safe_pointee pt) as [pi|] eqn:Hsp.
        2: { exfalso. revert H. cbn. unfold tb_retag, settings_new. by rewrite Hsp. }
        destruct (Hpre pi eq_refl) as (Hcw & size & align & Hcs).
        destruct (decide (size = 0%N)) as [->|Hne].
        * exists pi, align. split; [done|]. split; [done|]. intros Hnb.
          destruct (retag_total T m f ptr pt fe lk Hl) as [[r Hr]|[msg Hr]]; try (rewrite Hr in H; done).
          -- by apply tprov_valid.
          -- exact Hcells.
          -- intros pi' E. rewrite Hsp in E. injection E as <-. split; [done|]. exists 0%N, align. done.
        * exfalso. destruct (retag_total T m f ptr pt fe lk Hl) as [[r Hr]|[msg Hr]]; try (rewrite Hr in H; done).
          -- by apply tprov_valid.
          -- exact Hcells.
          -- intros pi' E. rewrite Hsp in E. injection E as <-. split; [done|]. exists size, align. done.
      + intros [[p' m'] f'] H. cbn [fst snd].
        assert (Hop : mem_op TO m (OpRetag f ptr pt fe lk) = Ret m') by (unfold mem_op; by rewrite H).
        pose proof (mem_op_steps _ _ _ _ Hop) as Hs.
        destruct (retag_frame T _ _ _ _ _ _ _ _ _ H) as (new & -> & Hnew).
        split; [split; [by eapply tb_steps_len|]|].
        { cbn [concat]. apply Hnew in Hpi. eapply prot_inv_perm; [|exact Hpi]. cbn [concat].
          rewrite !app_assoc. apply Permutation_app_tail, Permutation_app_comm. }
        split; [intros pr; by eapply tprov_steps|].
        split; [eapply tprov_valid, valid_prov_retag; [exact H|by apply tprov_valid]|].
        cbn in H. apply tb_retag_ret in H as [(_ & -> & _ & _)|(s & q & _ & Hr & ->)].
        { split; [done|apply same_target_refl]. }
        cbn [p_meta p_thin]. split; [done|].
        apply reborrow_ret in Hr as [(_ & _ & -> & _)|(id & parent & a & a' & cp & Hpr & _ & _ & _ & -> & _)].
        { apply same_target_refl. }
        split; [done|]. cbn. by rewrite Hpr.
    - intros m f L [Hl Hi]. cbn [concat] in Hi. apply wp_safe.
      + intros H. by destruct (end_call_no_panic T m f (concat L) Hl Hi) as [[m' E]|[msg E]]; rewrite E in H.
      + intros m' H.
        assert (Hop : mem_op TO m (OpEndCall f) = Ret m') by done.
        pose proof (mem_op_steps _ _ _ _ Hop) as Hs. split; [split|].
        * by eapply tb_steps_len.
        * by eapply (end_call_inv T).
        * intros pr. by eapply tprov_steps.
    - intros m L id pe a addr bytes align [Hl _] (-> & a0 & Ha0 & HF & Hch) Ha Hv Haddr Hal Hb.
      rewrite Ha in Ha0. injection Ha0 as <-. cbn [mo_store TreeOps].
      assert (Hw : node_access (al_extra a) (Some []) AkWrite 0 (N.of_nat (length bytes)) = Ret (al_extra a)).
      { apply root_write; [done..|]. rewrite (root_length _ _ (Hl _ _ Ha)). unfold al_size in Hb. lia. }
      destruct (bm_store_at m id [] a addr bytes align
                  (fun root path offset => node_access root (Some path) AkWrite offset (N.of_nat (length bytes)))) as [m' H]; try done; [by exists (al_extra a)|].
      exists m'. split; [done|]. intros id' pe' (-> & b & Hb' & HF' & Hch').
      split; [done|]. apply bm_store_ret in H as (_ & [(_ & ->)|(_ & i & pe & off & a1 & ae & data & [= <- <-] & Ha1 & _ & _ & Hoff & Hh & _ & ->)]).
      { by exists b. }
      rewrite Ha in Ha1. injection Ha1 as <-. cbn [tp_addr] in Hoff. assert (off = 0%N) as -> by lia.
      rewrite Hw in Hh. injection Hh as <-.
      destruct (decide (id' = id)) as [->|Hne].
      + exists (mkAlloc data (al_addr a) (al_align a) (al_kind a) (al_live a) (al_extra a)).
        rewrite list_lookup_insert; [done|]. apply (lookup_lt_Some _ _ _ Ha).
      + exists b. by rewrite list_lookup_insert_ne.
    - intros m f ptr pt fe lk Hs. cbn. unfold tb_retag, settings_new. by rewrite Hs.
    - intros m m' ptr pt lk Hv (pi & al & H1 & H2 & H3). exists pi, al. split; [done|]. split; [done|].
      contradict H3. unfold not_before in *. destruct (tp_prov (p_thin ptr)) as [[id path]|]; [|done].
      intros a Ha. assert (E : (al_addr <$> m') !! id = Some (al_addr a)) by (by rewrite list_lookup_fmap, Ha).
      rewrite Hv, list_lookup_fmap in E. destruct (m !! id) as [b|] eqn:Eb; [|done]. cbn in E. injection E as <-. by apply H3.
  Defined.
End Tree.
