(** The relation of SimSpec is kept by every function of the machine. *)
From Verif Require Export SimRepr.
From Verif Require Import Wp BaseProofs.
From Coq Require Import ZifyBool ZifyN ZifyNat.

(** what two memory models have to satisfy *)
Record mem_sim {P1 F1 M1 P2 F2 M2} (MO1 : MemOps P1 F1 M1) (MO2 : MemOps P2 F2 M2)
    (h : P1 -> P2) (MR : M1 -> M2 -> Prop) (root : P1 -> Prop) : Prop := {
  ms_root : forall p q, root p -> root q -> h p = h q -> p = q;
  ms_new : MR (mo_new MO1) (mo_new MO2);
  ms_allocate m n k s a ad : MR m n ->
    sim (fun x y => MR (snd x) (snd y) /\ tp_addr (fst x) = tp_addr (fst y) /\
           exists p, root p /\ tp_prov (fst x) = Some p /\ tp_prov (fst y) = Some (h p))
      (mo_allocate MO1 m k s a ad) (mo_allocate MO2 n k s a ad);
  ms_deallocate m n p q k s a : MR m n -> thin_sim h p q ->
    sim MR (mo_deallocate MO1 m p k s a) (mo_deallocate MO2 n q k s a);
  ms_store m n p q b c a : MR m n -> thin_sim h p q -> bytes_sim h b c ->
    sim MR (mo_store MO1 m p b a) (mo_store MO2 n q c a);
  ms_load m n p q l a : MR m n -> thin_sim h p q ->
    sim (fun x y => bytes_sim h (fst x) (fst y) /\ MR (snd x) (snd y))
      (mo_load MO1 m p l a) (mo_load MO2 n q l a);
  ms_deref m n p q l : MR m n -> thin_sim h p q -> sim eq (mo_deref MO1 m p l) (mo_deref MO2 n q l);
  ms_retag m n f g p q pt fe l1 l2 : MR m n -> ptr_sim h p q ->
    sim (fun x y => ptr_sim h (fst (fst x)) (fst (fst y)) /\ MR (snd (fst x)) (snd (fst y)))
      (mo_retag MO1 m f p pt fe l1) (mo_retag MO2 n g q pt fe l2);
  ms_end_call m n f g : MR m n -> sim MR (mo_end_call MO1 m f) (mo_end_call MO2 n g);
  ms_leak_check m n : MR m n -> mo_leak_check MO1 m = mo_leak_check MO2 n;
}.

Section Step.
  Context {P1 F1 M1 P2 F2 M2 : Type} `{EqDecision P1} `{EqDecision P2}.
  Variable T : Target.
  Variables (MO1 : MemOps P1 F1 M1) (MO2 : MemOps P2 F2 M2).
  Variables (h : P1 -> P2) (MR : M1 -> M2 -> Prop) (root : P1 -> Prop).
  Hypothesis MS : mem_sim MO1 MO2 h MR root.

  Notation Mach1 := (Machine P1 F1 M1).
  Notation Mach2 := (Machine P2 F2 M2).
  Notation msim := (mach_sim (F1 := F1) (F2 := F2) h MR root).
  Notation csim := (cmem_sim MR).
  Notation bytes_sim := (bytes_sim h).
  Notation value_sim := (value_sim h).
  Notation thin_sim := (thin_sim h).
  Notation ptr_sim := (ptr_sim h).
  Notation meta_sim := (meta_sim h).
  Notation place_sim := (place_sim h).
  Notation frame_sim := (frame_sim (F1 := F1) (F2 := F2) h).
  Notation thread_sim := (thread_sim (F1 := F1) (F2 := F2) h).
  Notation chs := (List.map (choice_sim h)).

  (** ** Concurrent memory *)

  Lemma cm_allocate_sim c d k s a ad : csim c d ->
    sim (fun x y => csim (snd x) (snd y) /\ tp_addr (fst x) = tp_addr (fst y) /\
           exists p, root p /\ tp_prov (fst x) = Some p /\ tp_prov (fst y) = Some (h p))
      (cm_allocate MO1 c k s a ad) (cm_allocate MO2 d k s a ad).
  Proof.
    intros [Hm Ha]. eapply sim_bind; [by apply (ms_allocate _ _ _ _ _ MS)|].
    intros [p m] [q n] _ _ (Hmn & Hp). apply sim_ret. split; [|done]. by split.
  Qed.
  Lemma cm_deallocate_sim c d p q k s a : csim c d -> thin_sim p q ->
    sim csim (cm_deallocate MO1 c p k s a) (cm_deallocate MO2 d q k s a).
  Proof.
    intros [Hm Ha] Hp. eapply sim_bind; [by apply (ms_deallocate _ _ _ _ _ MS)|].
    intros m n _ _ Hmn. apply sim_ret. by split.
  Qed.
  Lemma cm_store_sim c d p q x y a at_ : csim c d -> thin_sim p q -> bytes_sim x y ->
    sim csim (cm_store MO1 c p x a at_) (cm_store MO2 d q y a at_).
  Proof.
    intros [Hm Ha] Hp Hb. eapply sim_bind; [by apply (ms_store _ _ _ _ _ MS)|].
    intros m n _ _ Hmn. apply sim_ret. split; [done|]. simpl. by rewrite Ha, (proj1 Hp), (Forall2_length _ _ _ Hb).
  Qed.
  Lemma cm_load_sim c d p q l a at_ : csim c d -> thin_sim p q ->
    sim (fun x y => bytes_sim (fst x) (fst y) /\ csim (snd x) (snd y))
      (cm_load MO1 c p l a at_) (cm_load MO2 d q l a at_).
  Proof.
    intros [Hm Ha] Hp. eapply sim_bind; [by apply (ms_load _ _ _ _ _ MS)|].
    intros [x m] [y n] _ _ [Hb Hmn]. apply sim_ret. split; [done|]. split; [done|]. simpl.
    by rewrite Ha, (proj1 Hp).
  Qed.
  Lemma cm_deref_sim c d p q l : csim c d -> thin_sim p q -> sim eq (cm_deref MO1 c p l) (cm_deref MO2 d q l).
  Proof. intros [Hm _] Hp. by apply (ms_deref _ _ _ _ _ MS). Qed.
  Lemma thin_offset p q i : thin_sim p q -> thin_sim (mkThin (tp_addr p + i) (tp_prov p)) (mkThin (tp_addr q + i) (tp_prov q)).
  Proof. intros [H1 H2]. split; simpl; [by rewrite H1|done]. Qed.
  Lemma cm_signed_deref_sim c d p q l : csim c d -> thin_sim p q ->
    sim eq (cm_signed_deref MO1 c p l) (cm_signed_deref MO2 d q l).
  Proof.
    intros [Hm _] Hp. unfold cm_signed_deref, mo_signed_deref. destruct (0 <? l).
    all: eapply sim_bind; [apply sim_eq|]; intros s ? _ _ <-; apply (ms_deref _ _ _ _ _ MS); try done.
    by apply thin_offset.
  Qed.
  Lemma wrapping_offset_sim p q i : thin_sim p q -> thin_sim (wrapping_offset T p i) (wrapping_offset T q i).
  Proof. intros [H1 H2]. unfold wrapping_offset. split; simpl; [by rewrite H1|done]. Qed.

  (** ** Threads and tables *)

  Lemma set_mem_sim m n c d : msim m n -> csim c d -> msim (set_mem m c) (set_mem n d).
  Proof. intros [] ?. by split. Qed.
  Lemma set_threads_sim m n l k : msim m n -> Forall2 thread_sim l k -> msim (set_threads m l) (set_threads n k).
  Proof. intros [] ?. by split. Qed.
  Lemma set_sync_sim m n s : msim m n -> msim (set_sync m s) (set_sync n s).
  Proof. intros []. by split. Qed.
  Lemma set_locks_sim m n s : msim m n -> msim (set_locks m s) (set_locks n s).
  Proof. intros []. by split. Qed.
  Lemma set_thread_sim m n i t u : msim m n -> thread_sim t u -> msim (set_thread m i t) (set_thread n i u).
  Proof.
    intros H Ht. apply set_threads_sim; [done|]. apply Forall2_insert; [|done]. by apply (sim_threads _ _ _ _ _ H).
  Qed.
  Lemma set_active_thread_sim m n t u : msim m n -> thread_sim t u ->
    msim (set_active_thread m t) (set_active_thread n u).
  Proof. intros H Ht. unfold set_active_thread. rewrite (sim_active _ _ _ _ _ H). by apply set_thread_sim. Qed.

  Lemma lookup_thread_sim m n i : msim m n ->
    forall t, m_threads m !! i = Some t -> exists u, m_threads n !! i = Some u /\ thread_sim t u.
  Proof. intros H t Ht. by apply (Forall2_lookup_l _ _ _ _ _ (sim_threads _ _ _ _ _ H)). Qed.
  Lemma active_thread_sim m n : msim m n -> sim thread_sim (active_thread m) (active_thread n).
  Proof.
    intros H. unfold active_thread. rewrite <- (sim_active _ _ _ _ _ H). apply sim_unwrap. by apply lookup_thread_sim.
  Qed.
  Lemma cur_frame_sim m n : msim m n -> sim frame_sim (cur_frame m) (cur_frame n).
  Proof.
    intros H. unfold cur_frame. eapply sim_bind; [by apply active_thread_sim|]. intros t u _ _ (Hs & _).
    destruct Hs; [apply sim_panic|]. by apply sim_ret.
  Qed.
  Lemma set_cur_frame_sim m n f g : msim m n -> frame_sim f g -> sim msim (set_cur_frame m f) (set_cur_frame n g).
  Proof.
    intros H Hf. unfold set_cur_frame. eapply sim_bind; [by apply active_thread_sim|]. intros t u _ _ (Hs & Hst & Hp).
    destruct Hs; [apply sim_panic|]. apply sim_ret. apply set_active_thread_sim; [done|]. split; [|done]. by constructor.
  Qed.
  Lemma with_pc_sim f g b s : frame_sim f g -> frame_sim (with_pc f b s) (with_pc g b s).
  Proof. intros (? & ? & ? & ? & ?). by repeat split. Qed.
  Lemma jump_to_block_sim m n b : msim m n -> sim msim (jump_to_block m b) (jump_to_block n b).
  Proof.
    intros H. unfold jump_to_block. eapply sim_bind; [by apply cur_frame_sim|]. intros f g _ _ Hf.
    apply set_cur_frame_sim; [done|]. by apply with_pc_sim.
  Qed.

  (** maps from names to pointers *)
  Lemma map_get_sim (R : ThinPtr P1 -> ThinPtr P2 -> Prop) l k (x : N) p :
    Forall2 (fun a b => fst a = fst b /\ R (snd a) (snd b)) l k -> map_get l x = Some p ->
    exists q, map_get k x = Some q /\ R p q.
  Proof.
    unfold map_get. intros H. induction H as [|[a p'] [b q'] l k [Hk Hp] H IH]; [done|]. simpl in *. subst b.
    case_bool_decide; [intros [= <-]; eauto|done].
  Qed.
  Lemma map_get_none_sim (R : ThinPtr P1 -> ThinPtr P2 -> Prop) l k (x : N) :
    Forall2 (fun a b => fst a = fst b /\ R (snd a) (snd b)) l k -> map_get l x = None -> map_get k x = None.
  Proof.
    unfold map_get. intros H. induction H as [|[a p'] [b q'] l k [Hk Hp] H IH]; [done|]. simpl in *. subst b.
    case_bool_decide; [done|done].
  Qed.
  Lemma map_insert_sim (R : ThinPtr P1 -> ThinPtr P2 -> Prop) l k (x : N) p q :
    Forall2 (fun a b => fst a = fst b /\ R (snd a) (snd b)) l k -> R p q ->
    Forall2 (fun a b => fst a = fst b /\ R (snd a) (snd b)) (map_insert l x p) (map_insert k x q).
  Proof.
    intros H Hpq. induction H as [|[a p'] [b q'] l k [Hk Hp] H IH]; simpl in *; [by repeat constructor|]. subst b.
    case_bool_decide; by repeat constructor.
  Qed.
  Lemma map_remove_sim (R : ThinPtr P1 -> ThinPtr P2 -> Prop) l k (x : N) :
    Forall2 (fun a b => fst a = fst b /\ R (snd a) (snd b)) l k ->
    Forall2 (fun a b => fst a = fst b /\ R (snd a) (snd b)) (map_remove l x) (map_remove k x).
  Proof.
    intros H. unfold map_remove. induction H as [|[a p'] [b q'] l k [Hk Hp] H IH]; simpl in *; [constructor|]. subst b.
    case_bool_decide; simpl; [done|]. by repeat constructor.
  Qed.
  Lemma table_weaken l k : table_sim h root l k ->
    Forall2 (fun a b => fst a = fst b /\ thin_sim (snd a) (snd b)) l k.
  Proof.
    intros H. eapply Forall2_impl; [exact H|]. intros [a p] [b q] (? & ? & x & _ & Hx & Hy). simpl in *.
    split; [done|]. split; [done|]. rewrite Hx, Hy. constructor.
  Qed.

  (** looking up a pointer *)
  Lemma prov_some p o : prov_sim h (Some p) o -> o = Some (h p).
  Proof. by inversion 1. Qed.
  Lemma find_sim l k p q kv : table_sim h root l k -> thin_sim p q ->
    List.find (fun kv => bool_decide (snd kv = p)) l = Some kv ->
    exists kv', List.find (fun kv => bool_decide (snd kv = q)) k = Some kv' /\ fst kv = fst kv'.
  Proof.
    intros H Hpq. induction H as [|[a x] [b y] l k (Hk & Ha & pr & Hr & Hx & Hy) H IH]; [done|]. simpl in *. subst b.
    case_bool_decide as E.
    - intros [= <-]. subst x. destruct Hpq as [Hpa Hpp]. rewrite Hx in Hpp. apply prov_some in Hpp.
      rewrite bool_decide_true; [eauto|]. destruct y, q. simpl in *. congruence.
    - intros Hf. destruct (IH Hf) as (kv' & Hf' & Hkk). case_bool_decide as E'; [|eauto].
      exfalso. subst y. apply find_some in Hf as [Hin Hb]. apply bool_decide_eq_true in Hb.
      apply elem_of_list_In, elem_of_list_lookup in Hin as [i Hi].
      destruct (Forall2_lookup_l _ _ _ _ _ H Hi) as ([b z] & Hz & _ & Haz & pr' & Hr' & Hx' & Hy'). simpl in *.
      destruct Hpq as [Hpa Hpp]. rewrite Hb in Hx', Haz. rewrite Hx' in Hpp. apply prov_some in Hpp.
      rewrite Hy in Hpp. injection Hpp as He.
      pose proof (ms_root _ _ _ _ _ MS _ _ Hr' Hr (eq_sym He)) as ->. apply E. destruct x, p. simpl in *. congruence.
  Qed.

  Lemma vtable_from_ptr_sim m n p q : msim m n -> thin_sim p q ->
    sim eq (vtable_from_ptr m p) (vtable_from_ptr n q).
  Proof.
    intros H Hp. unfold vtable_from_ptr. destruct (List.find _ (m_vtptrs m)) as [kv|] eqn:E; [|apply sim_stop].
    destruct (find_sim _ _ _ _ _ (sim_vtptrs _ _ _ _ _ H) Hp E) as (kv' & -> & ->).
    rewrite (sim_prog _ _ _ _ _ H). apply sim_eq.
  Qed.
  Lemma vtable_lookup_sim m n p q : msim m n -> thin_sim p q -> sim eq (vtable_lookup m p) (vtable_lookup n q).
  Proof.
    intros H Hp. unfold vtable_lookup. destruct (List.find _ (m_vtptrs m)) as [kv|] eqn:E; [|apply sim_panic].
    destruct (find_sim _ _ _ _ _ (sim_vtptrs _ _ _ _ _ H) Hp E) as (kv' & -> & Hk). simpl.
    rewrite (sim_prog _ _ _ _ _ H), Hk. apply sim_eq.
  Qed.
  Lemma fn_from_ptr_sim m n v w : msim m n -> value_sim v w -> sim eq (fn_from_ptr m v) (fn_from_ptr n w).
  Proof.
    intros H [i|b|p q Hp|vs ws Hf|d v' w' _|c d _]; simpl; try apply sim_stop.
    destruct p as [p pm], q as [q qm], Hp as [Hp Hm]. simpl in *. destruct Hm; try apply sim_stop.
    destruct (List.find _ (m_fnptrs m)) as [kv|] eqn:E; [|apply sim_stop].
    destruct (find_sim _ _ _ _ _ (sim_fnptrs _ _ _ _ _ H) Hp E) as (kv' & -> & ->).
    rewrite (sim_prog _ _ _ _ _ H). apply sim_eq.
  Qed.

  (** ** Typed accesses *)

  Lemma check_sim m n ty v w : msim m n -> value_sim v w ->
    sim eq (check_value T (chk_env MO1 m) ty v) (check_value T (chk_env MO2 n) ty w).
  Proof.
    intros H Hv. apply (check_value_sim h); simpl; try done.
    - intros. apply cm_deref_sim; [|done]. by apply sim_mem in H.
    - intros. by apply vtable_from_ptr_sim.
    - intros. by apply vtable_lookup_sim.
  Qed.
  Lemma csize_sim m n l x y : msim m n -> meta_sim x y ->
    sim eq (compute_size (chk_env MO1 m) l x) (compute_size (chk_env MO2 n) l y).
  Proof. intros H Hx. apply (compute_size_sim h); simpl; [|done]. intros. by apply vtable_lookup_sim. Qed.
  Lemma calign_sim m n l x y : msim m n -> meta_sim x y ->
    sim eq (compute_align (chk_env MO1 m) l x) (compute_align (chk_env MO2 n) l y).
  Proof. intros H Hx. apply (compute_align_sim h); simpl; [|done]. intros. by apply vtable_lookup_sim. Qed.

  Lemma typed_store_sim m n p q v w ty a at_ : msim m n -> thin_sim p q -> value_sim v w ->
    sim msim (typed_store T MO1 m p v ty a at_) (typed_store T MO2 n q w ty a at_).
  Proof.
    intros H Hp Hv. unfold typed_store. eapply sim_ok; [by apply check_sim|done|]. intros _ _ _ _. simpl.
    eapply sim_bind; [by apply encode_sim|]. intros b c _ _ Hb.
    eapply sim_bind; [apply cm_store_sim; [by apply sim_mem in H|done|done]|]. intros. apply sim_ret. by apply set_mem_sim.
  Qed.

  Definition vm_sim (x : Value P1 * Mach1) (y : Value P2 * Mach2) : Prop :=
    value_sim (fst x) (fst y) /\ msim (snd x) (snd y).
  Definition vt_sim (x : Value P1 * Ty) (y : Value P2 * Ty) : Prop := value_sim (fst x) (fst y) /\ snd x = snd y.
  Definition vtm_sim (x : Value P1 * Ty * Mach1) (y : Value P2 * Ty * Mach2) : Prop :=
    vt_sim (fst x) (fst y) /\ msim (snd x) (snd y).
  Definition ptm_sim (x : Place P1 * Ty * Mach1) (y : Place P2 * Ty * Mach2) : Prop :=
    (place_sim (fst (fst x)) (fst (fst y)) /\ snd (fst x) = snd (fst y)) /\ msim (snd x) (snd y).
  Definition mc_sim (x : Mach1 * list (Choice P1)) (y : Mach2 * list (Choice P2)) : Prop :=
    msim (fst x) (fst y) /\ snd y = chs (snd x).

  Lemma typed_load_sim m n p q ty a at_ : msim m n -> thin_sim p q ->
    sim vm_sim (typed_load T MO1 m p ty a at_) (typed_load T MO2 n q ty a at_).
  Proof.
    intros H Hp. unfold typed_load. eapply sim_bind; [apply sim_eq|]. intros s ? _ _ <-.
    eapply sim_bind; [apply cm_load_sim; [by apply sim_mem in H|done]|]. intros [b c] [b' c'] _ _ [Hb Hc]. simpl in *.
    intros r Hr. apply obind_ret in Hr as ([v|] & Hv & Hr); [|discriminate].
    destruct (decode_sim h T _ _ _ Hb v Hv) as (w & -> & Hvw). simpl. revert r Hr.
    eapply sim_bind; [apply check_sim; [by apply set_mem_sim|done]|]. intros _ _ _ _ _. apply sim_ret.
    split; [done|]. by apply set_mem_sim.
  Qed.
  Lemma place_load_sim m n p q ty : msim m n -> place_sim p q ->
    sim vm_sim (place_load T MO1 m p ty) (place_load T MO2 n q ty).
  Proof.
    intros H [[Hp _] Ha]. unfold place_load. rewrite Ha. destruct (negb _); [apply sim_stop|]. by apply typed_load_sim.
  Qed.
  Lemma place_store_sim m n p q v w ty : msim m n -> place_sim p q -> value_sim v w ->
    sim msim (place_store T MO1 m p v ty) (place_store T MO2 n q w ty).
  Proof.
    intros H [[Hp _] Ha] Hv. unfold place_store. rewrite Ha. destruct (negb _); [apply sim_stop|]. by apply typed_store_sim.
  Qed.
  Lemma deinit_sim m n p q l a : msim m n -> thin_sim p q -> sim msim (deinit MO1 m p l a) (deinit MO2 n q l a).
  Proof.
    intros H Hp. unfold deinit. eapply sim_bind; [apply cm_store_sim; [by apply sim_mem in H|done|apply uninit_sim]|].
    intros. apply sim_ret. by apply set_mem_sim.
  Qed.
  Lemma retag_ptr_sim m n p q pt fe : msim m n -> ptr_sim p q ->
    sim (fun x y => ptr_sim (fst x) (fst y) /\ msim (snd x) (snd y))
      (retag_ptr MO1 m p pt fe) (retag_ptr MO2 n q pt fe).
  Proof.
    intros H Hp. unfold retag_ptr. eapply sim_bind; [by apply cur_frame_sim|]. intros f g _ _ Hf.
    pose proof (sim_mem _ _ _ _ _ H) as [Hm Ha]. unfold cm_retag.
    eapply sim_bind.
    { eapply sim_bind; [by apply (ms_retag _ _ _ _ _ MS)|]. intros [[p' m'] f'] [[q' n'] g'] _ _ [Hp' Hm']. simpl in *.
      apply (sim_ret (fun x y => ptr_sim (fst (fst x)) (fst (fst y)) /\ csim (snd (fst x)) (snd (fst y)))).
      split; [done|]. by split. }
    intros [[p' c] f'] [[q' d] g'] _ _ [Hp' Hc]. simpl in *.
    eapply sim_bind; [apply set_cur_frame_sim; [by apply set_mem_sim|]|].
    - destruct Hf as (? & ? & ? & ? & ?). by repeat split.
    - intros. by apply sim_ret.
  Qed.

  (** ** Operators *)

  Lemma ptr_offset_inbounds_sim m n p q i : msim m n -> thin_sim p q ->
    sim thin_sim (ptr_offset_inbounds T MO1 m p i) (ptr_offset_inbounds T MO2 n q i).
  Proof.
    intros H Hp. unfold ptr_offset_inbounds.
    eapply sim_bind; [apply cm_signed_deref_sim; [by apply sim_mem in H|done]|]. intros _ _ _ _ _.
    rewrite (proj1 Hp). do 2 (eapply sim_bind; [apply sim_eq|]; intros _ _ _ _ _). apply sim_ret.
    rewrite <- (proj1 Hp) at 1. by apply thin_offset.
  Qed.

  Lemma eval_un_op_sim m n op x y : msim m n -> vt_sim x y ->
    sim vt_sim (eval_un_op T MO1 m op x) (eval_un_op T MO2 n op y).
  Proof.
    intros H. destruct x as [v t], y as [w t']. intros [Hv Ht]. simpl in Hv, Ht. subst t'.
    destruct op as [iop|[it|nt]| | |ty|ty|meth]; cbn [eval_un_op].
    - destruct t; try apply sim_panic. destruct Hv; try apply sim_panic.
      eapply sim_bind; [apply sim_eq|]. intros r ? _ _ <-.
      eapply sim_bind; [apply sim_expect, check_sim; [done|constructor]|]. intros _ _ _ _ _.
      apply sim_ret. split; [constructor|done].
    - destruct Hv; try apply sim_panic. apply sim_ret. split; [constructor|done].
    - do 2 (eapply sim_bind; [apply sim_eq|]; intros ? ? _ _ <-). destruct (negb _); [apply sim_stop|].
      eapply sim_bind; [eapply (transmute_sim h); eauto|].
      + intros. apply cm_deref_sim; [|done]. by apply sim_mem in H.
      + intros. by apply vtable_from_ptr_sim.
      + intros. by apply vtable_lookup_sim.
      + intros. by apply sim_ret.
    - destruct Hv; try apply sim_panic. apply sim_ret. split; [|done]. constructor. destruct H0. split; [done|constructor].
    - destruct Hv as [| |p q [Hp Hm]| | |]; try apply sim_panic. destruct t; try apply sim_panic.
      eapply sim_bind; [by apply meta_encode_sim|]. intros v w _ _ Hvw.
      eapply sim_bind; [by apply sim_expect, check_sim|]. intros. by apply sim_ret.
    - eapply sim_bind; [by apply meta_decode_sim|]. intros mv mw _ _ Hm.
      eapply sim_bind; [apply sim_eq|]. intros l ? _ _ <-. eapply sim_bind; [by apply csize_sim|]. intros s ? _ _ <-.
      apply sim_ret. split; [constructor|done].
    - eapply sim_bind; [by apply meta_decode_sim|]. intros mv mw _ _ Hm.
      eapply sim_bind; [apply sim_eq|]. intros l ? _ _ <-. eapply sim_bind; [by apply calign_sim|]. intros s ? _ _ <-.
      apply sim_ret. split; [constructor|done].
    - destruct Hv as [| |p q [Hp Hm]| | |]; try apply sim_panic. destruct t; try apply sim_panic.
      eapply sim_bind; [by apply vtable_lookup_sim|]. intros vt ? _ _ <-.
      eapply sim_bind; [apply sim_eq|]. intros fn ? _ _ <-.
      eapply sim_bind.
      { apply sim_unwrap. intros fp. apply map_get_sim. apply table_weaken. by apply sim_fnptrs in H. }
      intros fp fq _ _ Hf. apply sim_ret. split; [by apply thin_value|done].
  Qed.

  Lemma compare_values_sim t v w v' w' : value_sim v w -> value_sim v' w' ->
    sim eq (compare_values t v v') (compare_values t w w').
  Proof.
    intros Hv Hw. destruct t; simpl; try apply sim_panic; destruct Hv as [| |p q [[Hp _] Hm]| | |]; try apply sim_panic;
      destruct Hw as [| |p' q' [[Hp' _] Hm']| | |]; try apply sim_panic; try by apply sim_ret.
    unfold compare_ptr. rewrite Hp, Hp'.
    destruct Hm as [| |? ? [Hv _]]; destruct Hm' as [| |? ? [Hv' _]]; try apply sim_panic; simpl; try by apply sim_ret.
    rewrite Hv, Hv'. by apply sim_ret.
  Qed.

  Lemma eval_bin_op_sim m n op x y x' y' : msim m n -> vt_sim x y -> vt_sim x' y' ->
    sim vt_sim (eval_bin_op T MO1 m op x x') (eval_bin_op T MO2 n op y y').
  Proof.
    intros H. destruct x as [v t], y as [w u], x' as [v' t'], y' as [w' u'].
    intros [Hv Ht] [Hv' Ht']. simpl in *. subst u u'.
    destruct op as [iop|iop|rel|inb|inb nn|pt]; cbn [eval_bin_op].
    - destruct t; try apply sim_panic; destruct Hv; try apply sim_panic; destruct Hv'; try apply sim_panic.
      eapply sim_bind; [apply sim_eq|]. intros r ? _ _ <-. apply sim_ret. split; [constructor|done].
    - destruct t; try apply sim_panic; destruct Hv; try apply sim_panic; destruct Hv'; try apply sim_panic.
      eapply sim_bind; [apply sim_eq|]. intros ty ? _ _ <-. apply sim_ret. split; [repeat constructor|done].
    - unfold rel_op. eapply sim_bind; [by apply compare_values_sim|]. intros o ? _ _ <-. apply sim_ret.
      destruct rel; (split; [constructor|done]).
    - destruct Hv as [| |[p pm] [q qm] [Hp Hm]| | |]; try apply sim_panic. simpl in *.
      destruct Hm; try (destruct Hv'; apply sim_panic). destruct Hv'; try apply sim_panic.
      eapply (sim_bind thin_sim).
      { destruct inb; [by apply ptr_offset_inbounds_sim|]. apply sim_ret. by apply wrapping_offset_sim. }
      intros. apply sim_ret. split; [by apply thin_value|done].
    - destruct Hv as [| |[p pm] [q qm] [Hp Hm]| | |]; try apply sim_panic. simpl in *.
      destruct Hm; try (destruct Hv' as [| |[? ?] [? ?] ?| | |]; apply sim_panic).
      destruct Hv' as [| |[p' pm'] [q' qm'] [Hp' Hm']| | |]; try apply sim_panic. simpl in *.
      destruct Hm'; try apply sim_panic. rewrite (proj1 Hp), (proj1 Hp').
      eapply (sim_bind eq).
      { destruct inb; [|by apply sim_ret]. pose proof (sim_mem _ _ _ _ _ H).
        do 2 (eapply sim_bind; [by apply cm_signed_deref_sim|]; intros _ _ _ _ _). by apply sim_ret. }
      intros d ? _ _ <-. destruct (nn && _); [apply sim_stop|]. apply sim_ret. split; [constructor|done].
    - destruct Hv as [| |[p pm] [q qm] [Hp Hm]| | |]; try apply sim_panic. simpl in *.
      destruct Hm; try apply sim_panic.
      eapply sim_bind; [by apply meta_decode_sim|]. intros mv mw _ _ Hm.
      assert (value_sim (VPtr (mkPtr p mv)) (VPtr (mkPtr q mw))) as Hw by (by constructor).
      eapply sim_bind; [exact (check_sim m n (TPtr pt) _ _ H Hw)|]. intros. by apply sim_ret.
  Qed.

  (** ** Expressions *)

  Lemma eval_constant_sim m n c : msim m n -> sim value_sim (eval_constant T m c) (eval_constant T n c).
  Proof.
    intros H. destruct c; simpl; try (apply sim_ret; constructor).
    - eapply sim_bind; [apply sim_unwrap; intros p; apply map_get_sim; by apply sim_globals in H|].
      intros. apply sim_ret. apply thin_value. by apply wrapping_offset_sim.
    - eapply sim_bind; [apply sim_unwrap; intros p; apply map_get_sim, table_weaken; by apply sim_fnptrs in H|].
      intros. apply sim_ret. by apply thin_value.
    - eapply sim_bind; [apply sim_unwrap; intros p; apply map_get_sim, table_weaken; by apply sim_vtptrs in H|].
      intros. apply sim_ret. by apply thin_value.
    - split; [split; [done|constructor]|constructor].
  Qed.

  Lemma load_accessor_sim p q m n o s : msim m n -> thin_sim p q ->
    sim (fun x y => bytes_sim (fst x) (fst y) /\ msim (snd x) (snd y))
      (load_accessor T MO1 p m o s) (load_accessor T MO2 q n o s).
  Proof.
    intros H Hp. unfold load_accessor. eapply sim_bind; [by apply ptr_offset_inbounds_sim|]. intros p' q' _ _ Hp'.
    eapply sim_bind; [apply cm_load_sim; [by apply sim_mem in H|done]|]. intros [b c] [b' c'] _ _ [Hb Hc]. simpl in *.
    apply sim_ret. split; [done|]. by apply set_mem_sim.
  Qed.
  Lemma store_accessor_sim p q m n o b c : msim m n -> thin_sim p q -> bytes_sim b c ->
    sim msim (store_accessor T MO1 p m o b) (store_accessor T MO2 q n o c).
  Proof.
    intros H Hp Hb. unfold store_accessor. eapply sim_bind; [by apply ptr_offset_inbounds_sim|]. intros p' q' _ _ Hp'.
    eapply sim_bind; [apply cm_store_sim; [by apply sim_mem in H|done|done]|]. intros. apply sim_ret. by apply set_mem_sim.
  Qed.
  Lemma field_of_sim m n ty x y f : msim m n -> meta_sim x y ->
    sim eq (field_of T MO1 m ty x f) (field_of T MO2 n ty y f).
  Proof.
    intros H Hx. destruct ty; simpl; try apply sim_panic; [|apply sim_eq].
    destruct (_ && _); [apply sim_eq|]. destruct (_ =? _); [|apply sim_panic].
    eapply sim_bind; [apply sim_eq|]. intros t ? _ _ <-. eapply sim_bind; [apply sim_eq|]. intros l ? _ _ <-.
    eapply sim_bind; [by apply calign_sim|]. intros a ? _ _ <-. by apply sim_ret.
  Qed.

  Lemma map_st_sim {A A' B B'} (Q : A -> A' -> Prop) (R : B -> B' -> Prop) f g l l' m n :
    Forall2 Q l l' ->
    (forall a a' m n, In a l -> Q a a' -> msim m n ->
      sim (fun x y => R (fst x) (fst y) /\ msim (snd x) (snd y)) (f m a) (g n a')) ->
    msim m n ->
    sim (fun x y => Forall2 R (fst x) (fst y) /\ msim (snd x) (snd y)) (map_st f l m) (map_st g l' n).
  Proof.
    intros HQ. revert m n. induction HQ as [|a a' l l' Ha HQ IH]; intros m n Hf Hm; simpl; [apply sim_ret; split; [constructor|done]|].
    eapply sim_bind; [apply Hf; simpl; auto|]. intros [b m1] [b' n1] _ _ [Hb Hm1]. simpl in *.
    eapply sim_bind; [apply IH; [|done]; intros; apply Hf; simpl; auto|]. intros [bs m2] [bs' n2] _ _ [Hbs Hm2].
    simpl in *. apply sim_ret. split; [by constructor|done].
  Qed.
  Lemma map_st2_sim {A B B' C C'} (Q : B -> B' -> Prop) (R : C -> C' -> Prop) f g (l : list A) k k' m n :
    Forall2 Q k k' ->
    (forall a b b' m n, In a l -> Q b b' -> msim m n ->
      sim (fun x y => R (fst x) (fst y) /\ msim (snd x) (snd y)) (f m a b) (g n a b')) ->
    msim m n ->
    sim (fun x y => Forall2 R (fst x) (fst y) /\ msim (snd x) (snd y)) (map_st2 f l k m) (map_st2 g l k' n).
  Proof.
    intros HQ. revert l m n. induction HQ as [|b b' k k' Hb HQ IH]; intros l m n Hf Hm; destruct l as [|a l]; simpl;
      try (apply sim_ret; split; [constructor|done]).
    eapply sim_bind; [apply Hf; simpl; auto|]. intros [c m1] [c' n1] _ _ [Hc Hm1]. simpl in *.
    eapply sim_bind; [apply IH; [|done]; intros; apply Hf; simpl; auto|]. intros [bs m2] [bs' n2] _ _ [Hbs Hm2].
    simpl in *. apply sim_ret. split; [by constructor|done].
  Qed.

  Lemma eval_sim :
    (forall e m n, msim m n -> sim vtm_sim (eval_value T MO1 e m) (eval_value T MO2 e n)) /\
    (forall p m n, msim m n -> sim ptm_sim (eval_place T MO1 p m) (eval_place T MO2 p n)).
  Proof.
    apply Expr_ind'.
    - intros c ty m n H. cbn. eapply sim_bind; [by apply eval_constant_sim|]. intros. by apply sim_ret.
    - intros es ty IH m n H. cbn. eapply sim_bind.
      { eapply (map_st_sim eq vt_sim); [apply Forall2_same| |exact H]. intros e ? m' n' Hin <- Hm.
        rewrite Forall_forall in IH. apply (IH e); [by apply elem_of_list_In|done]. }
      intros [vs m1] [ws n1] _ _ [Hv Hm]. simpl in *. apply sim_ret. split; [split; [|done]|done]. simpl.
      constructor. apply Forall2_fmap. eapply Forall2_impl; [exact Hv|]. by intros [] [] [].
    - intros f e ty IH m n H. cbn. destruct ty; try apply sim_panic.
      eapply sim_bind; [apply sim_eq|]. intros [o ety] ? _ _ <-.
      eapply sim_bind; [by apply IH|]. intros [[v vty] m1] [[w wty] n1] _ _ [[Hv _] Hm]. simpl in *.
      eapply sim_bind; [by apply encode_sim|]. intros b c _ _ Hb.
      eapply sim_bind; [apply write_subslice_sim; [apply uninit_sim|done]|]. intros b2 c2 _ _ Hb2 r Hr.
      apply obind_ret in Hr as (x & Hx & Hr). apply obind_ret in Hr as (u & Hu & Hr).
      apply unwrap_ret in Hu as ->. destruct (decode_sim h T (TUnion fields chunks size align) _ _ Hb2 u Hx) as (u' & Hd & Hu).
      cbn [decode] in Hd. rewrite Hd. cbn. injection Hr as <-. eexists. by split.
    - intros d e ty IH m n H. cbn. eapply sim_bind; [by apply IH|].
      intros [[v vty] m1] [[w wty] n1] _ _ [[Hv _] Hm]. simpl in *. apply sim_ret. split; [split; [by constructor|done]|done].
    - intros p IH m n H. cbn. eapply sim_bind; [by apply IH|].
      intros [[pl ty] m1] [[ql ty'] n1] _ _ [[[Hp Ha] Ht] Hm]. simpl in *. subst ty'.
      destruct ty; try apply sim_panic. rewrite Ha. destruct (negb _); [apply sim_stop|].
      intros r Hr. apply obind_ret in Hr as ([[d|] m2] & Hd & Hr); [|discriminate].
      destruct (decode_discriminant_sim h T msim (load_accessor T MO1 (p_thin (pl_ptr pl))) (load_accessor T MO2 (p_thin (pl_ptr ql))) discriminator) with
        (s1 := m1) (s2 := n1) (z := d) (s1' := m2)
        as (n2 & -> & Hm2); [|done|done|].
      { intros. apply load_accessor_sim; [done|apply Hp]. }
      cbn. injection Hr as <-. eexists. split; [done|]. split; [split; [constructor|done]|done].
    - intros p IH m n H. cbn. eapply sim_bind; [by apply IH|].
      intros [[pl ty] m1] [[ql ty'] n1] _ _ [[Hp Ht] Hm]. simpl in *. subst ty'.
      eapply sim_bind; [by apply place_load_sim|]. intros [v m2] [w n2] _ _ [Hv Hm2]. by apply sim_ret.
    - intros p pt IH m n H. cbn. eapply sim_bind; [by apply IH|].
      intros [[pl ty] m1] [[ql ty'] n1] _ _ [[Hp Ht] Hm]. simpl in *. subst ty'.
      eapply sim_bind; [exact (check_sim m1 n1 (TPtr pt) _ _ Hm (vs_ptr h _ _ (proj1 Hp)))|]. intros _ _ _ _ _.
      eapply sim_bind; [apply retag_ptr_sim; [done|apply Hp]|]. intros [p' m2] [q' n2] _ _ [Hp' Hm2].
      apply sim_ret. split; [split; [by constructor|done]|done].
    - intros op e IH m n H. cbn [eval_value]. eapply sim_bind; [by apply IH|].
      intros [[v vty] m1] [[w wty] n1] _ _ [Hv Hm]. cbn [fst snd] in *.
      eapply sim_bind; [by apply eval_un_op_sim|]. intros [v2 t2] [w2 u2] _ _ Hv2. by apply sim_ret.
    - intros op l r IHl IHr m n H. cbn [eval_value]. eapply sim_bind; [by apply IHl|].
      intros [[v vty] m1] [[w wty] n1] _ _ [Hv Hm]. cbn [fst snd] in *.
      eapply sim_bind; [by apply IHr|].
      intros [[v' vty'] m1'] [[w' wty'] n1'] _ _ [Hv' Hm']. cbn [fst snd] in *.
      eapply sim_bind; [by apply eval_bin_op_sim|]. intros [v2 t2] [w2 u2] _ _ Hv2. by apply sim_ret.
    - intros x m n H. cbn. eapply sim_bind; [by apply cur_frame_sim|].
      intros f g _ _ (Hfn & Hl & _). rewrite Hfn. eapply sim_bind; [apply sim_eq|]. intros ty ? _ _ <-.
      destruct (map_get (f_locals f) x) as [p|] eqn:E; [|apply sim_stop].
      destruct (map_get_sim _ _ _ _ _ Hl E) as (q & -> & Hq). apply sim_ret.
      split; [|done]. split; [|done]. split; [|done]. split; [done|constructor].
    - intros e ty IH m n H. cbn. eapply sim_bind; [by apply IH|].
      intros [[v vty] m1] [[w wty] n1] _ _ [[Hv Ht] Hm]. simpl in *. subst wty.
      destruct Hv as [| |p q [Hp Hmt]| | |]; try apply sim_panic. destruct vty; try apply sim_panic.
      eapply (sim_bind eq).
      { destruct (safe_pointee _); [|by apply sim_ret].
        eapply sim_bind; [by apply calign_sim|]. intros a ? _ _ <-. rewrite (proj1 Hp).
        eapply sim_bind; [apply sim_eq|]. intros _ _ _ _ _.
        eapply sim_bind; [by apply csize_sim|]. intros s ? _ _ <-. apply cm_deref_sim; [|done]. by apply sim_mem in Hm. }
      intros _ _ _ _ _. eapply sim_bind; [apply sim_eq|]. intros l ? _ _ <-.
      eapply sim_bind; [by apply calign_sim|]. intros a ? _ _ <-. rewrite (proj1 Hp). apply sim_ret. done.
    - intros p f IH m n H. cbn. eapply sim_bind; [by apply IH|].
      intros [[pl ty] m1] [[ql ty'] n1] _ _ [[[[Hp Hmt] Ha] Ht] Hm]. simpl in *. subst ty'.
      eapply sim_bind; [by apply field_of_sim|]. intros [o fty] ? _ _ <-.
      eapply sim_bind; [apply sim_eq|]. intros l ? _ _ <-.
      eapply sim_bind; [by apply csize_sim|]. intros s ? _ _ <-.
      eapply sim_bind; [apply sim_eq|]. intros _ _ _ _ _.
      eapply sim_bind; [by apply ptr_offset_inbounds_sim|]. intros p' q' _ _ Hp'.
      eapply sim_bind; [apply sim_eq|]. intros fl ? _ _ <-. apply sim_ret. split; [|done]. split; [|done].
      split; [|done]. split; [done|]. simpl. destruct (is_sized fl); [constructor|done].
    - intros p e IHp IHe m n H. cbn. eapply sim_bind; [by apply IHp|].
      intros [[pl ty] m1] [[ql ty'] n1] _ _ [[[[Hp Hmt] Ha] Ht] Hm]. simpl in *. subst ty'.
      eapply sim_bind; [by apply IHe|]. intros [[v vty] m2] [[w wty] n2] _ _ [[Hv _] Hm2]. simpl in *.
      destruct Hv; try apply sim_panic.
      eapply (sim_bind eq).
      { destruct ty; destruct Hmt; try apply sim_panic; by apply sim_ret. }
      intros [elem count] ? _ _ <-. destruct (_ || _); [apply sim_stop|].
      do 3 (eapply sim_bind; [apply sim_eq|]; intros ? ? _ _ <-).
      eapply sim_bind; [by apply csize_sim|]. intros s ? _ _ <-.
      eapply sim_bind; [apply sim_eq|]. intros _ _ _ _ _.
      eapply sim_bind; [by apply ptr_offset_inbounds_sim|]. intros p' q' _ _ Hp'. apply sim_ret. split; [|done].
      split; [|done]. split; [|done]. split; [done|constructor].
    - intros p d IH m n H. cbn. eapply sim_bind; [by apply IH|].
      intros [[pl ty] m1] [[ql ty'] n1] _ _ [[Hp Ht] Hm]. simpl in *. subst ty'.
      destruct ty; try apply sim_panic. eapply sim_bind; [apply sim_eq|]. intros v ? _ _ <-. by apply sim_ret.
  Qed.
  Lemma eval_value_sim e m n : msim m n -> sim vtm_sim (eval_value T MO1 e m) (eval_value T MO2 e n).
  Proof. apply eval_sim. Qed.
  Lemma eval_place_sim p m n : msim m n -> sim ptm_sim (eval_place T MO1 p m) (eval_place T MO2 p n).
  Proof. apply eval_sim. Qed.

  (** ** Statements *)

  Lemma retag_val_sim fe ty v w m n : msim m n -> value_sim v w ->
    sim vm_sim (retag_val MO1 fe ty v m) (retag_val MO2 fe ty w n).
  Proof.
    revert v w m n.
    induction ty as [it| |pt|fields head u IHf IHu|elem count IHe|elem IHe|fields chunks size align IHf
      |variants dty discr size align IHv|tn] using Ty_ind'; intros v w m n H Hv; destruct Hv as [i|b|p q Hp|vs ws HF|d v w Hv|c d HF];
      cbn [retag_val]; try apply sim_panic; try (apply sim_ret; split; [by constructor|done]).
    - eapply sim_bind; [by apply retag_ptr_sim|]. intros [p' m'] [q' n'] _ _ [Hp' Hm']. apply sim_ret. split; [by constructor|done].
    - eapply sim_bind.
      { eapply (map_st2_sim value_sim value_sim); [exact HF| |exact H]. intros f v w m' n' Hin Hv Hm.
        rewrite Forall_forall in IHf. by apply (IHf f (proj2 (elem_of_list_In _ _) Hin)). }
      intros [xs m'] [ys n'] _ _ [Hx Hm']. apply sim_ret. split; [by constructor|done].
    - eapply sim_bind.
      { eapply (map_st_sim value_sim value_sim); [exact HF| |exact H]. intros v w m' n' Hin Hv Hm. by apply IHe. }
      intros [xs m'] [ys n'] _ _ [Hx Hm']. apply sim_ret. split; [by constructor|done].
    - destruct (map_get_with _ d variants) as [r|] eqn:Er; [|apply sim_panic].
      apply map_get_with_some in Er as ([t tg] & Hin & -> & Hg). rewrite Hg. simpl.
      rewrite Forall_forall in IHv. eapply sim_bind; [by apply (IHv _ (proj2 (elem_of_list_In _ _) Hin))|].
      intros [x m'] [y n'] _ _ [Hx Hm']. apply sim_ret. split; [by constructor|done].
  Qed.

  Definition fm_sim (x : StackFrame P1 F1 * ConcMem M1) (y : StackFrame P2 F2 * ConcMem M2) : Prop :=
    frame_sim (fst x) (fst y) /\ csim (snd x) (snd y).

  Lemma storage_dead_sim f g c d l : frame_sim f g -> csim c d ->
    sim fm_sim (storage_dead T MO1 f c l) (storage_dead T MO2 g d l).
  Proof.
    intros Hf Hc. pose proof Hf as (Hfn & Hl & Hact & Hb & Hs). unfold storage_dead. rewrite Hfn.
    do 3 (eapply sim_bind; [apply sim_eq|]; intros ? ? _ _ <-).
    destruct (map_get (f_locals f) l) as [p|] eqn:E.
    - destruct (map_get_sim _ _ _ _ _ Hl E) as (q & -> & Hq).
      eapply sim_bind; [by apply cm_deallocate_sim|]. intros c' d' _ _ Hc'. apply sim_ret. split; [|done].
      repeat split; try done. simpl. by apply map_remove_sim.
    - rewrite (map_get_none_sim _ _ _ _ Hl E). by apply sim_ret.
  Qed.

  Lemma pick_addr_sim cs :
    sim (fun x y => fst x = fst y /\ snd y = chs (snd x)) (pick_addr cs) (pick_addr (chs cs)).
  Proof. destruct cs as [|[] cs]; simpl; try apply sim_nobeh. by apply sim_ret. Qed.
  Lemma pick_thread_sim ok ok' cs : (forall i, ok i = ok' i) ->
    sim (fun x y => fst x = fst y /\ snd y = chs (snd x)) (pick_thread ok cs) (pick_thread ok' (chs cs)).
  Proof.
    intros He. destruct cs as [|[] cs]; simpl; try apply sim_nobeh. rewrite He. destruct (ok' t); [|apply sim_nobeh].
    by apply sim_ret.
  Qed.
  Lemma pick_prov_sim cs :
    sim (fun x y => fst y = option_map h (fst x) /\ snd y = chs (snd x)) (pick_prov cs) (pick_prov (chs cs)).
  Proof. destruct cs as [|[] cs]; simpl; try apply sim_nobeh. by apply sim_ret. Qed.

  Lemma thin_root (p : ThinPtr P1) (q : ThinPtr P2) x : tp_addr p = tp_addr q -> tp_prov p = Some x -> tp_prov q = Some (h x) -> thin_sim p q.
  Proof. intros Ha Hp Hq. split; [done|]. rewrite Hp, Hq. constructor. Qed.

  Lemma storage_live_sim f g c d l cs : frame_sim f g -> csim c d ->
    sim (fun x y => fm_sim (fst x) (fst y) /\ snd y = chs (snd x))
      (storage_live T MO1 f c l cs) (storage_live T MO2 g d l (chs cs)).
  Proof.
    intros Hf Hc. unfold storage_live. eapply sim_bind; [by apply storage_dead_sim|].
    intros [f1 c1] [g1 d1] _ _ [Hf1 Hc1]. simpl in *. pose proof Hf1 as (Hfn & Hl & Hact & Hb & Hs). rewrite Hfn.
    do 3 (eapply sim_bind; [apply sim_eq|]; intros ? ? _ _ <-).
    eapply sim_bind; [apply pick_addr_sim|]. intros [ad cs1] [ad' cs2] _ _ [Ha Hcs]. simpl in Ha, Hcs. subst ad' cs2.
    eapply sim_bind; [by apply cm_allocate_sim|]. intros [p c2] [q d2] _ _ (Hc2 & Hpa & x & _ & Hx & Hy). simpl in *.
    apply sim_ret. split; [|done]. split; [|done]. repeat split; try done. simpl. apply map_insert_sim; [done|].
    by eapply thin_root.
  Qed.

  Lemma eval_statement_sim s m n cs : msim m n ->
    sim mc_sim (eval_statement T MO1 s m cs) (eval_statement T MO2 s n (chs cs)).
  Proof.
    intros H. destruct s as [dst e|p|dst v|p fe|p|l|l]; cbn [eval_statement].
    - eapply sim_bind; [by apply eval_place_sim|]. intros [[pl ty] m1] [[ql ty'] n1] _ _ [[Hp Ht] Hm]. simpl in *. subst ty'.
      eapply sim_bind; [by apply eval_value_sim|]. intros [[v vty] m2] [[w wty] n2] _ _ [[Hv _] Hm2]. simpl in *.
      eapply sim_bind; [by apply place_store_sim|]. intros. by apply sim_ret.
    - eapply sim_bind; [by apply eval_place_sim|]. intros [[pl ty] m1] [[ql ty'] n1] _ _ [[Hp Ht] Hm]. by apply sim_ret.
    - eapply sim_bind; [by apply eval_place_sim|]. intros [[pl ty] m1] [[ql ty'] n1] _ _ [[[Hp Ha] Ht] Hm]. simpl in *. subst ty'.
      destruct ty; try apply sim_panic. rewrite Ha. destruct (negb _); [apply sim_stop|].
      eapply sim_bind; [apply sim_eq|]. intros var ? _ _ <-.
      eapply sim_bind; [apply (encode_discriminant_sim h T msim); [|exact Hm]|intros; by apply sim_ret].
      intros. apply store_accessor_sim; [done|apply Hp|done].
    - eapply sim_bind; [by apply eval_place_sim|]. intros [[pl ty] m1] [[ql ty'] n1] _ _ [[Hp Ht] Hm]. simpl in *. subst ty'.
      eapply sim_bind; [by apply place_load_sim|]. intros [v m2] [w n2] _ _ [Hv Hm2]. simpl in *.
      eapply sim_bind; [by apply retag_val_sim|]. intros [v3 m3] [w3 n3] _ _ [Hv3 Hm3]. simpl in *.
      eapply sim_bind; [by apply place_store_sim|]. intros. by apply sim_ret.
    - eapply sim_bind; [by apply eval_place_sim|]. intros [[pl ty] m1] [[ql ty'] n1] _ _ [[[Hp Ha] Ht] Hm]. simpl in *. subst ty'.
      rewrite Ha. destruct (negb _); [apply sim_stop|]. eapply sim_bind; [apply sim_eq|]. intros s ? _ _ <-.
      eapply sim_bind; [apply deinit_sim; [done|apply Hp]|]. intros. by apply sim_ret.
    - eapply sim_bind; [by apply cur_frame_sim|]. intros f g _ _ Hf.
      eapply sim_bind; [apply storage_live_sim; [done|by apply sim_mem in H]|].
      intros [[f1 c1] cs1] [[g1 d1] cs2] _ _ [[Hf1 Hc1] Hcs]. cbn [fst snd] in *. subst cs2.
      eapply sim_bind; [apply set_cur_frame_sim; [by apply set_mem_sim|done]|]. intros. by apply sim_ret.
    - eapply sim_bind; [by apply cur_frame_sim|]. intros f g _ _ Hf.
      eapply sim_bind; [apply storage_dead_sim; [done|by apply sim_mem in H]|].
      intros [f1 c1] [g1 d1] _ _ [Hf1 Hc1]. simpl in *.
      eapply sim_bind; [apply set_cur_frame_sim; [by apply set_mem_sim|done]|]. intros. by apply sim_ret.
  Qed.
End Step.
