(** Changes of memory and of the stacks that keep the safety invariant: allocation, deallocation, frames. *)
From Verif Require Export StepSpec SafeEval UnwindProofs AbiProofs.
From stdpp Require Import relations.
From Coq Require Import ZifyBool ZifyN ZifyNat.
Local Open Scope Z_scope.

(** the ABI check of well-formed types decides, and accepts only types of the same layout *)
Section Abi.
  Variable T : Target.
  Variable ht : TraitName -> bool.
  Notation wfT ty := (ty_check_wf T ht ty = Ret tt).

  Lemma all2_total {A B} (f : A -> B -> Outcome bool) l1 l2 :
    (forall x y, In x l1 -> In y l2 -> exists r, f x y = Ret r) -> exists r, all2_m f l1 l2 = Ret r.
  Proof.
    revert l2. induction l1 as [|x l1 IH]; intros [|y l2] H; cbn; eauto.
    destruct (H x y) as [[|] ->]; [by left|by left| |by eexists]. cbn. apply IH. intros a b Ha Hb. apply H; by right.
  Qed.
  Lemma all_total {A} (f : A -> Outcome bool) l : (forall x, In x l -> exists r, f x = Ret r) -> exists r, all_m f l = Ret r.
  Proof.
    induction l as [|x l IH]; intros H; cbn; eauto.
    destruct (H x) as [[|] ->]; [by left| |by eexists]. cbn. apply IH. intros a Ha. apply H; by right.
  Qed.
  Lemma abi_check a b : wfT a -> sized T a -> wfT b -> sized T b ->
    exists r, check_abi_compatibility a b = Ret r /\ (r = true -> layout T a = layout T b).
  Proof.
    revert b. induction a as [it| |pt|fields head u IHf IHu|elem count IHe|elem IHe|fields chunks size align IHf
      |variants dty discr size align IHv|tn] using Ty_ind'; intros b Wa Sa Wb Sb; destruct b as [it'| |pt'|fields' head' u'|elem' count'|elem'|fields' chunks' size' align'
      |variants' dty' discr' size' align'|tn']; cbn [check_abi_compatibility]; try (by eexists; split; [reflexivity|]).
    - eexists. split; [done|]. intros H%bool_decide_eq_true. by subst.
    - eexists. split; [done|]. intros H%bool_decide_eq_true. cbn [layout]. by rewrite H.
    - assert (u = None) as -> by (destruct u; [|done]; destruct Sa as (s & a & Hl); cbn in Hl; apply obind_ret in Hl as (? & _ & [=])).
      assert (u' = None) as -> by (destruct u'; [|done]; destruct Sb as (s & a & Hl); cbn in Hl; apply obind_ret in Hl as (? & _ & [=])).
      cbn [assert_ obind]. destruct (head_size_and_align head) as [s1 a1] eqn:E1. destruct (head_size_and_align head') as [s2 a2] eqn:E2.
      destruct (negb _); [by eexists|].
      pose proof (wf_tuple T ht _ _ _ Wa) as (Fa & _). pose proof (wf_tuple T ht _ _ _ Wb) as (Fb & _). rewrite List.Forall_forall in Fa, Fb, IHf.
      destruct (all2_total (fun c1 c2 => if (fst c1 =? fst c2)%N then check_abi_compatibility (snd c1) (snd c2) else Ret false) fields fields') as [r Hr].
      { intros x y Hx Hy. destruct (_ =? _)%N; [|by eexists]. destruct (Fa _ Hx) as (? & ? & _). destruct (Fb _ Hy) as (? & ? & _).
        destruct (IHf _ Hx (snd y)) as (r & Hr & _); eauto. }
      rewrite Hr. cbn [obind]. eexists. split; [done|]. intros H. rewrite !andb_true_iff in H. destruct H as ((_ & Hs) & Ha).
      apply bool_decide_eq_true in Ha. cbn [layout]. rewrite E1, E2. f_equal. f_equal; [lia|done].
    - pose proof (wf_array T ht _ _ Wa) as (_ & W1 & S1 & _). pose proof (wf_array T ht _ _ Wb) as (_ & W2 & S2 & _).
      destruct (IHe elem') as (r & -> & Hr); [done..|]. cbn. eexists. split; [done|]. intros [H1 H2]%andb_true_iff.
      cbn [layout]. rewrite (Hr H1). by replace count' with count by lia.
    - destruct (negb _); [by eexists|].
      pose proof (wf_union T ht _ _ _ _ Wa) as (Fa & _). pose proof (wf_union T ht _ _ _ _ Wb) as (Fb & _). rewrite List.Forall_forall in Fa, Fb, IHf.
      destruct (all2_total (fun c1 c2 => if (fst c1 =? fst c2)%N then check_abi_compatibility (snd c1) (snd c2) else Ret false) fields fields') as [r Hr].
      { intros x y Hx Hy. destruct (_ =? _)%N; [|by eexists]. destruct (Fa _ Hx) as (? & ? & _). destruct (Fb _ Hy) as (? & ? & _).
        destruct (IHf _ Hx (snd y)) as (r & Hr & _); eauto. }
      rewrite Hr. cbn [obind]. eexists. split; [done|]. intros H. rewrite !andb_true_iff in H. destruct H as ((_ & Hs) & Ha).
      apply bool_decide_eq_true in Ha. cbn. f_equal. f_equal; [lia|done].
    - destruct (negb _); [by eexists|].
      pose proof (wf_enum T ht _ _ _ _ _ Wa) as (Fa & _). pose proof (wf_enum T ht _ _ _ _ _ Wb) as (Fb & _). rewrite List.Forall_forall in Fa, Fb, IHv.
      match goal with |- context [all_m ?f ?l] => destruct (all_total f l) as [r Hr] end.
      { intros x Hx. destruct (map_get _ _) as [y|] eqn:Ey; [|by eexists]. apply map_get_in in Ey.
        destruct (Fa _ Hx) as (_ & ? & ? & _). destruct (Fb _ Ey) as (_ & ? & ? & _).
        destruct (IHv _ Hx (fst y)) as (r & -> & _); [done..|]. by eexists. }
      rewrite Hr. cbn [obind]. eexists. split; [done|]. intros H. rewrite !andb_true_iff in H. destruct H as ((_ & Hs) & Ha).
      apply bool_decide_eq_true in Ha. cbn. f_equal. f_equal; [lia|done].
  Qed.
End Abi.

Section SafeFrame.
  Context {PE AE F : Type} `{EqDecision (nat * PE)}.
  Variable T : Target.
  Variable MO : MemOps (nat * PE) F (BMem PE AE).
  Variable SM : safe_mem T MO.
  Hypothesis Tok : target_ok T.
  Hypothesis Std : target_std T.
  Variable prog : Program.
  Notation P := (nat * PE)%type.
  Notation M := (BMem PE AE).
  Notation Mach := (Machine P F M).
  Notation BL := (sm_like SM).
  Notation sinv := (sinv T MO SM prog).
  Notation ext := (ext T MO SM prog).
  Notation vok := (vok T MO SM).
  Notation prov_ok := (prov_ok T MO SM).
  Notation good_ptr := (good_ptr T MO SM).
  Notation wfT ty := (ty_check_wf T any_trait ty = Ret tt).
  Notation good := (good T MO SM).

  (** ** Memory *)

  (** the part of the invariant about memory *)
  Definition memok (mem : M) (L : list F) : Prop :=
    sm_inv SM mem L /\ bytes_ok (sm_prov SM mem) mem /\ vfit T (mv mem).
  Definition pmono (mem mem' : M) : Prop := forall pr, sm_prov SM mem pr -> sm_prov SM mem' pr.
  Definition pok (mem : M) (p : ThinPtr P) : Prop := thin_in (sm_prov SM mem) p /\ address_ok T (tp_addr p).
  Lemma pok_mono mem mem' p : pmono mem mem' -> pok mem p -> pok mem' p.
  Proof. intros Hp [H1 H2]. split; [|done]. eapply thin_in_mono; [exact Hp|done]. Qed.
  Lemma pmono_trans m1 m2 m3 : pmono m1 m2 -> pmono m2 m3 -> pmono m1 m3.
  Proof. intros H1 H2 pr Hpr. auto. Qed.

  Lemma vacant_addr v s al ad : vacant T v s al ad -> address_ok T ad.
  Proof. intros (H1 & _ & H2 & _). split; [lia|]. pose proof (N2Z.is_nonneg s). lia. Qed.

  Lemma alloc_ok mem L k s al ad : memok mem L ->
    wp False (mo_allocate MO mem k s al ad) (fun r => let '(p, mem') := r in
      memok mem' L /\ pmono mem mem' /\ pok mem' p /\ mv mem' = mv mem ++ [mkAV (tp_addr p) s al k true] /\
      (exists pe, tp_prov p = Some (length mem, pe) /\ sm_root SM mem' (length mem) pe) /\
      forall id pe, sm_root SM mem id pe -> sm_root SM mem' id pe).
  Proof.
    intros (H1 & H2 & H3). apply wp_safe.
    - destruct (bl_alloc _ _ BL mem k s al) as (pe & ae & E). rewrite E. unfold bm_allocate. destruct (negb _); [done|]. by destruct (negb _).
    - intros [p mem'] E. destruct (sm_alloc _ _ SM _ _ _ _ _ _ _ _ H1 E) as (I & Hp & Hin & Hr1 & Hr2).
      destruct (alloc_mv T MO BL Tok _ _ _ _ _ _ _ E) as (Hv & Hva & pe & ->). unfold memok. split_and!; try done.
      + eapply (alloc_bytes T MO BL); [exact E|]. eapply bytes_ok_mono; [exact Hp|done].
      + rewrite Hv. by apply vfit_app.
      + split; [done|]. by eapply vacant_addr.
      + exists pe. assert (El : length (mv mem) = length mem) by apply map_length. rewrite El. split; [done|]. apply Hr1. by rewrite El.
  Qed.
  Lemma dealloc_ok mem L p k s al : memok mem L -> thin_in (sm_prov SM mem) p ->
    wp False (mo_deallocate MO mem p k s al) (fun mem' => memok mem' L /\ pmono mem mem').
  Proof.
    intros (H1 & H2 & H3) Hp. eapply wp_mono; [apply wp_eq, (sm_dealloc _ _ SM _ _ _ _ _ _ H1 Hp)|].
    intros mem' [[I Hm] E]. split; [|done]. split_and!; [done| |].
    - eapply (dealloc_bytes T MO BL); [exact E|]. eapply bytes_ok_mono; [exact Hm|done].
    - destruct (dealloc_mv T MO BL _ _ _ _ _ _ E) as (id & pe & _ & Hl & ->). by eapply vfit_dead.
  Qed.
  Lemma store_ok mem L p b al : memok mem L -> thin_in (sm_prov SM mem) p -> Forall (byte_in (sm_prov SM mem)) b ->
    wp False (mo_store MO mem p b al) (fun mem' => memok mem' L /\ pmono mem mem').
  Proof.
    intros (H1 & H2 & H3) Hp Hb. eapply wp_mono; [apply wp_eq, (sm_store _ _ SM _ _ _ _ _ H1 Hp)|].
    intros mem' [[I Hm] E]. split; [|done]. split_and!; [done| |].
    - eapply (store_bytes T MO BL); [exact E|eapply bytes_ok_mono; [exact Hm|done]|]. eapply bytes_in_mono; [exact Hm|done].
    - by rewrite (store_mv T MO BL _ _ _ _ _ E).
  Qed.
  Lemma end_ok mem f L : memok mem (f :: L) -> wp False (mo_end_call MO mem f) (fun mem' => memok mem' L /\ pmono mem mem').
  Proof.
    intros (H1 & H2 & H3). eapply wp_mono; [apply wp_eq, (sm_end _ _ SM _ _ _ H1)|].
    intros mem' [[I Hm] E]. apply (bl_end _ _ BL) in E. split; [|done]. split_and!; [done| |].
    - eapply extra_bytes; [exact E|]. eapply bytes_ok_mono; [exact Hm|done].
    - by rewrite (extra_mv _ _ E).
  Qed.
  Lemma memok_perm mem L L' : L ≡ₚ L' -> memok mem L -> memok mem L'.
  Proof. intros HL (H1 & H2 & H3). split_and!; [by eapply sm_perm|done|done]. Qed.
  Lemma sinv_memok m : sinv m -> memok (memof m) (extras m).
  Proof. intros Hm. split_and!; apply Hm. Qed.

  (** ** States *)

  Lemma sinv_upd (m m' : Mach) : sinv m -> statics (ctl m') = statics (ctl m) -> memok (memof m') (extras m') ->
    pmono (memof m) (memof m') -> (forall p, has_ptr (ctl m') p -> has_ptr (ctl m) p \/ pok (memof m') p) ->
    (forall pr, pr ∈ m_exposed m' -> pr ∈ m_exposed m \/ sm_prov SM (memof m') pr) -> sinv m'.
  Proof.
    intros Hm Hst (I1 & I2 & I3) Hpm Hps He. unfold statics in Hst. injection Hst as Hp Hg Hf Hv.
    change (m_prog m' = m_prog m) in Hp. change (m_globals m' = m_globals m) in Hg. change (m_fnptrs m' = m_fnptrs m) in Hf.
    change (m_vtptrs m' = m_vtptrs m) in Hv. split; try done.
    - rewrite Hp. apply Hm.
    - apply Hm.
    - destruct (si_names _ _ _ _ _ Hm) as [N1 N2 N3 N4 N5].
      split; cbn [ctl c_globals c_fnptrs c_vtptrs] in *; rewrite ?Hg, ?Hf, ?Hv; done.
    - intros p [Hh|Hh]%Hps; [|done]. eapply pok_mono; [exact Hpm|]. by apply (si_ptrs _ _ _ _ _ Hm).
    - apply Forall_forall. intros pr [Hpr|Hpr]%He; [|done]. apply Hpm. pose proof (si_exposed _ _ _ _ _ Hm) as HF.
      rewrite Forall_forall in HF. by apply HF.
  Qed.

  (** pointers of a thread *)
  Definition fptr (f : FrameCtl P) (p : ThinPtr P) : Prop :=
    (exists n, In (n, p) (fc_locals f)) \/ exists nb ub, fc_action f = BackToCaller nb ub p.
  Definition tptr (t : ThreadCtl P) (p : ThinPtr P) : Prop :=
    (exists f, In f (tc_stack t) /\ fptr f p) \/ In p (tc_payloads t).
  Definition static_ptr (c : Ctl P) (p : ThinPtr P) : Prop :=
    (exists n, In (n, p) (c_globals c)) \/ (exists n, In (n, p) (c_fnptrs c)) \/ (exists n, In (n, p) (c_vtptrs c)).
  Lemma has_ptr_iff (c : Ctl P) p : has_ptr c p <-> (exists t, In t (c_threads c) /\ tptr t p) \/ static_ptr c p.
  Proof.
    split.
    - intros [i t k f n Hi Hk Hl|i t k f nb ub Hi Hk Ha|i t Hi Hl|n Hl|n Hl|n Hl].
      + left. exists t. split; [eapply elem_of_list_In, elem_of_list_lookup_2, Hi|]. left. exists f.
        split; [eapply elem_of_list_In, elem_of_list_lookup_2, Hk|]. left. eauto.
      + left. exists t. split; [eapply elem_of_list_In, elem_of_list_lookup_2, Hi|]. left. exists f.
        split; [eapply elem_of_list_In, elem_of_list_lookup_2, Hk|]. right. eauto.
      + left. exists t. split; [eapply elem_of_list_In, elem_of_list_lookup_2, Hi|]. by right.
      + right. left. eauto.
      + right. right. left. eauto.
      + right. right. right. eauto.
    - intros [(t & Ht & Hp)|[[n Hn]|[[n Hn]|[n Hn]]]].
      + apply elem_of_list_In, elem_of_list_lookup in Ht as [i Hi]. destruct Hp as [(f & Hf & Hp)|Hp]; [|by eapply hp_payload].
        apply elem_of_list_In, elem_of_list_lookup in Hf as [k Hk].
        destruct Hp as [[n Hn]|(nb & ub & Ha)]; [by eapply hp_local|by eapply hp_action].
      + by eapply hp_global.
      + by eapply hp_fn.
      + by eapply hp_vt.
  Qed.
  (** new threads only have old or good pointers *)
  Lemma threads_ptrs (c c' : Ctl P) (Q : ThinPtr P -> Prop) : statics c' = statics c ->
    (forall t' p, In t' (c_threads c') -> tptr t' p -> (exists t, In t (c_threads c) /\ tptr t p) \/ Q p) ->
    forall p, has_ptr c' p -> has_ptr c p \/ Q p.
  Proof.
    intros Hs Ht p Hp. unfold statics in Hs. injection Hs as _ Hg Hf Hv. apply has_ptr_iff in Hp as [(t & Hin & Hp)|Hp].
    - destruct (Ht _ _ Hin Hp) as [?|?]; [left; apply has_ptr_iff; by left|by right].
    - left. apply has_ptr_iff. right. unfold static_ptr in *. by rewrite <- Hg, <- Hf, <- Hv.
  Qed.

  (** replaces the memory and the active thread *)
  Lemma put_safe (m : Mach) t t' mem : sinv m -> m_threads m !! m_active m = Some t ->
    memok (cm_mem mem) (extras (set_active_thread (set_mem m mem) t')) -> pmono (memof m) (cm_mem mem) ->
    (forall p, tptr (tctl t') p -> tptr (tctl t) p \/ pok (cm_mem mem) p) ->
    sinv (set_active_thread (set_mem m mem) t').
  Proof.
    intros Hm Ht Hok Hpm Hp. eapply sinv_upd; [exact Hm|done|exact Hok|exact Hpm| |].
    - apply threads_ptrs; [done|]. intros t1 p Hin Hp1. cbn in Hin.
      change (List.map tctl (<[m_active m := t']> (m_threads m))) with (tctl <$> (<[m_active m := t']> (m_threads m))) in Hin.
      apply elem_of_list_In, elem_of_list_fmap in Hin as (t2 & -> & Hin). apply elem_of_list_lookup in Hin as [i Hi].
      apply list_lookup_insert_Some in Hi as [(<- & -> & _)|[_ Hi]].
      + destruct (Hp _ Hp1) as [?|?]; [left|by right]. exists (tctl t). split; [|done]. apply in_map, elem_of_list_In. by eapply elem_of_list_lookup_2.
      + left. exists (tctl t2). split; [|done]. apply in_map, elem_of_list_In. by eapply elem_of_list_lookup_2.
    - intros pr Hpr. by left.
  Qed.
  (** replaces the memory and the top frame *)
  Lemma put_frame_safe (m : Mach) t f r f' mem : sinv m -> m_threads m !! m_active m = Some t -> t_stack t = f :: r ->
    memok (cm_mem mem) (extras m) -> pmono (memof m) (cm_mem mem) -> f_extra f' = f_extra f -> f_action f' = f_action f ->
    (forall n p, In (n, p) (f_locals f') -> In (n, p) (f_locals f) \/ pok (cm_mem mem) p) ->
    sinv (set_active_thread (set_mem m mem) (with_stack t (f' :: r))).
  Proof.
    intros Hm Ht Hs Hok Hpm Hx Ha Hl. eapply put_safe; [exact Hm|exact Ht| |exact Hpm|].
    - destruct (extras_frame m t f r Ht Hs) as (rest & E1 & E2). eapply memok_perm; [|exact Hok]. rewrite E1, E2. by rewrite Hx.
    - intros p [(g & Hin & Hp)|Hp]; [|left; by right]. cbn in Hin. destruct Hin as [<-|Hin].
      + destruct Hp as [[n Hn]|(nb & ub & E)].
        * destruct (Hl n p Hn) as [Hn'|?]; [left|by right]. left. exists (fctl f). split; [cbn; rewrite Hs; by left|]. left. by exists n.
        * left. left. exists (fctl f). split; [cbn; rewrite Hs; by left|]. right. exists nb, ub. cbn in *. by rewrite <- Ha.
      + left. left. exists g. split; [cbn; rewrite Hs; by right|done].
  Qed.

  Lemma cur_frame_inv (m : Mach) f : cur_frame m = Ret f -> exists t r, m_threads m !! m_active m = Some t /\ t_stack t = f :: r.
  Proof.
    intros Hf. unfold cur_frame, active_thread in Hf. apply obind_ret in Hf as (t & Ht & Hf). apply unwrap_ret in Ht, Hf.
    destruct (t_stack t) as [|f0 r] eqn:Es; [done|]. injection Hf as ->. eauto.
  Qed.
  Lemma cur_frame_eq (m : Mach) t f r : m_threads m !! m_active m = Some t -> t_stack t = f :: r -> cur_frame m = Ret f.
  Proof. intros Ht Hs. unfold cur_frame, active_thread. rewrite Ht. cbn. by rewrite Hs. Qed.
  Lemma set_cur_frame_eq (m : Mach) t f f' r : m_threads m !! m_active m = Some t -> t_stack t = f :: r ->
    set_cur_frame m f' = Ret (set_active_thread m (with_stack t (f' :: r))).
  Proof. intros Ht Hs. unfold set_cur_frame, active_thread. rewrite Ht. cbn. by rewrite Hs. Qed.

  Lemma set_mem_self (m : Mach) : set_mem m (m_mem m) = m.
  Proof. by destruct m. Qed.
  Lemma pc_safe (m : Mach) f b s : sinv m -> cur_frame m = Ret f -> wp False (set_cur_frame m (with_pc f b s)) sinv.
  Proof.
    intros Hm Hf. destruct (cur_frame_inv _ _ Hf) as (t & r & Ht & Hs). rewrite (set_cur_frame_eq _ _ _ _ _ Ht Hs). cbn [wp].
    rewrite <- (set_mem_self m) at 1. eapply put_frame_safe; [done|done|exact Hs|by apply sinv_memok|by intros ?|done|done|]. intros n p Hn. by left.
  Qed.
  Lemma jump_safe (m : Mach) f b : sinv m -> cur_frame m = Ret f -> wp False (jump_to_block m b) sinv.
  Proof. intros Hm Hf. unfold jump_to_block. rewrite Hf. cbn [obind]. by apply pc_safe. Qed.
End SafeFrame.
