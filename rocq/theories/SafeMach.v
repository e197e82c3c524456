(** The invariant of machine states that keeps memory accesses from crashing, and that loads, stores and
    retags preserve it. *)
From Verif Require Export SafeSpec SafeMem OwnReach AccessProofs.
From stdpp Require Import relations.
From Coq Require Import ZifyBool ZifyN ZifyNat.
Local Open Scope Z_scope.

Lemma wp_given {A} (E : Prop) (o : Outcome A) (Q R : A -> Prop) : post o R -> wp E o (fun a => R a -> Q a) -> wp E o Q.
Proof. destruct o; cbn; auto. Qed.

(** ** The contents of memory *)

Section Bytes.
  Context {PE AE F : Type}.
  Variable T : Target.
  Variable MO : MemOps (nat * PE) F (BMem PE AE).
  Hypothesis BL : bm_like T MO.
  Notation P := (nat * PE)%type.
  Variable Q : P -> Prop.

  Definition bytes_ok (mem : BMem PE AE) : Prop :=
    forall id a, mem !! id = Some a -> Forall (byte_in Q) (al_data a).

  Lemma bytes_insert mem id a : bytes_ok mem -> Forall (byte_in Q) (al_data a) -> bytes_ok (<[id := a]> mem).
  Proof.
    intros Hm Ha i b [(-> & -> & _)|[_ Hb]]%list_lookup_insert_Some; [done|by eapply Hm].
  Qed.
  Lemma store_bytes mem p b al mem' :
    mo_store MO mem p b al = Ret mem' -> bytes_ok mem -> Forall (byte_in Q) b -> bytes_ok mem'.
  Proof.
    intros H Hm Hb. destruct (bl_store _ _ BL mem p b al) as [h E]. rewrite E in H.
    apply bm_store_ret in H as (_ & [(_ & ->)|(_ & id & pe & off & a & ae & data & _ & Ha & _ & _ & _ & _ & Hw & ->)]); [done|].
    apply bytes_insert; [done|]. cbn. eapply write_subslice_in; [exact Hw|by eapply Hm|done].
  Qed.
  Lemma load_bytes mem p n al b mem' :
    mo_load MO mem p n al = Ret (b, mem') -> bytes_ok mem ->
    bytes_ok mem' /\ Forall (byte_in Q) b /\ N.of_nat (length b) = n.
  Proof.
    intros H Hm. destruct (bl_load _ _ BL mem p n al) as [h E]. rewrite E in H.
    apply bm_load_ret in H as (_ & [(-> & -> & ->)|(_ & id & pe & off & a & ae & _ & Ha & _ & _ & _ & _ & Hs & ->)]); [by split_and!; [|apply Forall_nil|]|].
    split_and!; [apply bytes_insert; [done|exact (Hm _ _ Ha)]|eapply subslice_in; [exact Hs|by eapply Hm]|].
    by apply subslice_length in Hs.
  Qed.
  Lemma extra_bytes mem mem' : extra_change mem mem' -> bytes_ok mem -> bytes_ok mem'.
  Proof.
    induction 1 as [m|m m1 id a ae Hc IH Ha]; intros Hm; [done|]. apply bytes_insert; [by apply IH|]. exact (IH Hm _ _ Ha).
  Qed.
  Lemma alloc_bytes mem k s al ad p mem' :
    mo_allocate MO mem k s al ad = Ret (p, mem') -> bytes_ok mem -> bytes_ok mem'.
  Proof.
    intros H Hm. destruct (bl_alloc _ _ BL mem k s al) as (pe & ae & E). rewrite E in H.
    apply bm_allocate_ret in H as (_ & _ & _ & ->). intros id a [Ha|[_ Ha]]%lookup_app_Some; [by eapply Hm|].
    destruct (id - length mem)%nat; [|done]. injection Ha as <-. cbn. apply uninit_in.
  Qed.
  Lemma dealloc_bytes mem p k s al mem' :
    mo_deallocate MO mem p k s al = Ret mem' -> bytes_ok mem -> bytes_ok mem'.
  Proof.
    intros H Hm. destruct (bl_dealloc _ _ BL mem p k s al) as [h E]. rewrite E in H.
    apply bm_deallocate_ret in H as (id & pe & a & ae & _ & Ha & _ & _ & _ & _ & _ & _ & ->).
    apply bytes_insert; [done|]. exact (Hm _ _ Ha).
  Qed.
End Bytes.
Lemma bytes_ok_mono {PE AE} (Q R : nat * PE -> Prop) (mem : BMem PE AE) :
  (forall x, Q x -> R x) -> bytes_ok Q mem -> bytes_ok R mem.
Proof. intros H Hm id a Ha. eapply bytes_in_mono; [exact H|by eapply Hm]. Qed.

(** ** Pointers in the machine state *)

Inductive has_ptr {P} (c : Ctl P) (p : ThinPtr P) : Prop :=
| hp_local i t k f n : c_threads c !! i = Some t -> tc_stack t !! k = Some f -> In (n, p) (fc_locals f) -> has_ptr c p
| hp_action i t k f nb ub : c_threads c !! i = Some t -> tc_stack t !! k = Some f ->
    fc_action f = BackToCaller nb ub p -> has_ptr c p
| hp_payload i t : c_threads c !! i = Some t -> In p (tc_payloads t) -> has_ptr c p
| hp_global n : In (n, p) (c_globals c) -> has_ptr c p
| hp_fn n : In (n, p) (c_fnptrs c) -> has_ptr c p
| hp_vt n : In (n, p) (c_vtptrs c) -> has_ptr c p.

(** the named objects of the program have pointers, and vtable pointers resolve *)
Record names_ok {P} `{EqDecision P} (prog : Program) (c : Ctl P) : Prop := {
  nk_global : forall n g, map_get (pr_globals prog) n = Some g -> exists p, map_get (c_globals c) n = Some p;
  nk_fn : forall n f, map_get (pr_functions prog) n = Some f -> exists p, map_get (c_fnptrs c) n = Some p;
  nk_vt : forall n vt, map_get (pr_vtables prog) n = Some vt -> exists p, map_get (c_vtptrs c) n = Some p /\
    List.find (fun kv => bool_decide (snd kv = p)) (c_vtptrs c) = Some (n, p);
  nk_fn_back : forall n p, In (n, p) (c_fnptrs c) -> exists f, map_get (pr_functions prog) n = Some f;
  nk_vt_back : forall n p, In (n, p) (c_vtptrs c) -> exists vt, map_get (pr_vtables prog) n = Some vt;
}.

Section SafeMach.
  Context {PE AE F : Type} `{EqDecision (nat * PE)}.
  Variable T : Target.
  Variable MO : MemOps (nat * PE) F (BMem PE AE).
  Variable SM : safe_mem T MO.
  Hypothesis Tok : target_ok T.
  Variable prog : Program.
  Notation P := (nat * PE)%type.
  Notation M := (BMem PE AE).
  Notation Mach := (Machine P F M).
  Notation BL := (sm_like SM).

  Definition memof (m : Mach) : M := cm_mem (m_mem m).
  Definition prov_ok (m : Mach) : P -> Prop := sm_prov SM (memof m).
  Definition good_ptr (m : Mach) (p : ThinPtr P) : Prop := thin_in (prov_ok m) p /\ address_ok T (tp_addr p).
  Definition extras (m : Mach) : list F := concat (List.map (fun t => List.map f_extra (t_stack t)) (m_threads m)).

  Record sinv (m : Mach) : Prop := {
    si_prog : m_prog m = prog;
    si_wf : program_check_wf T prog = Ret tt;
    si_names : names_ok prog (ctl m);
    si_mem : sm_inv SM (memof m) (extras m);
    si_bytes : bytes_ok (prov_ok m) (memof m);
    si_fit : vfit T (mview m);
    si_ptrs : forall p, has_ptr (ctl m) p -> good_ptr m p;
    si_exposed : Forall (prov_ok m) (m_exposed m);
  }.

  (** from [m], evaluation can only change the contents of memory and what the memory model remembers *)
  Record ext (m m' : Mach) : Prop := {
    ex_quiet : quiet m m';
    ex_prov : forall pr, prov_ok m pr -> prov_ok m' pr;
    ex_inv : sinv m';
  }.
  Lemma ext_refl m : sinv m -> ext m m.
  Proof. intros Hm. by split. Qed.
  Lemma ext_trans m1 m2 m3 : ext m1 m2 -> ext m2 m3 -> ext m1 m3.
  Proof. intros [Q1 P1 _] [Q2 P2 I2]. split; [by eapply quiet_trans|by auto|done]. Qed.

  Definition vok (m : Mach) (ty : Ty) (v : Value P) : Prop :=
    check_value T (chk_env MO m) ty v = Ret tt /\ val_in (prov_ok m) v.

  (** ** What the checks read *)

  Lemma known_prov m p : thin_in (prov_ok m) p -> prov_known (memof m) p.
  Proof. intros Hp. eapply known_thin; [|exact Hp]. intros id pe Hpr. by eapply (sm_known _ _ SM). Qed.

  Lemma check_ok_ub (mem : M) p n : prov_known mem p -> ok_or_ub (bm_check_ptr mem p n).
  Proof.
    intros Hk. pose proof (bm_check_safe mem p n Hk) as Hs. unfold bm_check_ptr in *.
    destruct (n =? 0)%N; [left; by eexists|]. destruct (tp_prov p) as [[id pe]|]; [|right; by eexists].
    destruct (mem !! id) as [a|]; cbn [unwrap obind] in *; [|done].
    destruct (negb _); [right; by eexists|]. destruct (_ || _); [right; by eexists|].
    destruct (size_from_bytes _); [left; by eexists|done].
  Qed.
  Lemma deref_ok_ub m p n : thin_in (prov_ok m) p -> ok_or_ub (cm_deref MO (m_mem m) p n).
  Proof.
    intros Hp. unfold cm_deref. rewrite (bl_deref _ _ BL).
    destruct (check_ok_ub (memof m) p n (known_prov _ _ Hp)) as [[a E]|[msg E]]; unfold memof in E; rewrite E; cbn.
    - left. by eexists.
    - right. by eexists.
  Qed.
  Lemma vt_in (m : Mach) p kv : List.find (fun kv => bool_decide (snd kv = p)) (m_vtptrs m) = Some kv ->
    sinv m -> exists vt, map_get (pr_vtables (m_prog m)) (fst kv) = Some vt.
  Proof.
    intros Hf Hm. apply List.find_some in Hf as [Hin _]. destruct kv as [n q]. rewrite (si_prog _ Hm).
    by eapply (nk_vt_back _ _ (si_names _ Hm)).
  Qed.
  Lemma env_ok m : sinv m -> env_known (prov_ok m) (chk_env MO m).
  Proof.
    intros Hm. split_and!.
    - intros p s Hp. by apply deref_ok_ub.
    - intros p. cbn. unfold vtable_from_ptr. destruct (List.find _ _) as [kv|] eqn:E; [|right; by eexists].
      destruct (vt_in _ _ _ E Hm) as [vt ->]. left. by eexists.
    - intros p vt. cbn. unfold vtable_from_ptr, vtable_lookup. by destruct (List.find _ _).
  Qed.
  Lemma vtable_wf (m : Mach) p vt : sinv m -> vtable_from_ptr m p = Ret vt -> vtable_check_wf prog vt = Ret tt.
  Proof.
    intros Hm H. unfold vtable_from_ptr in H. destruct (List.find _ _) as [kv|]; [|done]. apply unwrap_ret in H.
    rewrite (si_prog _ Hm) in H. apply map_get_in in H. pose proof (si_wf _ Hm) as Hwf.
    apply obind_ret in Hwf as ([] & Hv & _). rewrite for_each_ret, List.Forall_forall in Hv. by apply (Hv _ H).
  Qed.
  Lemma lookup_from (m : Mach) p vt : vtable_lookup m p = Ret vt -> vtable_from_ptr m p = Ret vt.
  Proof. unfold vtable_lookup, vtable_from_ptr. by destruct (List.find _ _). Qed.

  (** ** Growth *)

  (** what is dereferenceable stays so *)
  Definition grows (m m' : Mach) : Prop :=
    forall i x, mview m !! i = Some x -> v_live x = true ->
      exists y, mview m' !! i = Some y /\ v_live y = true /\ v_addr y = v_addr x /\ v_size y = v_size x.
  Lemma grows_deref m m' p n : grows m m' -> cm_deref MO (m_mem m) p n = Ret tt -> cm_deref MO (m_mem m') p n = Ret tt.
  Proof.
    unfold cm_deref. rewrite !(bl_deref _ _ BL). intros Hg Hd. apply obind_ret in Hd as (r & Hr & _).
    destruct r as [[[id pe] off]|].
    - apply bm_check_ptr_some in Hr as (Hl & Hp & a & Ha & Hv & Hi & Ho).
      destruct (Hg id (view a)) as (y & Hy & Y1 & Y2 & Y3); [unfold mview; by rewrite mv_lookup, Ha|done|].
      unfold mview in Hy. rewrite mv_lookup in Hy. destruct (cm_mem (m_mem m') !! id) as [b|] eqn:Hb; [|done].
      injection Hy as <-. unfold view in Y1, Y2, Y3. cbn in Y1, Y2, Y3.
      assert (bm_check_ptr (cm_mem (m_mem m')) p n = Ret (Some (id, pe, off))) as ->; [|done].
      unfold bm_check_ptr. rewrite Hp, Hb. destruct (n =? 0)%N eqn:E0; [lia|]. cbn [unwrap obind]. rewrite Y1. cbn [negb].
      destruct Hi as [Hi1 Hi2].
      replace (_ || _) with false by lia. unfold size_from_bytes. replace (_ <? 0) with false by lia. cbn [unwrap obind]. f_equal. f_equal. f_equal. lia.
    - unfold bm_check_ptr in *. destruct (n =? 0)%N; [done|]. destruct (tp_prov p) as [[id pe]|]; [|done].
      destruct (_ !! id); [|done]. cbn [unwrap obind] in Hr. destruct (negb _); [done|]. destruct (_ || _); [done|].
      by destruct (size_from_bytes _).
  Qed.
  Lemma grows_value m m' ty v : grows m m' -> m_vtptrs m' = m_vtptrs m -> m_prog m' = m_prog m ->
    check_value T (chk_env MO m) ty v = Ret tt -> check_value T (chk_env MO m') ty v = Ret tt.
  Proof.
    intros Hg Hv Hp. apply (check_value_le T Tok).
    - intros p s. cbn. by apply grows_deref.
    - intros p vt. cbn. unfold vtable_from_ptr. by rewrite Hv, Hp.
    - intros p vt. cbn. unfold vtable_lookup. by rewrite Hv, Hp.
  Qed.
  Lemma grows_view m m' : mview m' = mview m -> grows m m'.
  Proof. intros E i x Hx Hl. exists x. by rewrite E. Qed.
  Lemma same_vts (m m' : Mach) : same m m' -> m_vtptrs m' = m_vtptrs m.
  Proof. intros Hs. change (c_vtptrs (ctl m') = c_vtptrs (ctl m)). by rewrite Hs. Qed.
  Lemma same_prog (m m' : Mach) : same m m' -> m_prog m' = m_prog m.
  Proof. intros Hs. change (c_prog (ctl m') = c_prog (ctl m)). by rewrite Hs. Qed.
  Lemma ext_value m m' ty v : ext m m' -> vok m ty v -> vok m' ty v.
  Proof.
    intros [[Hs Hv] Hp _] [H1 H2]. split; [|eapply val_in_mono; [exact Hp|done]].
    eapply grows_value; [by apply grows_view|by apply same_vts|by apply same_prog|done].
  Qed.
  Lemma ext_lookup m m' p : ext m m' -> vtable_lookup m' p = vtable_lookup m p.
  Proof. intros [[Hs _] _ _]. unfold vtable_lookup. by rewrite (same_vts _ _ Hs), (same_prog _ _ Hs). Qed.
  Lemma ext_from m m' p : ext m m' -> vtable_from_ptr m' p = vtable_from_ptr m p.
  Proof. intros [[Hs _] _ _]. unfold vtable_from_ptr. by rewrite (same_vts _ _ Hs), (same_prog _ _ Hs). Qed.
  Lemma ext_good m m' p : ext m m' -> good_ptr m p -> good_ptr m' p.
  Proof. intros E [H1 H2]. split; [|done]. eapply thin_in_mono; [apply (ex_prov _ _ E)|done]. Qed.

  (** the current frame *)
  Lemma same_frame (m m' : Mach) f : same m m' -> cur_frame m = Ret f -> exists f', cur_frame m' = Ret f' /\ fctl f' = fctl f.
  Proof.
    intros Hs Hf. unfold cur_frame, active_thread in *. apply obind_ret in Hf as (t & Ht & Hf). apply unwrap_ret in Ht, Hf.
    assert (m_active m' = m_active m) as -> by (change (c_active (ctl m') = c_active (ctl m)); by rewrite Hs).
    assert (E : c_threads (ctl m') !! m_active m = Some (tctl t)).
    { rewrite Hs. cbn [ctl c_threads]. change (List.map tctl (m_threads m)) with (tctl <$> m_threads m). by rewrite list_lookup_fmap, Ht. }
    cbn [ctl c_threads] in E. change (List.map tctl (m_threads m')) with (tctl <$> m_threads m') in E.
    rewrite list_lookup_fmap in E. destruct (m_threads m' !! m_active m) as [t'|]; [|done]. cbn in E. cbn [unwrap obind].
    assert (E' : List.map fctl (t_stack t') = List.map fctl (t_stack t)) by (change (tc_stack (tctl t') = tc_stack (tctl t)); congruence).
    destruct (t_stack t) as [|f0 r]; [done|]. injection Hf as ->. destruct (t_stack t') as [|f1 r']; [done|].
    apply (f_equal head) in E'. change (Some (fctl f1) = Some (fctl f)) in E'. exists f1. split; [done|]. congruence.
  Qed.

  (** ** Loads, stores and retags *)

  Lemma extras_mem m mem : extras (set_mem m mem) = extras m.
  Proof. done. Qed.

  (** a change of memory that keeps the view and the invariant of the memory *)
  Lemma ext_mem m mem : sinv m -> mv (cm_mem mem) = mview m ->
    sm_inv SM (cm_mem mem) (extras m) -> (forall pr, prov_ok m pr -> sm_prov SM (cm_mem mem) pr) ->
    bytes_ok (sm_prov SM (cm_mem mem)) (cm_mem mem) -> ext m (set_mem m mem).
  Proof.
    intros Hm Hv Hi Hp Hb. split; [by split|done|]. split; try done; cbn [set_mem m_prog m_exposed].
    - apply Hm.
    - apply Hm.
    - apply Hm.
    - change (vfit T (mv (cm_mem mem))). rewrite Hv. apply Hm.
    - intros p Hp'. destruct (si_ptrs _ Hm p Hp') as [H1 H2]. split; [|done]. eapply thin_in_mono; [exact Hp|done].
    - eapply Forall_impl; [apply Hm|]. exact Hp.
  Qed.

  Lemma cm_store_safe m p b al at_ : sinv m -> thin_in (prov_ok m) p -> Forall (byte_in (prov_ok m)) b ->
    wp False (cm_store MO (m_mem m) p b al at_) (fun mem => ext m (set_mem m mem)).
  Proof.
    intros Hm Hp Hb. unfold cm_store. apply wp_bind. cbn [cm_push cm_mem].
    eapply wp_mono; [apply wp_eq, (sm_store _ _ SM _ (extras m)); [apply Hm|done]|].
    intros mem' [[Hi Hpr] E]. cbn [wp]. apply ext_mem; [done|by eapply store_mv; [apply BL|exact E]|done..|].
    eapply store_bytes; [apply BL|exact E| |].
    - eapply bytes_ok_mono; [exact Hpr|apply Hm].
    - eapply bytes_in_mono; [exact Hpr|done].
  Qed.
  Lemma cm_load_safe m p n al at_ : sinv m -> thin_in (prov_ok m) p ->
    wp False (cm_load MO (m_mem m) p n al at_) (fun r => ext m (set_mem m (snd r)) /\
      Forall (byte_in (prov_ok (set_mem m (snd r)))) (fst r) /\ N.of_nat (length (fst r)) = n).
  Proof.
    intros Hm Hp. unfold cm_load. apply wp_bind. cbn [cm_push cm_mem].
    eapply wp_mono; [apply wp_eq, (sm_load _ _ SM _ (extras m)); [apply Hm|done]|].
    intros [b mem'] [[Hi Hpr] E]. cbn [wp fst snd] in *.
    eapply load_bytes in E as E'; [|apply BL|eapply bytes_ok_mono; [exact Hpr|apply Hm]].
    destruct E' as (B1 & B2 & B3). split; [|done].
    apply ext_mem; [done|by eapply load_mv; [apply BL|exact E]|done..].
  Qed.

  Lemma insert_perm {A} (l : list (list A)) i x y r : l !! i = Some (x :: r) ->
    exists rest, concat l ≡ₚ x :: rest /\ concat (<[i := y :: r]> l) ≡ₚ y :: rest.
  Proof.
    intros Hi. exists (concat (take i l) ++ r ++ concat (drop (S i) l)). split.
    - rewrite <- (take_drop_middle l i _ Hi) at 1. rewrite concat_app. cbn [concat app].
      symmetry. apply Permutation_middle.
    - rewrite insert_take_drop by (by eapply lookup_lt_Some). rewrite concat_app. cbn [concat app].
      symmetry. apply Permutation_middle.
  Qed.
  Lemma extras_frame m t f r : m_threads m !! m_active m = Some t -> t_stack t = f :: r ->
    exists rest, extras m ≡ₚ f_extra f :: rest /\
      forall mem f', extras (set_active_thread (set_mem m mem) (with_stack t (f' :: r))) ≡ₚ f_extra f' :: rest.
  Proof.
    intros Ht Hs. set (L := List.map (fun t => List.map f_extra (t_stack t)) (m_threads m)).
    assert (HL : L !! m_active m = Some (f_extra f :: List.map f_extra r)).
    { unfold L. change (List.map ?g ?l) with (g <$> l) at 1. rewrite list_lookup_fmap, Ht. cbn. by rewrite Hs. }
    destruct (insert_perm L (m_active m) _ (f_extra f) _ HL) as (rest & H1 & _). exists rest. split; [exact H1|].
    intros mem f'. destruct (insert_perm L (m_active m) _ (f_extra f') _ HL) as (rest' & H1' & H2').
    assert (Hr : rest ≡ₚ rest').
    { eapply Permutation_cons_inv with (a := f_extra f). by rewrite <- H1, <- H1'. }
    rewrite Hr, <- H2'. unfold extras. cbn. unfold L.
    assert (List.map (fun t0 : Thread P F => List.map f_extra (t_stack t0)) (<[m_active m:=with_stack t (f' :: r)]> (m_threads m)) =
      <[m_active m:=f_extra f' :: List.map f_extra r]> (List.map (fun t0 : Thread P F => List.map f_extra (t_stack t0)) (m_threads m))) as ->; [|done].
    apply (list_fmap_insert (fun t0 : Thread P F => List.map f_extra (t_stack t0))).
  Qed.

  Lemma retag_ptr_safe m f ptr pt fe : sinv m -> cur_frame m = Ret f -> ptr_in (prov_ok m) ptr ->
    retag_pre ptr pt (vtable_lookup m) ->
    wp (sm_bad SM (memof m) ptr pt (vtable_lookup m)) (retag_ptr MO m ptr pt fe) (fun r =>
      ext m (snd r) /\ ptr_in (prov_ok (snd r)) (fst r) /\ p_meta (fst r) = p_meta ptr /\
      same_target (p_thin ptr) (p_thin (fst r))).
  Proof.
    intros Hm Hf [Hp1 Hp2] Hpre.
    eapply wp_given; [apply (retag_ptr_quiet T MO BL)|].
    unfold retag_ptr. rewrite Hf. cbn [obind]. unfold cur_frame, active_thread in Hf.
    apply obind_ret in Hf as (t & Ht & Hf). apply unwrap_ret in Ht, Hf. destruct (t_stack t) as [|f0 r] eqn:Es; [done|].
    injection Hf as ->. destruct (extras_frame m t f r Ht Es) as (rest & E1 & E2).
    unfold cm_retag. apply wp_bind, wp_bind.
    eapply wp_mono; [apply wp_eq, (sm_retag _ _ SM _ _ rest); [eapply sm_perm; [exact E1|apply Hm]|done|done]|].
    intros [[p mem] fx] [(Hi & Hpr & Hth & Hme & Htg) E]. cbn [fst snd wp] in *. unfold set_cur_frame, active_thread.
    cbn [set_mem m_threads m_active]. rewrite Ht. cbn [unwrap obind]. rewrite Es. cbn [wp obind fst snd].
    intros Hq.
    assert (Hpr' : forall pr, prov_ok m pr ->
      prov_ok (set_active_thread (set_mem m (cm_set (m_mem m) mem)) (with_stack t (with_extra f fx :: r))) pr) by exact Hpr.
    split_and!; [|split; [exact Hth|]|done|done].
    - destruct Hq as [Hs Hv]. split; [by split|done|]. split.
      + apply (si_prog _ Hm).
      + apply (si_wf _ Hm).
      + rewrite Hs. apply Hm.
      + eapply sm_perm; [symmetry; apply E2|]. exact Hi.
      + change (bytes_ok (sm_prov SM mem) mem). eapply extra_bytes; [by eapply (bl_retag _ _ BL)|].
        eapply bytes_ok_mono; [exact Hpr|apply Hm].
      + rewrite Hv. apply Hm.
      + intros q Hq. rewrite Hs in Hq. destruct (si_ptrs _ Hm q Hq) as [H1 H2]. split; [|done].
        eapply thin_in_mono; [exact Hpr|done].
      + eapply Forall_impl; [apply Hm|]. exact Hpr.
    - rewrite Hme. destruct (p_meta ptr) as [[c|q]|]; try done. cbn in *. eapply thin_in_mono; [exact Hpr|done].
  Qed.

  (** ** Typed accesses *)

  Lemma typed_store_safe ht m ptr v ty al at_ : sinv m -> ty_check_wf T ht ty = Ret tt -> vok m ty v ->
    thin_in (prov_ok m) ptr -> wp False (typed_store T MO m ptr v ty al at_) (ext m).
  Proof.
    intros Hm Hwf [Hv Hin] Hp. unfold typed_store. rewrite Hv. cbn [is_ok obind assert_].
    destruct (encode_total T Tok ht ty v Hwf (check_value_shape T (chk_env MO m) ty v Hv)) as (b & Hb & _). rewrite Hb. cbn [obind].
    apply wp_bind. eapply wp_mono; [apply cm_store_safe; [done|done|by eapply encode_in]|]. done.
  Qed.
  Lemma typed_load_safe ht m ptr ty al at_ s : sinv m -> ty_check_wf T ht ty = Ret tt -> size_of T ty = Ret s ->
    thin_in (prov_ok m) ptr ->
    wp False (typed_load T MO m ptr ty al at_) (fun r => ext m (snd r) /\ vok (snd r) ty (fst r)).
  Proof.
    intros Hm Hwf Hs Hp. unfold typed_load. rewrite Hs. cbn [obind]. apply wp_bind.
    eapply wp_mono; [by apply cm_load_safe|]. intros [b mem] (He & Hb & Hl). cbn [fst snd] in *.
    destruct (decode_total T Tok ht ty b Hwf) as [o Ho]; [apply sized_size; by eexists|by rewrite Hl, (size_of_tsize T _ _ Hs)|]. rewrite Ho. cbn [obind].
    destruct o as [v|]; [|done].
    assert (Hin : val_in (prov_ok (set_mem m mem)) v) by (by eapply decode_in).
    destruct (known_value_ok T (prov_ok (set_mem m mem)) ht (chk_env MO (set_mem m mem)) ty v) as [[[] E]|[msg E]].
    - apply env_ok, He.
    - done.
    - by eapply decode_shape.
    - done.
    - rewrite E. cbn. done.
    - by rewrite E.
  Qed.
  Lemma fit_allocs m : vfit T (mview m) -> allocs_fit T (memof m).
  Proof.
    intros [H1 H2]. split.
    - intros i a Ha. apply (H1 i (view a)). unfold mview. rewrite mv_lookup. unfold memof in Ha. by rewrite Ha.
    - intros i j a b Ha Hb. apply (H2 i j (view a) (view b)); unfold mview; rewrite mv_lookup.
      + unfold memof in Ha. by rewrite Ha.
      + unfold memof in Hb. by rewrite Hb.
  Qed.
  Lemma signed_deref_ok_ub m p off : thin_in (prov_ok m) p -> ok_or_ub (cm_signed_deref MO (m_mem m) p off).
  Proof.
    intros Hp. unfold cm_signed_deref, mo_signed_deref, size_from_bytes. destruct (Z.ltb_spec 0 off).
    - replace (off <? 0) with false by lia. cbn [unwrap obind]. by apply deref_ok_ub.
    - replace (- off <? 0) with false by lia. cbn [unwrap obind]. by apply deref_ok_ub.
  Qed.
  Lemma wp_ok_ub {A} (o : Outcome A) (Q : A -> Prop) : ok_or_ub o -> (forall a, o = Ret a -> Q a) -> wp False o Q.
  Proof. intros [[a ->]|[msg ->]] H; cbn; auto. Qed.
  Lemma ptr_offset_safe m p off : sinv m -> good_ptr m p ->
    wp False (ptr_offset_inbounds T MO m p off) (fun q => good_ptr m q /\ q = mkThin (tp_addr p + off) (tp_prov p)).
  Proof.
    intros Hm [H1 H2]. pose proof (fit_allocs m (si_fit _ Hm)) as Hf.
    rewrite (ptr_offset_inbounds_safe T MO BL m p off Tok Hf H2). apply wp_bind.
    apply wp_ok_ub; [by apply signed_deref_ok_ub|]. intros [] E. cbn. split; [|done].
    split; [done|]. by apply (signed_deref_range T MO BL (memof m) p off Tok Hf E H2).
  Qed.
End SafeMach.
