(** Intrinsics of accepted programs keep the safety invariant and give well-formed values, except for the named causes. *)
From Verif Require Export SafeCall.
From stdpp Require Import relations.
From Coq Require Import ZifyBool ZifyN ZifyNat.
Local Open Scope Z_scope.

Lemma eval_print_safe {P} E (args : list (Value P * Ty)) : wp E (eval_print args) (fun _ => True).
Proof.
  unfold eval_print. eapply wp_mono; [apply (wp_fold_m _ E (fun _ _ => True))|]; [done| |done]. intros i [v t] s _ _. by destruct v.
Qed.

Section SafeIntr.
  Context {PE AE F : Type} `{EqDecision (nat * PE)}.
  Variable T : Target.
  Variable MO : MemOps (nat * PE) F (BMem PE AE).
  Variable SM : safe_mem T MO.
  Hypothesis Tok : target_ok T.
  Hypothesis Std : target_std T.
  Variable prog : Program.
  Notation P := (nat * PE)%type.
  Notation M := (BMem PE AE).
  Notation Mach := (Machine P F M).
  Notation BL := (sm_like SM).
  Notation sinv := (sinv T MO SM prog).
  Notation ext := (ext T MO SM prog).
  Notation vok := (vok T MO SM).
  Notation prov_ok := (prov_ok T MO SM).
  Notation good_ptr := (good_ptr T MO SM).
  Notation wfT ty := (ty_check_wf T any_trait ty = Ret tt).
  Notation good := (good T MO SM).
  Notation memok := (memok T MO SM).
  Notation pmono := (pmono T MO SM).
  Notation pok := (pok T MO SM).

  (** ** Changes that leave stacks, payloads and memory alone *)

  Definition sp (t : Thread P F) := (t_stack t, t_payloads t).
  Lemma keep_thread (l : list (Thread P F)) i t s : l !! i = Some t -> List.map sp (<[i := with_state t s]> l) = List.map sp l.
  Proof.
    intros Hi. change (sp <$> <[i := with_state t s]> l = sp <$> l). rewrite list_fmap_insert. apply list_insert_id.
    rewrite list_lookup_fmap, Hi. done.
  Qed.
  Lemma keep_sinv (m m' : Mach) : sinv m -> m_mem m' = m_mem m -> statics (ctl m') = statics (ctl m) ->
    List.map sp (m_threads m') = List.map sp (m_threads m) ->
    (forall pr, pr ∈ m_exposed m' -> pr ∈ m_exposed m \/ prov_ok m pr) -> sinv m'.
  Proof.
    intros Hm Hmem Hst Hsp Hex.
    assert (He : forall m : Mach, extras m = concat (List.map (fun x => List.map f_extra (fst x)) (List.map sp (m_threads m)))).
    { intros m0. unfold extras. by rewrite map_map. }
    eapply sinv_upd; [exact Hm|exact Hst| | | |].
    - unfold memof. rewrite Hmem, He, Hsp, <- He. by eapply sinv_memok.
    - intros pr. unfold memof. by rewrite Hmem.
    - apply threads_ptrs; [exact Hst|]. intros t' p Hin Hp. left. cbn in Hin. apply in_map_iff in Hin as (u' & <- & Hin).
      apply (in_map sp) in Hin. rewrite Hsp in Hin. apply in_map_iff in Hin as (u & Hu & Hin). exists (tctl u). split; [by apply in_map|].
      injection Hu as E1 E2. unfold tptr, tctl in *. cbn in *. by rewrite E1, E2.
    - intros pr Hpr. unfold memof. rewrite Hmem. by apply Hex.
  Qed.
  Lemma keep_framed (m m' : Mach) : framed m -> m_active m' = m_active m -> List.map sp (m_threads m') = List.map sp (m_threads m) -> framed m'.
  Proof.
    intros [f Hf] Ha Hsp. destruct (cur_frame_inv _ _ Hf) as (t & r & Ht & Hs).
    assert (Hl : (sp <$> m_threads m') !! m_active m' = Some (sp t)).
    { rewrite Ha. change (sp <$> m_threads m') with (List.map sp (m_threads m')). rewrite Hsp. change (List.map sp (m_threads m)) with (sp <$> m_threads m). by rewrite list_lookup_fmap, Ht. }
    rewrite list_lookup_fmap in Hl. destruct (m_threads m' !! m_active m') as [t'|] eqn:Ht'; [|done]. injection Hl as E1 E2.
    exists f. eapply cur_frame_eq; [exact Ht'|]. by rewrite E1.
  Qed.

  (** ** Values that are only stored *)

  Definition wgood (E : Prop) (m : Mach) (ty : Ty) (v : Value P) : Prop :=
    val_in (prov_ok m) v /\ (E \/ check_value T (chk_env MO m) ty v = Ret tt).
  Lemma good_wgood E m ty v : good E m ty v -> wgood E m ty v.
  Proof. intros Hg. destruct (good_vok _ _ _ _ _ _ _ Hg) as [HE|[Hc _]]; (split; [apply Hg|by (left + right)]). Qed.
  Lemma vok_wgood E m ty v : vok m ty v -> wgood E m ty v.
  Proof. intros [H1 H2]. split; [done|by right]. Qed.
  Lemma typed_store_wgood E ht m ptr v ty al at_ : sinv m -> ty_check_wf T ht ty = Ret tt -> wgood E m ty v ->
    thin_in (prov_ok m) ptr -> wp E (typed_store T MO m ptr v ty al at_) (ext m).
  Proof.
    intros Hm Wt [H1 H2] Hp. destruct (check_value T (chk_env MO m) ty v) as [[]| | |] eqn:Ec.
    { apply (wp_weaken False _ _ (ext m)); [|done|done]. eapply typed_store_safe; try done. }
    all: destruct H2 as [HE|H2]; [|done]; unfold typed_store; rewrite Ec; by cbn.
  Qed.
  Lemma place_store_wgood E ht m pl v ty : sinv m -> ty_check_wf T ht ty = Ret tt -> wgood E m ty v ->
    thin_in (prov_ok m) (p_thin (pl_ptr pl)) -> wp E (place_store T MO m pl v ty) (ext m).
  Proof.
    intros Hm Wt Hv Hp. unfold place_store. destruct (negb (pl_aligned pl)); [done|]. by eapply typed_store_wgood.
  Qed.

  (** ** Intrinsics *)

  Definition ires (E : Prop) (m : Mach) (ty : Ty) (r : Value P * Mach * list (Choice P)) : Prop :=
    let '(v, m', _) := r in sinv m' /\ framed m' /\ pmono (memof m) (memof m') /\ wgood E m' ty v.
  Lemma ext_ires E m m' ty v cs : framed m -> ext m m' -> wgood E m' ty v -> ires E m ty (v, m', cs).
  Proof.
    intros Hf Hx Hv. split; [apply Hx|]. split; [by eapply ext_framed|]. split; [|done]. exact (ex_prov _ _ _ _ _ _ Hx).
  Qed.
  Lemma unit_wgood E m v : v = unit_value -> wgood E m unit_ty v.
  Proof. intros ->. split; [constructor; constructor|by right]. Qed.
  Lemma bool_wgood E m b : wgood E m TBool (VBool b).
  Proof. split; [constructor|by right]. Qed.
  Lemma keep_ires E m m' ty v cs : sinv m -> framed m -> m_mem m' = m_mem m -> statics (ctl m') = statics (ctl m) ->
    m_active m' = m_active m -> List.map sp (m_threads m') = List.map sp (m_threads m) ->
    (forall pr, pr ∈ m_exposed m' -> pr ∈ m_exposed m \/ prov_ok m pr) -> wgood E m' ty v -> ires E m ty (v, m', cs).
  Proof.
    intros Hm Hf Hmem Hst Ha Hsp Hex Hv. split; [by eapply keep_sinv|]. split; [by eapply keep_framed|]. split; [|done].
    intros pr. unfold memof. by rewrite Hmem.
  Qed.

  Lemma fn_from_ptr_safe m v : sinv m -> wp False (fn_from_ptr m v) (fun f => fn_ok T prog f).
  Proof.
    intros Hm. unfold fn_from_ptr. destruct v as [| |[thin [|]]| | |]; try done.
    destruct (List.find _ _) as [[n p]|] eqn:Ef; [|done]. apply find_some in Ef as [Hin _].
    destruct (nk_fn_back _ _ (si_names _ _ _ _ _ Hm) n p Hin) as [f Hf]. cbn [fst]. rewrite (si_prog _ _ _ _ _ Hm), Hf. cbn.
    eapply prog_fn; [apply Hm|exact Hf].
  Qed.

  Lemma good_addr E m t ptr me : good E m t (VPtr (mkPtr ptr me)) -> address_ok T (tp_addr ptr).
  Proof.
    intros (H1 & _ & _). inversion H1 as [| |pt p Hc| | | |]; subst. by apply (check_ptr_meta T Tok (chk_env MO m)) in Hc as [? _].
  Qed.

  Lemma int_pow2 it : wfT (TInt it) -> exists a, align_from_bytes (tsize T (TInt it)) = Some a.
  Proof.
    intros Wt. apply wf_int in Wt. destruct (int_layout T it Wt) as (a & _ & Hl). destruct (pow2_align _ Wt) as [b Hb]. exists b.
    unfold tsize, size_of. rewrite Hl. exact Hb.
  Qed.

  Lemma load_raw_safe (E : Prop) m m1 p pt : ext m m1 -> thin_in (prov_ok m1) (p_thin p) ->
    wp E (load_raw_data MO m1 p pt) (fun r => ext m (snd r)).
  Proof.
    intros Hx Hp. unfold load_raw_data. destruct pt as [mu pi| | | |]; try done. destruct (pi_layout pi) as [s a| | |]; try done.
    apply wp_bind. apply (wp_weaken False _ _ (fun r => ext m (set_mem m1 (snd r)))); [|done|].
    - eapply wp_mono; [eapply cm_load_safe; [apply Hx|done]|]. intros [b mem] (H1 & _). cbn [snd] in *. by eapply ext_trans.
    - intros [b mem] H1. cbn [snd] in H1. by destruct (bytes_data b).
  Qed.
  Lemma num_wgood (E : Prop) it n (m' : Mach) : (can_represent it (Z.of_nat n) = false -> E) -> wgood E m' (TInt it) (VInt (Z.of_nat n)).
  Proof.
    intros HE. split; [done|]. destruct (can_represent it (Z.of_nat n)) eqn:Ec; [right|left; by apply HE].
    cbn. by rewrite Ec.
  Qed.

  Section Intrinsic.
    Variable E : Prop.
    Variable m : Mach.
    Variable ret_ty : Ty.
    Hypothesis Hm : sinv m.
    Hypothesis Hf : framed m.
    Hypothesis Wr : wfT ret_ty.
    Hypothesis Sr : sized T ret_ty.
    Variable op : IntrinsicOp.
    Variable args : list (Value P * Ty).
    Hypothesis Hargs : Forall (fun a => wfT (snd a) /\ sized T (snd a) /\ good E m (snd a) (fst a)) args.
    Hypothesis Hop : forall o, op = InAtomicFetchAndOp o -> is_atomic_binop o = true.
    Hypothesis Hnum : forall it n, ret_ty = TInt it -> next_number m op = Some n -> can_represent it (Z.of_nat n) = false -> E.
    Hypothesis Hfetch : forall o it ptr pty other al prev m3, op = InAtomicFetchAndOp o -> ret_ty = TInt it ->
      args = [(VPtr (mkPtr ptr None), pty); (VInt other, TInt it)] -> typed_load T MO m ptr (TInt it) al Atomic = Ret (VInt prev, m3) ->
      can_represent it (fetch_result o prev other) = false -> E.
    Hypothesis Hplain : match op with
      | InAllocate | InGetUnwindPayload | InPointerWithExposedProvenance => forall pt, ret_ty = TPtr pt -> plain_ptr pt
      | _ => True end.
    Hypothesis Haddr : match op with
      | InPointerWithExposedProvenance => forall v it i, In (v, TInt it) args -> can_represent it i = true -> address_ok T i
      | _ => True end.

    Ltac same_mem_tac := apply keep_ires; try done; try (by intros pr Hpr; left).

    Lemma eval_intrinsic_safe cs : wp E (eval_intrinsic T MO m op args ret_ty cs) (ires E m ret_ty).
    Proof.
      assert (Hrefl : ext m m) by (by apply ext_refl).
      assert (Hunit : forall msg, wp E (ensure_unit ret_ty msg) (fun _ => ret_ty = unit_ty)).
      { intros msg. unfold ensure_unit. by case_bool_decide. }
      destruct op as [ | | | | | | | | | | | | |o|[]| | | ] eqn:Eop; cbn [eval_intrinsic].
      - (* abort *) done.
      - (* assume *) destruct args as [|[[|b| | | |] t] [|]]; try done. apply wp_bind. eapply wp_mono; [apply Hunit|]. intros [] ->.
        destruct (negb b); [done|]. cbn [wp]. apply ext_ires; [done|done|by apply unit_wgood].
      - (* exit *) unfold cm_leak_check. rewrite (bl_leak _ _ BL). apply wp_bind. apply wp_safe; [|done]. unfold bm_leak_check.
        generalize (cm_mem (m_mem m)). intros l. induction l as [|a l IH]; [done|]. cbn [for_each]. destruct (al_live a); [|exact IH]. destruct (al_kind a); try done; exact IH.
      - (* stdout *) apply wp_bind. eapply wp_mono; [apply Hunit|]. intros [] ->. apply wp_bind. eapply wp_mono; [apply eval_print_safe|].
        intros s _. cbn [wp]. same_mem_tac. by apply unit_wgood.
      - apply wp_bind. eapply wp_mono; [apply Hunit|]. intros [] ->. apply wp_bind. eapply wp_mono; [apply eval_print_safe|].
        intros s _. cbn [wp]. same_mem_tac. by apply unit_wgood.
      - (* allocate *) destruct args as [|[sv st] [|[av at_] [|]]]; try done. destruct sv as [sz| | | | |]; try done.
        destruct (size_from_bytes sz) as [size|]; [|done]. destruct av as [al| | | | |]; try done. destruct (align_from_int al) as [align|]; [|done].
        destruct ret_ty as [ | |pt| | | | | | ] eqn:Er; try done. case_bool_decide as Hk; [done|]. apply wp_bind. apply wp_safe; [by destruct cs as [|[]]|].
        intros [ad cs1] _. unfold cm_allocate. apply wp_bind, wp_bind. apply (wp_weaken False _ _ (fun r => let '(p, mem') := r in
          memok mem' (extras m) /\ pmono (memof m) mem' /\ pok mem' p)); [|done|].
        { eapply wp_mono; [apply alloc_ok; [done|by eapply sinv_memok]|]. intros [p mem'] (H1 & H2 & H3 & _). done. }
        intros [p mem'] (H1 & H2 & H3). cbn. split; [by apply sinv_mem|]. split; [done|]. split; [exact H2|]. split; [split; [apply H3|done]|].
        right. cbn [check_value widen]. apply plain_check; [done|by apply Hplain|apply H3].
      - (* deallocate *) destruct args as [|[pv pt] [|[sv st] [|[av at_] [|]]]]; try done. destruct pv as [| |[ptr [|]]| | |]; try done.
        destruct sv as [sz| | | | |]; try done. destruct (size_from_bytes sz) as [size|]; [|done]. destruct av as [al| | | | |]; try done.
        destruct (align_from_int al) as [align|]; [|done]. apply wp_bind. eapply wp_mono; [apply Hunit|]. intros [] ->.
        inversion Hargs as [|? ? (_ & _ & (_ & Hin & _)) _]; subst. cbn [fst] in Hin.
        apply wp_bind. unfold cm_deallocate. apply wp_bind. apply (wp_weaken False _ _ (fun mem' =>
          memok mem' (extras m) /\ pmono (memof m) mem')); [|done|].
        { apply dealloc_ok; [by eapply sinv_memok|]. apply Hin. }
        intros mem' (H1 & H2). cbn. split; [by apply sinv_mem|]. split; [done|]. split; [exact H2|]. by apply unit_wgood.
      - (* spawn *) destruct args as [|[fv ft] [|[dv dt] [|]]]; try done. apply wp_bind.
        apply (wp_weaken False _ _ (fun f => fn_ok T prog f)); [by apply fn_from_ptr_safe|done|]. intros func Hfn.
        destruct dt as [ | |dpt| | | | | | ] eqn:Ed; try done. destruct ret_ty as [it| | | | | | | | ] eqn:Er; try done.
        apply wp_bind. unfold spawn. apply wp_bind. inversion Hargs as [|? ? _ Hargs']; subst.
        eapply wp_mono; [by apply new_thread_safe|]. intros [[id m'] cs'] (H1 & -> & H2 & mem & f & ->). cbn.
        split; [|split; [|split; [exact H2|]]].
        + eapply keep_sinv; [exact H1|done..|]. intros pr Hpr. by left.
        + destruct Hf as [g Hg]. destruct (cur_frame_inv _ _ Hg) as (t & r & Ht & Hs). exists g. eapply cur_frame_eq; [|exact Hs]. cbn. by apply lookup_app_l_Some.
        + apply num_wgood. by apply Hnum.
      - (* join *) destruct args as [|[[id| | | | |] t] [|]]; try done. apply wp_bind. eapply wp_mono; [apply Hunit|]. intros [] ->.
        apply wp_bind. unfold Step.join. destruct (list_get _ _) as [t1|]; [|done].
        assert (Hb : wp E (let! a := active_thread m in Ret (set_active_thread m (with_state a (BlockedOnJoin (Z.to_nat id)))))
          (fun m' => wp E (Ret (unit_value, m', cs)) (ires E m unit_ty))).
        { destruct Hf as [g Hg]. destruct (cur_frame_inv _ _ Hg) as (a & r & Ha & Hs). unfold active_thread. rewrite Ha. cbn [unwrap obind wp].
          same_mem_tac; [by apply keep_thread|by apply unit_wgood]. }
        destruct (t_state t1); [exact Hb| | |]; try exact Hb. cbn [wp]. apply ext_ires; [done|done|by apply unit_wgood].
      - (* raweq *) destruct args as [|[lv lt] [|[rv rt] [|]]]; try done. case_bool_decide as Hr; [|done]. cbn [negb]. subst ret_ty.
        case_bool_decide as Hl; [|done]. cbn [negb]. destruct lv as [| |p| | |]; try done. destruct rv as [| |q| | |]; try done.
        destruct lt as [ | |pt| | | | | | ]; try done.
        inversion Hargs as [|? ? (_ & _ & (_ & Hp & _)) Hargs']; subst. inversion Hargs' as [|? ? (_ & _ & (_ & Hq & _)) _]; subst. cbn [fst] in *.
        apply wp_bind. eapply wp_mono; [apply load_raw_safe; [done|apply Hp]|]. intros [d1 m1] Hx1. cbn [snd] in Hx1.
        apply wp_bind. eapply wp_mono; [apply load_raw_safe; [done|]|].
        { eapply thin_in_mono; [|apply Hq]. exact (ex_prov _ _ _ _ _ _ Hx1). }
        intros [d2 m2] Hx2. cbn [snd] in Hx2. cbn [wp]. apply ext_ires; [done|done|apply bool_wgood].
      - (* store *) destruct args as [|[pv pt] [|[v ty] [|]]]; try done. destruct pv as [| |[ptr [|]]| | |]; try done.
        inversion Hargs as [|? ? (_ & _ & (_ & Hp & _)) Hargs']; subst. inversion Hargs' as [|? ? (Wt & St & Hv) _]; subst. cbn [fst snd] in *.
        apply wp_bind. destruct St as (sz & al & Hl). rewrite Hl. cbn [wp]. destruct (align_from_bytes sz) as [a|]; [|done].
        destruct (_ <? _)%N; [done|]. apply wp_bind. eapply wp_mono; [apply Hunit|]. intros [] ->.
        apply wp_bind. eapply wp_mono; [eapply typed_store_good; [done|done|exact Wt|exact Hv|apply Hp]|]. intros m' Hx. cbn [wp].
        apply ext_ires; [done|done|by apply unit_wgood].
      - (* load *) destruct args as [|[[| |[ptr [|]]| | |] t] [|]]; try done. rewrite (sized_tsize _ _ Sr). cbn [obind].
        destruct (align_from_bytes _) as [a|]; [|done]. destruct (_ <? _)%N; [done|].
        inversion Hargs as [|? ? (_ & _ & (_ & Hp & _)) _]; subst. cbn [fst] in Hp.
        apply wp_bind. apply (wp_weaken False _ _ (fun r => ext m (snd r) /\ vok (snd r) ret_ty (fst r))); [|done|].
        { eapply typed_load_safe; [done|done|exact Wr|by apply sized_tsize|apply Hp]. }
        intros [v m'] [Hx Hv]. cbn [fst snd wp] in *. apply ext_ires; [done|done|by apply vok_wgood].
      - (* cmpxchg *) destruct args as [|[pv pt] [|[cv ct] [|[nv nt] [|]]]]; try done. destruct pv as [| |[ptr [|]]| | |]; try done.
        case_bool_decide as Hc; [|done]. cbn [negb]. case_bool_decide as Hn; [|done]. cbn [negb]. subst ct nt.
        destruct ret_ty as [it| | | | | | | | ] eqn:Er; try done.
        inversion Hargs as [|? ? (_ & _ & (_ & Hp & _)) Hargs']; subst. inversion Hargs' as [|? ? _ Hargs'']; subst. inversion Hargs'' as [|? ? (_ & _ & Hv) _]; subst. cbn [fst snd] in *.
        rewrite (sized_tsize _ _ Sr). cbn [obind]. destruct (int_pow2 it Wr) as [a Ha]. rewrite Ha. cbn [unwrap obind]. destruct (_ <? _)%N; [done|].
        apply wp_bind. apply (wp_weaken False _ _ (fun r => ext m (snd r) /\ vok (snd r) (TInt it) (fst r))); [|done|].
        { eapply typed_load_safe; [done|done|exact Wr|by apply sized_tsize|apply Hp]. }
        intros [v m'] [Hx Hv']. cbn [fst snd wp] in *. destruct (value_eqb _ _); [|apply ext_ires; [done|done|by apply vok_wgood]].
        apply wp_bind. eapply wp_mono; [eapply typed_store_good; [done|apply Hx|exact Wr|by eapply ext_good_val|]|].
        { eapply thin_in_mono; [|apply Hp]. exact (ex_prov _ _ _ _ _ _ Hx). }
        intros m'' Hx'. cbn [wp]. apply ext_ires; [done|by eapply ext_trans|]. apply vok_wgood. by eapply ext_value.
      - (* fetch *) destruct args as [|[pv pt] [|[ov ot] [|]]] eqn:Eargs; try done. destruct pv as [| |[ptr [|]]| | |]; try done.
        case_bool_decide as Hc; [|done]. cbn [negb]. subst ot. destruct ret_ty as [it| | | | | | | | ] eqn:Er; try done.
        inversion Hargs as [|? ? (_ & _ & (_ & Hp & _)) Hargs']; subst. inversion Hargs' as [|? ? (_ & _ & Hv) _]; subst. cbn [fst snd] in *.
        rewrite (sized_tsize _ _ Sr). cbn [obind]. destruct (int_pow2 it Wr) as [a Ha]. rewrite Ha. cbn [unwrap obind]. destruct (_ <? _)%N; [done|].
        apply wp_bind. apply (wp_weaken False _ _ (fun r => (ext m (snd r) /\ vok (snd r) (TInt it) (fst r)) /\ typed_load T MO m ptr (TInt it) a Atomic = Ret r)); [|done|].
        { apply wp_eq. eapply typed_load_safe; [done|done|exact Wr|by apply sized_tsize|apply Hp]. }
        intros [v m'] [[Hx Hv'] Hld]. cbn [fst snd wp] in *. destruct (lax_int _ _ _ _ (proj1 Hv)) as (oi & -> & _).
        destruct Hv' as [Hv' _]. pose proof Hv' as Hv''. apply check_value_shape, shape_int in Hv'' as (pi & -> & _).
        specialize (Hop _ eq_refl).
        assert (Hop' : eval_int_bin_op o pi oi it = Ret (fetch_result o pi oi)) by (by destruct o). rewrite Hop'. cbn [obind].
        apply wp_bind. eapply wp_mono; [eapply typed_store_wgood; [apply Hx|exact Wr| |]|].
        { split; [done|]. destruct (can_represent it (fetch_result o pi oi)) eqn:Ec; [right; cbn; by rewrite Ec|left].
          by eapply Hfetch. }
        { eapply thin_in_mono; [|apply Hp]. exact (ex_prov _ _ _ _ _ _ Hx). }
        intros m'' Hx'. cbn [wp]. apply ext_ires; [done|by eapply ext_trans|]. split; [done|]. right. exact Hv'.
      - (* acquire *) destruct args as [|[[id| | | | |] t] [|]]; try done. apply wp_bind. eapply wp_mono; [apply Hunit|]. intros [] ->.
        apply wp_bind. unfold lock_acquire. destruct (list_get _ _) as [[|o]|]; [| |done].
        + cbn [wp]. same_mem_tac. by apply unit_wgood.
        + destruct Hf as [g Hg]. destruct (cur_frame_inv _ _ Hg) as (a & r & Ha & Hs). unfold active_thread. rewrite Ha. cbn [unwrap obind wp].
          same_mem_tac; [by apply keep_thread|by apply unit_wgood].
      - (* release *) destruct args as [|[[id| | | | |] t] [|]]; try done. apply wp_bind. eapply wp_mono; [apply Hunit|]. intros [] ->.
        apply wp_bind. unfold lock_release. destruct (list_get _ _) as [[|o]|]; [done| |done]. destruct (negb _); [done|].
        destruct (some_thread_in _ _).
        + destruct cs as [|[|i|] cs]; try done. cbn [pick_thread]. destruct (thread_in m _ i) eqn:Et; [|done]. cbn [obind].
          unfold thread_in in Et. destruct (m_threads m !! i) as [ti|] eqn:Hi; [|done]. cbn [unwrap obind wp].
          same_mem_tac; [by apply keep_thread|by apply unit_wgood].
        + cbn [wp]. same_mem_tac. by apply unit_wgood.
      - (* create *) destruct args as [|]; try done. destruct ret_ty as [it| | | | | | | | ] eqn:Er; try done. cbn [lock_create wp].
        same_mem_tac. apply num_wgood. by apply Hnum.
      - (* expose *) destruct args as [|[[| |[ptr [|]]| | |] t] [|]]; try done. case_bool_decide as Hr; [|done]. cbn [negb wp]. subst ret_ty.
        inversion Hargs as [|? ? (_ & _ & Hg) _]; subst. cbn [fst snd] in Hg.
        apply keep_ires; try done.
        + cbn. unfold ipc_expose. destruct (tp_prov ptr) as [pr'|] eqn:Epr; [|by left]. intros pr Hpr. apply elem_of_cons in Hpr as [->|Hpr]; [right|by left].
          destruct Hg as (_ & [Hg _] & _). by apply Hg.
        + split; [done|]. right. cbn. apply good_addr in Hg. unfold can_represent. cbn. apply (in_bounds_usize T) in Hg. by rewrite Hg.
      - (* with exposed *) destruct args as [|[[i| | | | |] t] [|]] eqn:Eargs; try done. destruct ret_ty as [ | |pt| | | | | | ] eqn:Er; try done.
        case_bool_decide as Hk; [done|]. apply wp_bind. apply wp_safe; [by destruct cs as [|[]]|]. intros [pr cs1] _.
        apply wp_bind. unfold ipc_int2ptr. destruct (match pr with Some _ => _ | None => _ end) eqn:Epr; [|done]. cbn [wp].
        inversion Hargs as [|? ? (_ & _ & Hg) _]; subst. cbn [fst snd] in Hg.
        apply ext_ires; [done|done|]. split.
        + split; [|done]. intros q [= ->]. apply existsb_exists in Epr as (q' & Hin & Eq). apply bool_decide_eq_true in Eq as ->.
          pose proof (si_exposed _ _ _ _ _ Hm) as Hex. rewrite List.Forall_forall in Hex. by apply Hex.
        + destruct Hg as (Hl & _ & [HE|Hsh]); [by left|]. right. inversion Hl as [it i' Hc| | | | | |]; subst.
          cbn [check_value widen]. apply plain_check; [done|by apply Hplain|]. cbn [tp_addr]. eapply Haddr; [by left|].
          apply shape_int in Hsh as (i' & [= ->] & Hsh). exact Hsh.
      - (* payload *) destruct args as [|]; try done. destruct ret_ty as [ | |pt| | | | | | ] eqn:Er; try done.
        case_bool_decide as Hk; [done|]. destruct Hf as [g Hg]. destruct (cur_frame_inv _ _ Hg) as (a & r & Ha & Hs). unfold active_thread. rewrite Ha. cbn [unwrap obind].
        destruct (t_payloads a) as [|p ps] eqn:Ep; [done|]. cbn [head wp].
        assert (Hp : good_ptr m p).
        { apply (si_ptrs _ _ _ _ _ Hm). apply (hp_payload _ _ (m_active m) (tctl a)); [by rewrite ctl_thread, Ha|]. cbn. rewrite Ep. by left. }
        apply ext_ires; [by exists g|done|]. split; [split; [apply Hp|done]|]. right. cbn [check_value]. apply plain_check; [done|by apply Hplain|apply Hp].
    Qed.
  End Intrinsic.
End SafeIntr.
