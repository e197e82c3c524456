(** Evaluation of well-formed expressions: no panic without a cause, and the result has the static type. *)
From Verif Require Export SafeVal.
From stdpp Require Import relations.
From Coq Require Import ZifyBool ZifyN ZifyNat.
Local Open Scope Z_scope.

Lemma Forall_exists_Forall2 {A B} (R : A -> B -> Prop) l : Forall (fun a => exists b, R a b) l -> exists l', Forall2 R l l'.
Proof. induction 1 as [|a l [b Hb] _ [l' IH]]; [by exists []|]. exists (b :: l'). by constructor. Qed.

Lemma Forall2_or {A B} (E : Prop) (R : A -> B -> Prop) l k : Forall2 (fun a b => E \/ R a b) l k -> E \/ Forall2 R l k.
Proof. induction 1 as [|a b l k [?|Hab] _ [?|IH]]; [by right; constructor|by left..|]. right. by constructor. Qed.

Lemma map_st_snoc {S A B} (f : S -> A -> Outcome (B * S)) l x s0 ys s1 y s2 :
  map_st f l s0 = Ret (ys, s1) -> f s1 x = Ret (y, s2) -> map_st f (l ++ [x]) s0 = Ret (ys ++ [y], s2).
Proof.
  revert s0 ys. induction l as [|a l IH]; intros s0 ys H1 H2; cbn in *.
  - injection H1 as <- <-. by rewrite H2.
  - apply obind_ret in H1 as ([b s3] & Hb & H1). apply obind_ret in H1 as ([bs s4] & Hbs & [= <- <-]). rewrite Hb. cbn.
    by rewrite (IH _ _ Hbs H2).
Qed.

Section SafeEval.
  Context {PE AE F : Type} `{EqDecision (nat * PE)}.
  Variable T : Target.
  Variable MO : MemOps (nat * PE) F (BMem PE AE).
  Variable SM : safe_mem T MO.
  Hypothesis Tok : target_ok T.
  Hypothesis Std : target_std T.
  Variable prog : Program.
  Hypothesis Hmeth : methods_exist prog.
  Notation P := (nat * PE)%type.
  Notation Mach := (Machine P F (BMem PE AE)).
  Notation BL := (sm_like SM).
  Notation sinv := (sinv T MO SM prog).
  Notation ext := (ext T MO SM prog).
  Notation vok := (vok T MO SM).
  Notation prov_ok := (prov_ok T MO SM).
  Notation good_ptr := (good_ptr T MO SM).
  Notation wfT ty := (ty_check_wf T any_trait ty = Ret tt).
  Notation good := (good T MO SM).

  Lemma good_weaken (E1 E2 : Prop) m ty v : (E1 -> E2) -> good E1 m ty v -> good E2 m ty v.
  Proof. intros H (H1 & H2 & H3). split_and!; [done|done|]. destruct H3; auto. Qed.

  (** ** Retags *)

  Lemma layout_pt ht pt pi : ptrtype_check_wf T ht pt = Ret tt -> safe_pointee pt = Some pi ->
    layout_check_wf T ht (pi_layout pi) = Ret tt /\ cells_check_wf (pi_cells pi) (pi_layout pi) = Ret tt /\ ptr_meta_kind pt = layout_meta_kind (pi_layout pi).
  Proof.
    intros Hw Hsp. destruct pt; cbn in Hsp; try done; injection Hsp as <-; cbn in Hw |- *;
      unfold pointee_check_wf in Hw; apply obind_ret in Hw as ([] & Hw & ?); done.
  Qed.
  Lemma pointee_total ht m pt pi p : sinv m -> ptrtype_check_wf T ht pt = Ret tt -> safe_pointee pt = Some pi ->
    check_ptr T (chk_env MO m) p pt = Ret tt ->
    exists s a, compute_size_and_align (pi_layout pi) (p_meta p) (vtable_lookup m) = Ret (s, a).
  Proof.
    intros Hm Hw Hsp Hc. destruct (layout_pt _ _ _ Hw Hsp) as (Hl & _ & Hk).
    destruct (check_ptr_meta T Tok _ _ _ Hc) as [_ Hme]. rewrite Hk in Hme. apply valid_meta_ok in Hme.
    pose proof (env_ok T MO SM prog m Hm) as He.
    apply (compute_size_and_align_total (chk_env MO m)). by eapply meta_ok_layout.
  Qed.
  Lemma retag_pre_ok ht m p pt : sinv m -> ptrtype_check_wf T ht pt = Ret tt -> check_ptr T (chk_env MO m) p pt = Ret tt ->
    retag_pre p pt (vtable_lookup m).
  Proof.
    intros Hm Hw Hc. split.
    - intros q vt Hq. apply lookup_from in Hq. pose proof (vtable_wf T MO SM prog m _ _ Hm Hq) as Hv.
      unfold vtable_check_wf in Hv. apply obind_ret in Hv as ([] & _ & Hv). by apply obind_ret in Hv as ([] & ? & _).
    - intros pi Hsp. destruct (layout_pt _ _ _ Hw Hsp) as (_ & Hce & _). split; [done|]. by eapply pointee_total.
  Qed.
  Lemma same_target_deref (m m' : Mach) p q n : mview m' = mview m -> same_target p q ->
    cm_deref MO (m_mem m) p n = Ret tt -> cm_deref MO (m_mem m') q n = Ret tt.
  Proof.
    intros Hv [Ha Hp] Hd. apply (grows_deref T MO SM m m'); [by apply grows_view|].
    unfold cm_deref in *. rewrite (bl_deref _ _ BL) in *. apply obind_ret in Hd as (o & Hc & _).
    unfold bm_check_ptr in *. destruct (n =? 0)%N; [done|]. rewrite <- Ha.
    destruct (tp_prov p) as [[i pe]|], (tp_prov q) as [[j pe']|]; try done. subst j.
    destruct (cm_mem (m_mem m) !! i) as [a|]; [|done]. cbn [unwrap obind] in *.
    destruct (negb _); [done|]. destruct (_ || _); [done|]. apply obind_ret in Hc as (off & Hoff & _). rewrite Hoff. done.
  Qed.
  Lemma retag_check ht m m' p q pt : sinv m -> ext m m' -> ptrtype_check_wf T ht pt = Ret tt -> p_meta q = p_meta p -> same_target (p_thin p) (p_thin q) ->
    (safe_pointee pt = None -> q = p) -> check_ptr T (chk_env MO m) p pt = Ret tt -> check_ptr T (chk_env MO m') q pt = Ret tt.
  Proof.
    intros Hm Hx Hw Hme Htg Hraw Hc. pose proof (ex_quiet _ _ _ _ _ _ Hx) as [Hs Hv].
    assert (Hc' : check_ptr T (chk_env MO m') p pt = Ret tt).
    { apply (grows_value T MO SM Tok m m' (TPtr pt) (VPtr p)); [by apply grows_view|by apply same_vts|by apply same_prog|done]. }
    destruct (safe_pointee pt) as [pi|] eqn:Hsp; [|by rewrite (Hraw eq_refl)].
    assert (Hd : forall n, cm_deref MO (m_mem m') (p_thin p) n = Ret tt -> cm_deref MO (m_mem m') (p_thin q) n = Ret tt).
    { intros n. by apply same_target_deref. }
    apply (check_ptr_iff T Tok). apply (check_ptr_iff T Tok) in Hc'. destruct Htg as [Ha _]. destruct pt; cbn in Hsp; try done; injection Hsp as ->.
    - inversion Hc' as [| | |? ? ? H1 H2 (s & a & P1 & P2 & P3 & P4 & P5 & P6)|]; subst. constructor; rewrite ?Hme, <- ?Ha; try done.
      exists s, a. rewrite Hme, <- Ha. split_and!; try done. by apply Hd.
    - inversion Hc' as [| | | |? ? H1 H2 (s & a & P1 & P2 & P3 & P4 & P5 & P6)]; subst. constructor; rewrite ?Hme, <- ?Ha; try done.
      exists s, a. rewrite Hme, <- Ha. split_and!; try done. by apply Hd.
  Qed.
  (** the retag of a well-formed pointer *)
  Lemma retag_safe ht m f ptr pt fe : sinv m -> cur_frame m = Ret f -> ptrtype_check_wf T ht pt = Ret tt -> ptr_in (prov_ok m) ptr ->
    check_ptr T (chk_env MO m) ptr pt = Ret tt ->
    wp (sm_bad SM (memof m) ptr pt (vtable_lookup m)) (retag_ptr MO m ptr pt fe) (fun r =>
      ext m (snd r) /\ vok (snd r) (TPtr pt) (VPtr (fst r))).
  Proof.
    intros Hm Hf Hw Hin Hc.
    eapply wp_mono; [apply wp_eq, (retag_ptr_safe T MO SM prog m f); [done..|by eapply retag_pre_ok]|].
    intros [q m'] [(Hx & Hq & Hme & Htg) Er]. cbn [fst snd] in *. split; [done|]. split; [|exact Hq].
    cbn [check_value]. eapply retag_check; [exact Hm|done|exact Hw|done|done| |done].
    intros Hsp. unfold retag_ptr in Er. rewrite Hf in Er. cbn [obind] in Er. unfold cm_retag in Er. rewrite (sm_raw _ _ SM _ _ _ _ _ _ Hsp) in Er.
    cbn [obind] in Er. by apply obind_ret in Er as (? & _ & [= <- _]).
  Qed.

  (** ** Discriminants *)

  Lemma load_accessor_safe m ptr off n : sinv m -> good_ptr m ptr ->
    wp False (load_accessor T MO ptr m off n) (fun r => ext m (snd r) /\ N.of_nat (length (fst r)) = n).
  Proof.
    intros Hm Hp. unfold load_accessor. apply wp_bind. eapply wp_mono; [by apply (ptr_offset_safe T MO SM Tok prog)|].
    intros q [[Hq _] _]. apply wp_bind. eapply wp_mono; [by apply (cm_load_safe T MO SM prog)|].
    intros [b mem] (Hx & _ & Hl). done.
  Qed.
  Lemma decode_discr_safe size vs d m ptr : sinv m -> good_ptr m ptr -> discr_check_wf size vs d = Ret tt ->
    wp False (decode_discriminant T (load_accessor T MO ptr) d m) (fun r => ext m (snd r) /\
      forall x, fst r = Some x -> exists y, map_get vs x = Some y).
  Proof.
    revert m. induction d as [d| |o it fb ch IHf IHc] using Discriminator_ind'; intros m Hm Hp Hw; cbn.
    - split; [by apply ext_refl|]. intros x [= <-]. apply ensure_wf_ret in Hw. unfold map_contains in Hw.
      destruct (map_get vs d); [eauto|done].
    - split; [by apply ext_refl|]. done.
    - apply discr_wf_branch in Hw as (_ & _ & Hfb & Hch).
      apply wp_bind. eapply wp_mono; [by apply load_accessor_safe|]. intros [bytes m1] [Hx Hl]. cbn [fst snd] in *.
      destruct (decode_int_total T it bytes Hl) as [o' Ho]. rewrite Ho. cbn [obind].
      destruct o' as [v|]; [|split; [exact Hx|done]].
      assert (Hm1 : sinv m1) by apply Hx. assert (Hp1 : good_ptr m1 ptr) by (by eapply ext_good).
      destruct (find_child _ _ _) as [r|] eqn:Ef.
      + apply find_child_in in Ef as (rg & c & Hin & _ & ->). rewrite List.Forall_forall in IHc. rewrite List.Forall_forall in Hch.
        eapply wp_mono; [apply (IHc (rg, c) Hin m1 Hm1 Hp1 (Hch _ Hin))|]. intros r [H1 H2]. split; [by eapply ext_trans|done].
      + eapply wp_mono; [by apply (IHf m1)|]. intros r [H1 H2]. split; [by eapply ext_trans|done].
  Qed.

  (** ** Places *)

  Definition place_ok (m : Mach) (ty : Ty) (p : Place P) : Prop :=
    good_ptr m (p_thin (pl_ptr p)) /\ meta_in (prov_ok m) (p_meta (pl_ptr p)) /\
    valid_meta T (chk_env MO m) (ty_meta_kind ty) (p_meta (pl_ptr p)).
  Lemma ext_meta m m' mk me : ext m m' -> valid_meta T (chk_env MO m) mk me -> valid_meta T (chk_env MO m') mk me.
  Proof.
    intros Hx H. destruct H as [|c Hc|tn p Ha (vt & Hv & Ht)]; constructor; try done.
    exists vt. split; [|done]. cbn in *. by rewrite (ext_from T MO SM prog m m' p Hx).
  Qed.
  Lemma ext_meta_in m m' me : ext m m' -> meta_in (prov_ok m) me -> meta_in (prov_ok m') me.
  Proof. intros Hx. destruct me as [[]|]; try done. cbn. apply thin_in_mono, Hx. Qed.
  Lemma ext_place m m' ty p : ext m m' -> place_ok m ty p -> place_ok m' ty p.
  Proof. intros Hx (H1 & H2 & H3). split_and!; [by eapply ext_good|by eapply ext_meta_in|by eapply ext_meta]. Qed.
  Lemma sized_meta ht ty : ty_check_wf T ht ty = Ret tt -> sized T ty -> ty_meta_kind ty = MKNone.
  Proof. intros Hw (s & a & Hl). destruct (wf_layout T ht ty Hw) as (l & Hl' & _ & _ & <-). by rewrite Hl in Hl'; injection Hl' as <-. Qed.

  Lemma place_size ht m ty pl : sinv m -> ty_check_wf T ht ty = Ret tt -> place_ok m ty pl ->
    exists l s a, layout T ty = Ret l /\ layout_meta_kind l = ty_meta_kind ty /\
      compute_size_and_align l (p_meta (pl_ptr pl)) (vtable_lookup m) = Ret (s, a).
  Proof.
    intros Hm Hw (_ & _ & Hme). apply valid_meta_ok in Hme. pose proof (env_ok T MO SM prog m Hm) as He.
    destruct (size_align_total T _ _ He ht ty _ Hw Hme) as (l & s & a & H1 & H2 & H3). eauto 10.
  Qed.

  Lemma list_get_in {A} (l : list A) i x : list_get l i = Some x -> In x l.
  Proof. unfold list_get. destruct (i <? 0); [done|]. intros H. apply elem_of_list_In. by eapply elem_of_list_lookup_2. Qed.
  Lemma list_get_some {A} (l : list A) i : 0 <= i -> i < Z.of_nat (length l) -> exists x, list_get l i = Some x.
  Proof.
    intros H1 H2. unfold list_get. destruct (Z.ltb_spec i 0); [lia|].
    destruct (lookup_lt_is_Some_2 l (Z.to_nat i)) as [x Hx]; [lia|]. eauto.
  Qed.
  (** the type of a field, as in place_check_wf *)
  Definition field_ty (ty : Ty) (field : Z) : option Ty :=
    match ty with
    | TTuple fields _ unsized =>
        if (0 <=? field) && (field <? Z.of_nat (length fields)) then option_map snd (list_get fields field)
        else if field =? Z.of_nat (length fields) then unsized else None
    | TUnion fields _ _ _ => option_map snd (list_get fields field)
    | _ => None
    end.
  Lemma field_of_safe m ty pl f fty : sinv m -> wfT ty -> place_ok m ty pl -> field_ty ty f = Some fty ->
    exists off l s a fl, field_of T MO m ty (p_meta (pl_ptr pl)) f = Ret (off, fty) /\ layout T ty = Ret l /\
      compute_size_and_align l (p_meta (pl_ptr pl)) (vtable_lookup m) = Ret (s, a) /\ (off <= s)%N /\
      layout T fty = Ret fl /\ wfT fty /\
      valid_meta T (chk_env MO m) (ty_meta_kind fty) (if is_sized fl then None else p_meta (pl_ptr pl)).
  Proof.
    intros Hm Hw Hp Hf. pose proof Hp as (_ & _ & Hme).
    destruct (place_size _ _ _ _ Hm Hw Hp) as (l & s & a & Hl & Hk & Hc).
    assert (Hpart : forall o t, part T ty o t -> sized T ty ->
      exists fl, (o <= s)%N /\ layout T t = Ret fl /\ is_sized fl = true).
    { intros o t Hpa (s0 & a0 & Hl0). rewrite Hl in Hl0. injection Hl0 as ->.
      destruct (part_inside T any_trait ty s0 a0 o t Hw Hl Hpa) as (s' & a' & Hl' & Hle).
      destruct (p_meta (pl_ptr pl)) as [[]|]; try done. cbn in Hc. injection Hc as <- <-. exists (LSized s' a'). split; [lia|done]. }
    destruct ty as [| | |fields h u| | |fields ch us ua| |]; try done; cbn [field_ty] in Hf.
    - pose proof (wf_tuple T any_trait _ _ _ Hw) as (Hff & _ & _ & Hu & _). cbn [field_of].
      destruct ((0 <=? f) && (f <? Z.of_nat (length fields))) eqn:Eb.
      + destruct (list_get fields f) as [[o t]|] eqn:Eg; [|done]. injection Hf as <-. cbn [unwrap snd].
        pose proof (list_get_in _ _ _ Eg) as Hin. rewrite List.Forall_forall in Hff. destruct (Hff _ Hin) as (Hwt & Hst & Hle). cbn [fst snd] in *.
        assert (Hkt : ty_meta_kind t = MKNone) by (by eapply sized_meta). destruct u as [u|].
        * cbn [layout] in Hl. apply obind_ret in Hl as (tl & Htl & [= <-]). destruct Hst as (ts & ta & Hlt).
          destruct (p_meta (pl_ptr pl)) as [me|] eqn:Epm; [|done].
          pose proof Hc as Hc'. cbn [compute_size_and_align] in Hc'. apply obind_ret in Hc' as ([st sa] & Hct & _).
          destruct (tail_inside h tl me (vtable_lookup m) s a st sa Hc Hct) as ((H1 & H2 & _) & _).
          exists o, (LTuple h tl), s, a, (LSized ts ta). split_and!; try done.
          -- cbn [layout]. by rewrite Htl.
          -- lia.
          -- cbn [is_sized]. rewrite Hkt. constructor.
        * destruct (Hpart o t) as (fl & H1 & H2 & H3); [by constructor|apply tuple_sized|].
          exists o, l, s, a, fl. split_and!; try done. rewrite H3, Hkt. constructor.
      + destruct (f =? Z.of_nat (length fields)); [|done]. subst u. cbn [unwrap obind].
        destruct (Hu _ eq_refl) as [Hwt Hns].
        cbn [layout] in Hl |- *. apply obind_ret in Hl as (tl & Htl & [= <-]). rewrite Htl. cbn [obind].
        destruct (p_meta (pl_ptr pl)) as [me|] eqn:Epm; [|done].
        pose proof Hc as Hc'. cbn [compute_size_and_align] in Hc'. apply obind_ret in Hc' as ([st sa] & Hct & _).
        destruct (tail_inside h tl me (vtable_lookup m) s a st sa Hc Hct) as ((H1 & H2 & _) & _).
        assert (Hca : compute_align (chk_env MO m) tl (Some me) = Ret sa) by (unfold compute_align; cbn [chk_env ce_vtable_lookup]; by rewrite Hct).
        exists (tail_offset h sa), (LTuple h tl), s, a, tl. rewrite Hca. cbn [obind]. split_and!; try done; [lia|].
        by destruct tl.
    - destruct (list_get fields f) as [[o t]|] eqn:Eg; [|done]. injection Hf as <-. cbn [field_of]. rewrite Eg. cbn [unwrap snd].
      pose proof (list_get_in _ _ _ Eg) as Hin. pose proof (wf_union T any_trait _ _ _ _ Hw) as (Hff & _).
      rewrite List.Forall_forall in Hff. destruct (Hff _ Hin) as (Hwt & Hst & Hle). cbn [fst snd] in *.
      destruct (Hpart o t) as (fl & H1 & H2 & H3); [by constructor|apply union_sized|].
      exists o, l, s, a, fl. split_and!; try done. rewrite H3, (sized_meta _ _ Hwt Hst). constructor.
  Qed.

  Lemma index_safe m ty pl elem : sinv m -> wfT ty -> place_ok m ty pl -> (ty = TSlice elem \/ exists n, ty = TArray elem n) ->
    exists count l s a es, (match ty, p_meta (pl_ptr pl) with
      | TArray elem count, _ => Ret (elem, count)
      | TSlice elem, Some (MElementCount count) => Ret (elem, count)
      | _, _ => Panic end = Ret (elem, count)) /\ layout T ty = Ret l /\
      compute_size_and_align l (p_meta (pl_ptr pl)) (vtable_lookup m) = Ret (s, a) /\ size_of T elem = Ret es /\
      Z.of_N es * count = Z.of_N s /\ wfT elem /\ ty_meta_kind elem = MKNone.
  Proof.
    intros Hm Hw Hp Hty. pose proof Hp as (_ & _ & Hme).
    destruct (place_size _ _ _ _ Hm Hw Hp) as (l & s & a & Hl & Hk & Hc).
    destruct Hty as [->|[n ->]].
    - destruct (wf_slice T any_trait _ Hw) as [Hwe Hse]. cbn [ty_meta_kind] in Hme. inversion Hme as [|c Hcc E1 E2|]; subst.
      rewrite <- E2 in *. exists c, l, s, a, (tsize T elem). pose proof Hl as Hl0. destruct Hse as (es & ea & Hle).
      cbn [layout] in Hl. rewrite Hle in Hl. cbn in Hl. injection Hl as <-. cbn [compute_size_and_align] in Hc.
      apply obind_ret in Hc as (s' & Hs' & [= -> ->]). unfold size_mul, size_from_bytes in Hs'.
      assert (Ht : tsize T elem = es) by (apply size_of_tsize; unfold size_of; by rewrite Hle).
      destruct (Z.ltb_spec (Z.of_N es * c) 0); [done|]. injection Hs' as <-.
      split_and!; try done.
      + cbn [compute_size_and_align]. unfold size_mul, size_from_bytes. destruct (Z.ltb_spec (Z.of_N es * c) 0); [lia|]. done.
      + apply sized_tsize. by eexists _, _.
      + lia.
      + eapply sized_meta; [exact Hwe|by eexists _, _].
    - destruct (wf_array T any_trait _ _ Hw) as (Hn & Hwe & Hse & Hsa & Hz).
      exists n, l, s, a, (tsize T elem). split_and!; try done.
      + by apply sized_tsize.
      + destruct Hsa as (s0 & a0 & Hl0). rewrite Hl in Hl0. injection Hl0 as ->.
        assert (Ht : tsize T (TArray elem n) = s0) by (apply size_of_tsize; unfold size_of; by rewrite Hl).
        destruct (p_meta (pl_ptr pl)) as [[]|]; try done. injection Hc as <- <-. lia.
      + by eapply sized_meta.
  Qed.

  (** ** Expressions *)

  Variable locals : list (LocalName * Ty).
  Hypothesis Hlocals : forall n ty, map_get locals n = Some ty -> wfT ty /\ sized T ty.
  Notation vwf := (value_check_wf T prog locals).
  Notation pwf := (place_check_wf T prog locals).
  Notation gap := (gap_free T prog locals).
  Notation cause := (expr_cause T MO (sm_bad SM)).

  (** the current frame has these locals *)
  Definition here (m : Mach) : Prop := exists f, cur_frame m = Ret f /\ fn_locals (f_func f) = locals.
  Lemma ext_here m m' : ext m m' -> here m -> here m'.
  Proof.
    intros Hx (f & Hf & Hl). pose proof (ex_quiet _ _ _ _ _ _ Hx) as [Hs _].
    destruct (same_frame m m' f Hs Hf) as (f' & Hf' & Ec). exists f'. split; [done|].
    assert (f_func f' = f_func f) as -> by (change (fc_func (fctl f') = fc_func (fctl f)); by rewrite Ec). done.
  Qed.
  Lemma cur_local m f n p : sinv m -> cur_frame m = Ret f -> map_get (f_locals f) n = Some p -> good_ptr m p.
  Proof.
    intros Hm Hf Hg. unfold cur_frame, active_thread in Hf. apply obind_ret in Hf as (t & Ht & Hf). apply unwrap_ret in Ht, Hf.
    apply (si_ptrs _ _ _ _ _ Hm). destruct (t_stack t) as [|f0 r] eqn:Es; [done|]. injection Hf as ->.
    apply (hp_local _ _ (m_active m) (tctl t) 0%nat (fctl f) n).
    - cbn [ctl c_threads]. change (List.map tctl (m_threads m)) with (tctl <$> m_threads m). by rewrite list_lookup_fmap, Ht.
    - cbn [tctl tc_stack]. by rewrite Es.
    - by apply map_get_in.
  Qed.
  Lemma cause_sub m e m1 e1 : runs T MO m e m1 e1 -> cause m1 e1 -> cause m e.
  Proof. intros Hr (m2 & e2 & He & Hc). exists m2, e2. split; [by eapply ev_below|done]. Qed.

  Definition vres (E : Prop) (m : Mach) (ty : Ty) (r : Value P * Ty * Mach) : Prop :=
    snd (fst r) = ty /\ good E (snd r) ty (fst (fst r)) /\ ext m (snd r).
  Definition pres (m : Mach) (ty : Ty) (r : Place P * Ty * Mach) : Prop :=
    snd (fst r) = ty /\ place_ok (snd r) ty (fst (fst r)) /\ ext m (snd r).

  Lemma vres_weaken (E E' : Prop) m ty r : (E -> E') -> vres E m ty r -> vres E' m ty r.
  Proof. intros HE (H1 & H2 & H3). split_and!; [done|by eapply good_weaken|done]. Qed.

  Lemma eval_constant_safe E m c ty : sinv m -> ty_check_wf T (has_trait prog) ty = Ret tt -> constant_check_wf T prog c ty = Ret tt ->
    no_gap T prog locals (inl (EConstant c ty)) -> wp E (eval_constant T m c) (good E m ty).
  Proof.
    intros Hm Hw Hc Hg. pose proof (si_names _ _ _ _ _ Hm) as Hn.
    destruct c as [i|b|r|fn|vn|addr]; destruct ty as [it| |pt| | | | | |]; try done; cbn in Hc, Hg |- *.
    - apply ensure_wf_ret in Hc. by apply good_int.
    - apply good_bool.
    - destruct Hg as (pt' & [= <-] & Hpl). unfold reloc_check_wf in Hc. destruct (map_get (pr_globals prog) (r_name r)) as [g|] eqn:Eg; [|done].
      destruct (nk_global _ _ Hn _ _ Eg) as (p & Hp). cbn in Hp. rewrite Hp. cbn.
      destruct (si_ptrs _ _ _ _ _ Hm p) as [H1 H2]; [apply (hp_global _ _ (r_name r)); by apply map_get_in|].
      apply good_pointer; [|split; done]. apply plain_check; [done|done|].
      apply (in_bounds_usize T), bring_in_bounds_in.
    - apply obind_ret in Hc as ([] & Hpt & Hc). apply ensure_wf_ret in Hpt, Hc. apply bool_decide_eq_true in Hpt as ->.
      unfold map_contains in Hc. destruct (map_get (pr_functions prog) fn) as [f|] eqn:Ef; [|done].
      destruct (nk_fn _ _ Hn _ _ Ef) as (p & Hp). cbn in Hp. rewrite Hp. cbn.
      destruct (si_ptrs _ _ _ _ _ Hm p) as [H1 H2]; [apply (hp_fn _ _ fn); by apply map_get_in|].
      apply good_pointer; [|split; done]. apply plain_check; [done|by right|done].
    - destruct (map_get (pr_vtables prog) vn) as [vt|] eqn:Ev; [|done]. apply ensure_wf_ret, bool_decide_eq_true in Hc as ->.
      destruct (nk_vt _ _ Hn _ _ Ev) as (p & Hp & Hfind). cbn in Hp, Hfind. rewrite Hp. cbn.
      destruct (si_ptrs _ _ _ _ _ Hm p) as [H1 H2]; [apply (hp_vt _ _ vn); by apply map_get_in|].
      apply good_pointer; [|split; done]. apply (check_ptr_iff T Tok). constructor; [done|done|].
      exists vt. split; [|done]. cbn. unfold vtable_from_ptr. rewrite Hfind. cbn [fst]. rewrite (si_prog _ _ _ _ _ Hm), Ev. done.
    - destruct Hg as (pt' & [= <-] & Hpl). apply ensure_wf_ret in Hc.
      apply good_pointer; [|split; done]. apply plain_check; [done|done|]. by apply (in_bounds_usize T).
  Qed.

  Lemma map_st_safe m ty es tys :
    Forall (fun e => forall m ty, sinv m -> here m -> vwf e = Ret ty -> gap (inl e) ->
      wp (cause m (inl e)) (eval_value T MO e m) (vres (cause m (inl e)) m ty)) es ->
    Forall2 (fun e t => vwf e = Ret t) es tys -> Forall (fun e => gap (inl e)) es ->
    forall es1 vs1 m1, let E := cause m (inl (ETuple (es1 ++ es) ty)) in
    map_st (fun m e => eval_value T MO e m) es1 m = Ret (vs1, m1) -> sinv m1 -> here m1 ->
    wp E (map_st (fun m e => eval_value T MO e m) es m1) (fun r =>
      Forall2 (fun t v => good E (snd r) t (fst v)) tys (fst r) /\ ext m1 (snd r)).
  Proof.
    intros Hes Htys. revert Hes. induction Htys as [|e t es tys He Htys IH]; intros Hes Hgs es1 vs1 m1 E H1 Hm1 Hh1.
    { cbn. split; [constructor|by apply ext_refl]. }
    inversion Hes as [|? ? He' Hes']; subst. inversion Hgs as [|? ? Hg' Hgs']; subst. cbn [map_st].
    assert (Hc : cause m1 (inl e) -> E) by (apply cause_sub; by econstructor).
    apply wp_bind. eapply wp_weaken; [by apply wp_eq, (He' m1 t)|done|].
    intros [[v t'] m2] [(Ht & Hv & Hx) Eq]. cbn [fst snd] in *. subst t'.
    specialize (IH Hes' Hgs' (es1 ++ [e]) (vs1 ++ [(v, t)]) m2). rewrite <- app_assoc in IH. cbn [app] in IH.
    apply wp_bind. eapply wp_mono; [apply IH|].
    - by eapply map_st_snoc.
    - apply Hx.
    - by eapply ext_here.
    - intros [vs m3] [HF Hx']. cbn [fst snd wp] in *. split; [|by eapply ext_trans].
      constructor; [|done]. cbn. eapply (ext_good_val T MO SM Tok prog E m2); [done|]. by eapply good_weaken.
  Qed.

  Lemma good_union E m fields chunks size align f ot e_ty v :
    sinv m -> wfT (TUnion fields chunks size align) -> list_get fields f = Some ot -> snd ot = e_ty -> good E m e_ty v ->
    wp E (let! bytes := encode T e_ty v in
          let! data := write_subslice (list_repeat Uninit size) (fst ot) bytes in
          let! o := decode T (TUnion fields chunks size align) data in
          let! u := unwrap o in
          Ret (u, TUnion fields chunks size align, m))
      (fun r => snd (fst r) = TUnion fields chunks size align /\ good E m (TUnion fields chunks size align) (fst (fst r)) /\ snd r = m).
  Proof.
    intros Hm Hw Hg <- (Hl & Hin & Hsh). set (u := TUnion fields chunks size align) in *. destruct ot as [o t]. cbn [fst snd] in *.
    pose proof (wf_union T any_trait _ _ _ _ Hw) as (Hff & Hch & _). rewrite List.Forall_forall in Hff.
    destruct (Hff _ (list_get_in _ _ _ Hg)) as (Hwt & Hst & Hle). cbn [fst snd] in *.
    apply wp_bind. apply wp_safe.
    { intros Ep. destruct Hsh as [?|Hsh]; [done|]. destruct (encode_total T Tok any_trait t v Hwt Hsh) as (b & Hb & _). congruence. }
    intros b Hb. apply wp_bind. apply wp_safe.
    { intros Ep. destruct Hsh as [?|Hsh]; [done|]. pose proof (encode_length T Tok any_trait t v b Hwt Hsh Hb) as Hlen.
      destruct (write_subslice_total (list_repeat (Uninit (P := P)) size) o b) as [r Hr]; [|congruence].
      unfold list_repeat. rewrite replicate_length. lia. }
    intros data Hd.
    assert (Hlen : N.of_nat (length data) = size).
    { rewrite (write_subslice_length _ _ _ _ Hd). unfold list_repeat. rewrite replicate_length. lia. }
    assert (Ho : exists w, decode T u data = Ret (Some w)).
    { destruct (Forall_exists_Forall2 (fun c d => subslice data (fst c) (snd c) = Ret d) chunks) as [dd HF].
      - eapply Forall_impl; [exact Hch|]. intros c Hc. apply subslice_total. cbn in Hc. lia.
      - exists (VUnion dd). apply decode_union_some. by eauto. }
    destruct Ho as [w Ho]. rewrite Ho. cbn [unwrap obind wp fst snd]. split_and!; [done| |done]. apply vok_good. split.
    - apply check_union_ret. apply decode_union_some in Ho as (_ & dd & -> & HF). exists dd. split; [done|].
      eapply Forall2_impl; [exact HF|]. intros c d Hcd. cbn in Hcd. by apply subslice_length in Hcd.
    - eapply (decode_in T _ Tok any_trait); [exact Hw|exact Ho|]. eapply write_subslice_in; [exact Hd|apply uninit_in|by eapply encode_in].
  Qed.

  Lemma deref_ok m pt pi p : check_ptr T (chk_env MO m) p pt = Ret tt -> safe_pointee pt = Some pi ->
    exists a s, compute_align (chk_env MO m) (pi_layout pi) (p_meta p) = Ret a /\ is_aligned a (tp_addr (p_thin p)) = true /\
      compute_size (chk_env MO m) (pi_layout pi) (p_meta p) = Ret s /\ cm_deref MO (m_mem m) (p_thin p) s = Ret tt.
  Proof.
    intros Hc Hsp. unfold check_ptr in Hc. rewrite Hsp in Hc. apply obind_ret in Hc as ([] & _ & Hc). apply obind_ret in Hc as ([] & _ & Hc).
    apply obind_ret in Hc as (s & Hs & Hc). apply obind_ret in Hc as (a & Ha & Hc). apply obind_ret in Hc as ([] & _ & Hc).
    apply obind_ret in Hc as ([] & _ & Hc). apply obind_ret in Hc as ([] & Hal & Hc). apply obind_ret in Hc as ([] & _ & Hc).
    apply obind_ret in Hc as (b & Hb & Hc). apply ensure_else_ub_ret in Hal, Hc. subst b. exists a, s. split_and!; try done.
    cbn [chk_env ce_deref] in Hb. unfold is_ok in Hb. destruct (cm_deref _ _ _ _) as [[]| | |]; done.
  Qed.

  Lemma eval_safe :
    (forall e m ty, sinv m -> here m -> vwf e = Ret ty -> gap (inl e) ->
      wp (cause m (inl e)) (eval_value T MO e m) (vres (cause m (inl e)) m ty)) /\
    (forall p m ty, sinv m -> here m -> pwf p = Ret ty -> gap (inr p) ->
      wp (cause m (inr p)) (eval_place T MO p m) (pres m ty)).
  Proof.
    destruct (expr_wf T prog Std locals Hlocals) as [Hvt Hpt].
    apply Expr_ind'.
    - intros c ty m ty' Hm Hh Hw Hg. cbn [value_check_wf] in Hw. apply obind_ret in Hw as ([] & H1 & Hw). apply obind_ret in Hw as ([] & H2 & [= <-]).
      cbn [eval_value]. apply wp_bind. eapply wp_mono; [apply eval_constant_safe; [done|exact H1|done|by apply gap_here]|].
      intros v Hv. split_and!; [done|done|by apply ext_refl].
    - intros es ty IH m ty' Hm Hh Hw Hg. cbn [value_check_wf] in Hw. apply obind_ret in Hw as ([] & H1 & Hw). apply obind_ret in Hw as ([] & H2 & [= <-]).
      cbn [eval_value]. apply wp_bind.
      assert (Hgs : Forall (fun e => gap (inl e)) es).
      { rewrite List.Forall_forall. intros e He. eapply gap_child; [exact Hg|by constructor]. }
      assert (Htys : exists tys, Forall2 (fun e t => vwf e = Ret t) es tys /\
        ((exists fields h, ty = TTuple fields h None /\ tys = List.map snd fields) \/
         (exists el n, ty = TArray el n /\ Z.of_nat (length es) = n /\ Forall (eq el) tys))).
      { destruct ty as [| | |fields h u|el n| | | |]; try done.
        - apply obind_ret in H2 as ([] & Hu & H2). apply obind_ret in H2 as ([] & Hl & H2). apply ensure_wf_ret in Hu, Hl.
          apply for_each2_ret in H2; [|lia]. exists (List.map snd fields). split.
          + change (List.map snd fields) with (snd <$> fields). apply Forall2_fmap_r. eapply Forall2_impl; [exact H2|].
            intros e f He. cbn in He. apply obind_ret in He as (t & Ht & He). apply ensure_wf_ret, bool_decide_eq_true in He as ->. done.
          + left. destruct u; [done|]. eauto.
        - apply obind_ret in H2 as ([] & Hl & H2). apply ensure_wf_ret in Hl. apply for_each_ret in H2.
          exists (List.map (fun _ => el) es). split.
          + change (List.map (fun _ => el) es) with ((fun _ => el) <$> es). apply Forall2_fmap_r, Forall_Forall2_diag. eapply Forall_impl; [exact H2|].
            intros e He. cbn in He. apply obind_ret in He as (t & Ht & He). apply ensure_wf_ret, bool_decide_eq_true in He as ->. done.
          + right. exists el, n. split_and!; [done|lia|]. apply List.Forall_map. by apply Forall_true. }
      destruct Htys as (tys & HF & Hty).
      eapply wp_mono; [apply (map_st_safe m ty es tys IH HF Hgs [] [] m); [done..]|].
      intros [vs m1] [HG Hx]. cbn [fst snd app] in *. split_and!; [done| |done]. cbn [fst snd].
      set (E := cause m (inl (ETuple es ty))) in *.
      assert (HG' : Forall2 (fun t v => good E m1 t v) tys (List.map fst vs)) by (change (List.map fst vs) with (fst <$> vs); by apply Forall2_fmap_r).
      clear HG. pose proof (Forall2_length _ _ _ HG') as Hlen. pose proof (Forall2_length _ _ _ HF) as Hlen'.
      assert (Hin : val_in (prov_ok m1) (VTuple (List.map fst vs))).
      { cbn [val_in]. apply all_in_Forall. eapply Forall2_Forall_r; [exact HG'|]. apply Forall_true. by intros f v (_ & H & _). }
      assert (Hsh : E \/ Forall2 (shape T) tys (List.map fst vs)).
      { apply Forall2_or. eapply Forall2_impl; [exact HG'|]. by intros t v (_ & _ & H). }
      destruct Hty as [(fields & h & -> & ->)|(el & n & -> & Hn & Hel)].
      + change (List.map snd fields) with (snd <$> fields) in HG', Hsh. rewrite Forall2_fmap_l in HG'. split_and!; [|done|].
        * constructor. eapply Forall2_impl; [exact HG'|]. by intros f v (H & _).
        * destruct Hsh as [?|Hsh]; [by left|right]. constructor. by rewrite Forall2_fmap_l in Hsh.
      + split_and!; [|done|].
        * constructor; [rewrite <- Hlen; lia|]. eapply Forall2_Forall_r; [exact HG'|]. eapply Forall_impl; [exact Hel|]. intros t <- v (H & _). exact H.
        * destruct Hsh as [?|Hsh]; [by left|right]. constructor; [rewrite <- Hlen; lia|].
          eapply Forall2_Forall_r; [exact Hsh|]. eapply Forall_impl; [exact Hel|]. by intros t <- v H.
    - intros f e ty IH m ty' Hm Hh Hw Hg. cbn [value_check_wf] in Hw. apply obind_ret in Hw as ([] & H1 & Hw).
      assert (Hty : wfT ty) by (by eapply to_any). destruct ty as [| | | | | |fields ch us ua| |]; try done.
      apply obind_ret in Hw as ([] & Hl & Hw). apply obind_ret in Hw as ([o t] & Hf & Hw). apply obind_ret in Hw as (t' & He & Hw).
      apply obind_ret in Hw as ([] & Et & [= <-]). apply ensure_wf_ret, bool_decide_eq_true in Et as ->. apply unwrap_ret in Hf.
      cbn [eval_value]. rewrite Hf. cbn [unwrap obind]. apply wp_bind.
      assert (Hc : cause m (inl e) -> cause m (inl (EUnion f e (TUnion fields ch us ua)))) by (apply cause_sub; constructor).
      eapply wp_weaken; [apply (IH m t); [done..|eapply gap_child; [exact Hg|constructor]]|done|].
      intros [[v t1] m1] (Ht & Hv & Hx). cbn [fst snd] in *. subst t1.
      eapply wp_mono; [apply (good_union _ m1 fields ch us ua f (o, t) t v); [apply Hx|done|done|done|by eapply good_weaken]|].
      intros r (R1 & R2 & R3). split_and!; [done| |]; rewrite R3; done.
    - intros d e ty IH m ty' Hm Hh Hw Hg. cbn [value_check_wf] in Hw. destruct ty as [| | | | | | |vs dty discr s a|]; try done.
      apply obind_ret in Hw as ([] & H1 & Hw). destruct (map_get vs d) as [[t tg]|] eqn:Ed; [|done]. cbn [fst] in Hw.
      apply obind_ret in Hw as (t' & He & Hw). apply obind_ret in Hw as ([] & Et & [= <-]). apply ensure_wf_ret, bool_decide_eq_true in Et as ->.
      cbn [eval_value]. apply wp_bind.
      assert (Hc : cause m (inl e) -> cause m (inl (EVariant d e (TEnum vs dty discr s a)))) by (apply cause_sub; constructor).
      eapply wp_weaken; [apply (IH m t); [done..|eapply gap_child; [exact Hg|constructor]]|done|].
      intros [[v t1] m1] (Ht & (V1 & V2 & V3) & Hx). cbn [fst snd] in *. split_and!; [done| |done]. cbn [fst snd]. split_and!.
      + by econstructor.
      + done.
      + destruct V3 as [?|V3]; [left; auto|right]. by econstructor.
    - intros p IH m ty Hm Hh Hw Hg. cbn [value_check_wf] in Hw. apply obind_ret in Hw as (t & H1 & Hw).
      destruct t as [| | | | | | |vs dty discr s a|]; try done. injection Hw as <-.
      cbn [eval_value]. apply wp_bind.
      assert (Hc : cause m (inr p) -> cause m (inl (EGetDiscriminant p))) by (apply cause_sub; constructor).
      assert (Hgp : gap (inr p)) by (eapply gap_child; [exact Hg|constructor]).
      eapply wp_weaken; [by apply (IH m)|done|].
      intros [[pl t] m1] (Ht & (P1 & P2 & P3) & Hx). cbn [fst snd] in *. subst t. destruct (negb _); [done|].
      apply wp_bind. pose proof (Hpt _ _ H1 Hgp) as Hwt. destruct (wf_enum T any_trait _ _ _ _ _ Hwt) as [HFv Hd].
      eapply wp_weaken; [apply (decode_discr_safe s vs discr m1); [apply Hx|done|done]|done|].
      intros [[x|] m2] [Hx2 Hin]; [|done]. cbn [fst snd] in *. split_and!; [done| |by eapply ext_trans]. cbn [fst snd].
      apply good_int. destruct (Hin x eq_refl) as ([t tg] & Hg2). apply map_get_in in Hg2. rewrite List.Forall_forall in HFv. apply (HFv _ Hg2).
    - intros p IH m ty Hm Hh Hw Hg. cbn [value_check_wf] in Hw. apply obind_ret in Hw as (t & H1 & Hw). apply obind_ret in Hw as (l & Hl & Hw).
      apply obind_ret in Hw as ([] & Hs & [= <-]). apply ensure_wf_ret in Hs.
      cbn [eval_value]. apply wp_bind.
      assert (Hc : cause m (inr p) -> cause m (inl (ELoad p))) by (apply cause_sub; constructor).
      assert (Hgp : gap (inr p)) by (eapply gap_child; [exact Hg|constructor]).
      eapply wp_weaken; [by apply (IH m)|done|].
      intros [[pl t'] m1] (Ht & (P1 & P2 & P3) & Hx). cbn [fst snd] in *. subst t'. unfold place_load. apply wp_bind. destruct (negb _); [done|].
      assert (Hsz : exists s, size_of T t = Ret s) by (destruct l; try done; unfold size_of; rewrite Hl; eauto). destruct Hsz as [s Hsz].
      eapply wp_weaken; [apply (typed_load_safe T MO SM Tok prog any_trait m1 _ t align_one NonAtomic s); [apply Hx|by eapply Hpt|done|apply P1]|done|].
      intros [v m2] [Hx2 Hv]. cbn [fst snd] in *. split_and!; [done| |by eapply ext_trans]. by apply vok_good.
    - intros p pt IH m ty Hm Hh Hw Hg. cbn [value_check_wf] in Hw. apply obind_ret in Hw as ([] & H1 & Hw). apply obind_ret in Hw as (t & Ht & Hw).
      apply obind_ret in Hw as ([] & Hk & [= <-]).
      cbn [eval_value]. apply wp_bind.
      assert (Hc : cause m (inr p) -> cause m (inl (EAddrOf p pt))) by (apply cause_sub; constructor).
      assert (Hgp : gap (inr p)) by (eapply gap_child; [exact Hg|constructor]).
      eapply wp_weaken; [by apply wp_eq, (IH m)|done|].
      intros [[pl t'] m1] [(Ht' & (P1 & P2 & P3) & Hx) Heq]. cbn [fst snd] in *. subst t'. cbn [check_value].
      assert (Hm1 : sinv m1) by apply Hx. assert (Hin : ptr_in (prov_ok m1) (pl_ptr pl)) by (split; [apply P1|exact P2]).
      apply wp_bind. apply wp_ub; [apply (known_ptr_ok T (prov_ok m1) (has_trait prog)); [by eapply env_ok|done|apply P1]|].
      intros [] Hck. apply wp_bind. destruct (ext_here _ _ Hx Hh) as (f & Hf & _).
      eapply wp_weaken; [by apply (retag_safe (has_trait prog) m1 f)| |].
      + intros Hb. eexists _, _. split; [constructor|]. right. unfold bad_addr. by eauto 10.
      + intros [q m2] [Hx2 Hv]. cbn [fst snd] in *. split_and!; [done| |by eapply ext_trans]. by apply vok_good.
    - intros op e IH m ty Hm Hh Hw Hg. cbn [value_check_wf] in Hw. apply obind_ret in Hw as (t & H1 & Hw).
      cbn [eval_value]. apply wp_bind.
      assert (Hc : cause m (inl e) -> cause m (inl (EUnOp op e))) by (apply cause_sub; constructor).
      assert (Hge : gap (inl e)) by (eapply gap_child; [exact Hg|constructor]).
      eapply wp_weaken; [by apply wp_eq, (IH m)|done|].
      intros [[v t'] m1] [(Ht' & Hv & Hx) Heq]. cbn [fst snd] in *. subst t'.
      apply wp_bind. eapply wp_mono; [eapply (un_op_safe T MO SM Tok prog Hmeth _ locals m m1 e op v t ty);
        [apply Hx|done|done|by eapply Hvt|by apply gap_here|by eapply good_weaken|done|]|].
      + intros Hb. eexists _, _. split; [constructor|]. by left.
      + intros [w t'] [Et Hw']. cbn [fst snd] in *. subst t'. split_and!; done.
    - intros op e1 e2 IH1 IH2 m ty Hm Hh Hw Hg. cbn [value_check_wf] in Hw. apply obind_ret in Hw as (t1 & H1 & Hw). apply obind_ret in Hw as (t2 & H2 & Hw).
      cbn [eval_value]. apply wp_bind.
      assert (Hc1 : cause m (inl e1) -> cause m (inl (EBinOp op e1 e2))) by (apply cause_sub; constructor).
      assert (Hg1 : gap (inl e1)) by (eapply gap_child; [exact Hg|constructor]).
      assert (Hg2 : gap (inl e2)) by (eapply gap_child; [exact Hg|constructor]).
      eapply wp_weaken; [by apply wp_eq, (IH1 m)|done|].
      intros [[v1 t1'] m1] [(Ht1 & Hv1 & Hx1) Heq]. cbn [fst snd] in *. subst t1'.
      assert (Hc2 : cause m1 (inl e2) -> cause m (inl (EBinOp op e1 e2))) by (apply cause_sub; by econstructor).
      apply wp_bind. eapply wp_weaken; [apply (IH2 m1); [apply Hx1|by eapply ext_here|done|done]|done|].
      intros [[v2 t2'] m2] (Ht2 & Hv2 & Hx2). cbn [fst snd] in *. subst t2'.
      apply wp_bind. eapply wp_mono; [eapply (bin_op_safe T MO SM Tok prog _ locals m2 e1 e2 op v1 v2 t1 t2 ty);
        [apply Hx2|done|by eapply Hvt|by eapply Hvt|by apply gap_here| |by eapply good_weaken|done]|].
      + apply (ext_good_val T MO SM Tok prog _ m1); [done|exact (good_weaken _ _ _ _ _ Hc1 Hv1)].
      + intros [w t'] [Et Hw']. cbn [fst snd] in *. subst t'. split_and!; [done..|by eapply ext_trans].
    - intros n m ty Hm Hh Hw Hg. cbn [place_check_wf] in Hw. destruct (map_get locals n) as [t|] eqn:En; [|done]. injection Hw as ->.
      destruct Hh as (f & Hf & Hl). cbn [eval_place]. rewrite Hf. cbn [obind]. rewrite Hl, En. cbn [unwrap obind].
      destruct (map_get (f_locals f) n) as [p|] eqn:Ep; [|done]. split_and!; [done| |by apply ext_refl]. cbn [fst snd pl_ptr widen p_thin p_meta].
      destruct (Hlocals n ty En) as [Hwt Hst]. split_and!; [by eapply cur_local|done|]. cbn. rewrite (sized_meta _ _ Hwt Hst). constructor.
    - intros e ty IH m ty' Hm Hh Hw Hg. cbn [place_check_wf] in Hw. apply obind_ret in Hw as ([] & H1 & Hw). apply obind_ret in Hw as (t & Ht & Hw).
      destruct t as [| |pt| | | | | |]; try done. apply obind_ret in Hw as ([] & Hk & [= <-]). apply ensure_wf_ret, bool_decide_eq_true in Hk.
      cbn [eval_place]. apply wp_bind.
      assert (Hc : cause m (inl e) -> cause m (inr (PDeref e ty))) by (apply cause_sub; constructor).
      assert (Hge : gap (inl e)) by (eapply gap_child; [exact Hg|constructor]).
      eapply wp_weaken; [by apply (IH m)|done|].
      intros [[v t'] m1] (Ht' & Hv & Hx). cbn [fst snd] in *. subst t'.
      apply good_ptr_inv in Hv as (p & -> & Hck & Hin & Hgp & Hme); [|exact Tok]. rewrite Hk in Hme.
      assert (Hm1 : sinv m1) by apply Hx. assert (Hpl : forall b, place_ok m1 ty (mkPlace p b)) by (intros b; split_and!; [done|apply Hin|done]).
      destruct (place_size (has_trait prog) m1 ty (mkPlace p true) Hm1 H1 (Hpl true)) as (l & s & a & Hl & _ & Hsa). cbn [pl_ptr] in Hsa.
      assert (Hca : compute_align (chk_env MO m1) l (p_meta p) = Ret a) by (unfold compute_align; cbn [chk_env ce_vtable_lookup]; by rewrite Hsa).
      apply wp_bind. apply wp_mono with (Q := fun _ => True).
      { destruct (safe_pointee pt) as [pi|] eqn:Hsp; [|done]. destruct (deref_ok _ _ _ _ Hck Hsp) as (a' & s' & -> & Ha & -> & Hd). cbn [obind]. rewrite Ha. cbn [assert_ obind]. by rewrite Hd. }
      intros _ _. rewrite Hl. cbn [obind]. rewrite Hca. cbn [obind wp]. split_and!; [done|apply Hpl|done].
    - intros p f IH m ty Hm Hh Hw Hg. cbn [place_check_wf] in Hw. apply obind_ret in Hw as (t & H1 & Hw).
      assert (Hgp : gap (inr p)) by (eapply gap_child; [exact Hg|constructor]).
      assert (Hf : field_ty t f = Some ty).
      { destruct t as [| | |fields h u| | |fields ch s a| |]; try done; cbn [field_ty].
        - destruct (_ && _); [apply obind_ret in Hw as (x & Hx & [= <-]); apply unwrap_ret in Hx as ->; done|].
          destruct (_ =? _); [|done]. destruct u; [|done]. by injection Hw as ->.
        - destruct (list_get fields f); [|done]. by injection Hw as <-. }
      cbn [eval_place]. apply wp_bind.
      assert (Hc : cause m (inr p) -> cause m (inr (PField p f))) by (apply cause_sub; constructor).
      eapply wp_weaken; [by apply (IH m)|done|].
      intros [[pl t'] m1] (Ht' & Hp & Hx). cbn [fst snd] in *. subst t'. assert (Hm1 : sinv m1) by apply Hx.
      destruct (field_of_safe m1 t pl f ty Hm1 (Hpt _ _ H1 Hgp) Hp Hf) as (off & l & s & a & fl & Ho & Hl & Hsa & Hle & Hfl & _ & Hme).
      assert (Hcs : compute_size (chk_env MO m1) l (p_meta (pl_ptr pl)) = Ret s) by (unfold compute_size; cbn [chk_env ce_vtable_lookup]; by rewrite Hsa).
      rewrite Ho. cbn [obind]. rewrite Hl. cbn [obind]. rewrite Hcs. cbn [obind]. replace (off <=? s)%N with true by lia. cbn [assert_ obind].
      destruct Hp as (P1 & P2 & P3). apply wp_bind. eapply wp_weaken; [by apply (ptr_offset_safe T MO SM Tok prog)|done|].
      intros q [Hq _]. rewrite Hfl. cbn [obind wp]. split_and!; [done| |done]. cbn [fst snd]. split_and!; [done| |done].
      cbn [pl_ptr widen p_meta]. by destruct (is_sized fl).
    - intros p e IHp IHe m ty Hm Hh Hw Hg. cbn [place_check_wf] in Hw. apply obind_ret in Hw as (t & H1 & Hw). apply obind_ret in Hw as (t2 & H2 & Hw).
      apply obind_ret in Hw as ([] & Hi & Hw). apply ensure_wf_ret in Hi.
      assert (Hgp : gap (inr p)) by (eapply gap_child; [exact Hg|constructor]).
      assert (Hge : gap (inl e)) by (eapply gap_child; [exact Hg|constructor]).
      assert (Hty : t = TSlice ty \/ exists n, t = TArray ty n) by (destruct t; try done; injection Hw as <-; eauto).
      cbn [eval_place]. apply wp_bind.
      assert (Hc1 : cause m (inr p) -> cause m (inr (PIndex p e))) by (apply cause_sub; constructor).
      eapply wp_weaken; [by apply wp_eq, (IHp m)|done|].
      intros [[pl t'] m1] [(Ht' & Hp & Hx) Heq]. cbn [fst snd] in *. subst t'.
      assert (Hc2 : cause m1 (inl e) -> cause m (inr (PIndex p e))) by (apply cause_sub; by econstructor).
      apply wp_bind. eapply wp_weaken; [apply (IHe m1 t2); [apply Hx|by eapply ext_here|done|done]|done|].
      intros [[v t2'] m2] (Ht2 & Hv & Hx2). cbn [fst snd] in *. destruct t2 as [it| | | | | | | |]; try done.
      destruct Hv as (Hv & _). apply lax_int in Hv as (i & -> & _). assert (Hm2 : sinv m2) by apply Hx2.
      assert (Hp2 : place_ok m2 t pl) by (by eapply ext_place).
      destruct (index_safe m2 t pl ty Hm2 (Hpt _ _ H1 Hgp) Hp2 Hty) as (n & l & s & a & es & Ho & Hl & Hsa & Hes & Hmul & _ & Hk).
      rewrite Ho. cbn [obind]. destruct (_ || _) eqn:Eb; [done|]. rewrite Hes. cbn [obind].
      assert (Hsm : exists off, size_mul es i = Ret off /\ (off <= s)%N).
      { unfold size_mul, size_from_bytes. destruct (Z.ltb_spec (Z.of_N es * i) 0); [nia|]. eexists. split; [done|]. nia. }
      destruct Hsm as (off & -> & Hle). cbn [obind]. rewrite Hl. cbn [obind].
      assert (Hcs : compute_size (chk_env MO m2) l (p_meta (pl_ptr pl)) = Ret s) by (unfold compute_size; cbn [chk_env ce_vtable_lookup]; by rewrite Hsa).
      rewrite Hcs. cbn [obind]. replace (off <=? s)%N with true by lia. cbn [assert_ obind].
      destruct Hp2 as (P1 & P2 & P3). apply wp_bind. eapply wp_weaken; [by apply (ptr_offset_safe T MO SM Tok prog)|done|].
      intros q [Hq _]. split_and!; [done| |by eapply ext_trans]. cbn [fst snd]. split_and!; [done|done|]. cbn [pl_ptr widen p_meta]. rewrite Hk. constructor.
    - intros p d IH m ty Hm Hh Hw Hg. cbn [place_check_wf] in Hw. apply obind_ret in Hw as (t & H1 & Hw).
      assert (Hgp : gap (inr p)) by (eapply gap_child; [exact Hg|constructor]).
      destruct t as [| | | | | | |vs dty discr s a|]; try done. destruct (map_get vs d) as [[t tg]|] eqn:Ed; [|done]. injection Hw as <-.
      cbn [eval_place]. apply wp_bind.
      assert (Hc : cause m (inr p) -> cause m (inr (PDowncast p d))) by (apply cause_sub; constructor).
      eapply wp_weaken; [by apply (IH m)|done|].
      intros [[pl t'] m1] (Ht' & (P1 & P2 & P3) & Hx). cbn [fst snd] in *. subst t'. rewrite Ed. cbn [unwrap obind fst wp].
      split_and!; [done| |done]. cbn [fst snd]. split_and!; [done|done|]. pose proof (Hpt _ _ H1 Hgp) as Hwt.
      destruct (wf_enum T any_trait _ _ _ _ _ Hwt) as [HFv _]. rewrite List.Forall_forall in HFv. apply map_get_in in Ed. destruct (HFv _ Ed) as (_ & Hw1 & Hs1 & _).
      cbn [fst snd] in *. rewrite (sized_meta _ _ Hw1 Hs1). exact P3.
  Qed.
End SafeEval.
