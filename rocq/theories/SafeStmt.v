(** Statements of accepted programs keep the safety invariant and panic only for named causes. *)
From Verif Require Export SafeFrame.
From stdpp Require Import relations.
From Coq Require Import ZifyBool ZifyN ZifyNat.
Local Open Scope Z_scope.

Lemma map_remove_in {K V} `{EqDecision K} (l : list (K * V)) k x : In x (map_remove l k) -> In x l.
Proof. unfold map_remove. intros H. by apply List.filter_In in H as [? _]. Qed.
Lemma map_insert_in {K V} `{EqDecision K} (l : list (K * V)) k v x : In x (map_insert l k v) -> In x l \/ x = (k, v).
Proof.
  induction l as [|[k' v'] l IH]; cbn; [intros [<-|[]]; by right|]. case_bool_decide.
  - intros [<-|Hin]; [by right|]. left. by right.
  - intros [<-|Hin]; [left; by left|]. destruct (IH Hin) as [?|?]; [left; by right|by right].
Qed.

Section SafeStmt.
  Context {PE AE F : Type} `{EqDecision (nat * PE)}.
  Variable T : Target.
  Variable MO : MemOps (nat * PE) F (BMem PE AE).
  Variable SM : safe_mem T MO.
  Hypothesis Tok : target_ok T.
  Hypothesis Std : target_std T.
  Variable prog : Program.
  Hypothesis Hmeth : methods_exist prog.
  Notation P := (nat * PE)%type.
  Notation M := (BMem PE AE).
  Notation Mach := (Machine P F M).
  Notation BL := (sm_like SM).
  Notation sinv := (sinv T MO SM prog).
  Notation ext := (ext T MO SM prog).
  Notation vok := (vok T MO SM).
  Notation prov_ok := (prov_ok T MO SM).
  Notation good_ptr := (good_ptr T MO SM).
  Notation wfT ty := (ty_check_wf T any_trait ty = Ret tt).
  Notation good := (good T MO SM).
  Notation place_ok := (place_ok T MO SM).
  Notation memok := (memok T MO SM).
  Notation pmono := (pmono T MO SM).
  Notation pok := (pok T MO SM).

  (** ** Stores of values that may not fit *)

  Lemma typed_store_good E ht m ptr v ty al at_ : sinv m -> ty_check_wf T ht ty = Ret tt -> good E m ty v ->
    thin_in (prov_ok m) ptr -> wp E (typed_store T MO m ptr v ty al at_) (ext m).
  Proof.
    intros Hm Hw Hg Hp. destruct (is_ok (check_value T (chk_env MO m) ty v)) as [[|]| | |] eqn:Eok.
    - assert (check_value T (chk_env MO m) ty v = Ret tt) as Hc by (destruct (check_value T (chk_env MO m) ty v) as [[]| | |]; done).
      apply (wp_weaken False _ _ (ext m)); [|done|done]. eapply typed_store_safe; [done|exact Hm|exact Hw| |done]. split; [done|apply Hg].
    - unfold typed_store. rewrite Eok. cbn. destruct (good_vok T MO SM E m ty v Hg) as [HE|[Hc _]]; [done|]. by rewrite Hc in Eok.
    - unfold typed_store. by rewrite Eok.
    - unfold typed_store. rewrite Eok. cbn. destruct (good_vok T MO SM E m ty v Hg) as [HE|[Hc _]]; [done|]. by rewrite Hc in Eok.
    - unfold typed_store. by rewrite Eok.
  Qed.
  Lemma place_store_good E ht m pl v ty : sinv m -> ty_check_wf T ht ty = Ret tt -> good E m ty v ->
    thin_in (prov_ok m) (p_thin (pl_ptr pl)) -> wp E (place_store T MO m pl v ty) (ext m).
  Proof. intros Hm Hw Hg Hp. unfold place_store. destruct (negb _); [done|]. by eapply typed_store_good. Qed.
  Lemma place_load_safe ht m pl ty : sinv m -> ty_check_wf T ht ty = Ret tt -> sized T ty ->
    thin_in (prov_ok m) (p_thin (pl_ptr pl)) ->
    wp False (place_load T MO m pl ty) (fun r => ext m (snd r) /\ vok (snd r) ty (fst r)).
  Proof.
    intros Hm Hw Hs Hp. unfold place_load. destruct (negb _); [done|].
    eapply typed_load_safe; [done|exact Hm|exact Hw|by apply sized_tsize|done].
  Qed.

  Lemma deinit_safe m p n al : sinv m -> thin_in (prov_ok m) p -> wp False (deinit MO m p n al) (ext m).
  Proof.
    intros Hm Hp. unfold deinit. apply wp_bind. eapply wp_mono; [apply cm_store_safe; [exact Hm|exact Hp|apply uninit_in]|].
    intros mem H. exact H.
  Qed.
  Lemma prepare_safe ht m pl ty : sinv m -> ty_check_wf T ht ty = Ret tt -> sized T ty -> thin_in (prov_ok m) (p_thin (pl_ptr pl)) ->
    wp False (prepare_for_inplace_passing T MO m pl ty) (ext m).
  Proof.
    intros Hm Hw Hs Hp. unfold prepare_for_inplace_passing. rewrite (sized_tsize _ _ Hs). cbn [obind].
    rewrite (sized_talign _ _ Hs). cbn [obind]. by apply deinit_safe.
  Qed.

  (** ** Retagging all pointers of a value *)

  Lemma bad_back m m' q pt : ext m m' -> sm_bad SM (memof m') q pt (vtable_lookup m') -> sm_bad SM (memof m) q pt (vtable_lookup m).
  Proof.
    intros Hx Hb. pose proof (ex_quiet _ _ _ _ _ _ Hx) as [Hs Hv].
    assert (El : vtable_lookup m' = vtable_lookup m) by (unfold vtable_lookup; by rewrite (same_vts _ _ Hs), (same_prog _ _ Hs)).
    rewrite El in Hb. eapply sm_bad_view; [|exact Hb].
    assert (Hf : forall x : M, al_addr <$> x = v_addr <$> mv x) by (intros x; unfold mv; change (List.map view x) with (view <$> x); by rewrite <- list_fmap_compose).
    rewrite !Hf. unfold mview in Hv. unfold memof. by rewrite Hv.
  Qed.
  Lemma bad_leaf E m m' ty v : ext m m' -> ((exists pt q, leaf ty v pt q /\ sm_bad SM (memof m) q pt (vtable_lookup m)) -> E : Prop) ->
    (exists pt q, leaf ty v pt q /\ sm_bad SM (memof m') q pt (vtable_lookup m')) -> E.
  Proof. intros Hx HE (pt & q & H1 & H2). apply HE. exists pt, q. split; [done|]. by eapply bad_back. Qed.

  Definition framed (m : Mach) : Prop := exists f, cur_frame m = Ret f.
  Lemma ext_framed m m' : ext m m' -> framed m -> framed m'.
  Proof. intros Hx [f Hf]. destruct (same_frame m m' f) as (f' & Hf' & _); [apply Hx|done|]. by exists f'. Qed.

  Notation retag fe := (retag_val MO fe).
  Lemma retag_val_safe ht fe ty : forall v m, sinv m -> framed m -> ty_check_wf T ht ty = Ret tt -> vok m ty v ->
    wp (exists pt q, leaf ty v pt q /\ sm_bad SM (memof m) q pt (vtable_lookup m)) (retag fe ty v m)
      (fun r => ext m (snd r) /\ vok (snd r) ty (fst r)).
  Proof.
    induction ty as [it| |pt|fields head u IHf IHu|elem count IHe|elem IHe|fields chunks size align IHf
      |variants dty discr size align IHv|tn] using Ty_ind'; intros v m Hm Hf Hw [Hc Hi].
    - destruct v as [i|b|p|vs|d w|cs]; try (by exfalso). cbn. split; [by apply ext_refl|done].
    - destruct v as [i|b|p|vs|d w|cs]; try (by exfalso). cbn. split; [by apply ext_refl|done].
    - destruct v as [i|b|p|vs|d w|cs]; try done. cbn [retag_val]. apply wp_bind. destruct Hf as [f Hf].
      assert (Hp : ptrtype_check_wf T ht pt = Ret tt) by (cbn in Hw; inv; done).
      eapply wp_weaken; [apply (retag_safe T MO SM Tok prog ht m f p pt fe Hm Hf Hp Hi); exact Hc|..].
      + intros Hb. exists pt, p. split; [constructor|done].
      + intros [q m'] [Hx Hv]. by cbn.
    - apply check_tuple_ret in Hc as (-> & vs & -> & HF). cbn [val_in] in Hi. apply all_in_Forall in Hi.
      pose proof (wf_tuple T ht _ _ _ Hw) as (Fw & _). cbn [retag_val]. apply wp_bind.
      set (E := exists pt q, leaf (TTuple fields head None) (VTuple vs) pt q /\ sm_bad SM (memof m) q pt (vtable_lookup m)).
      assert (HE : forall i f w, fields !! i = Some f -> vs !! i = Some w ->
        (exists pt q, leaf (snd f) w pt q /\ sm_bad SM (memof m) q pt (vtable_lookup m)) -> E).
      { intros i [o t] w H1 H2 (pt & q & H3 & H4). exists pt, q. split; [|done]. by eapply lf_tuple. }
      assert (Hloop : forall m1, ext m m1 -> wp E (map_st2 (fun m f v => retag fe (snd f) v m) fields vs m1)
        (fun r => ext m1 (snd r) /\ Forall2 (fun f v => vok (snd r) (snd f) v) fields (fst r))).
      { clearbody E. clear Hw. revert vs HF Hi HE. induction fields as [|f fields IH]; intros vs HF Hi HE m1 Hx.
        - inversion HF; subst. cbn. split; [apply ext_refl, Hx|constructor].
        - inversion HF as [|? w ? vs' Hc1 HF']; subst. inversion Hi as [|? ? Hi1 Hi']; subst. inversion Fw as [|? ? (W1 & _) Fw']; subst.
          inversion IHf as [|? ? IH1 IHf']; subst.
          cbn [map_st2]. apply wp_bind. eapply wp_weaken; [apply IH1|..].
          + apply Hx.
          + by eapply ext_framed.
          + done.
          + by eapply ext_value.
          + eapply bad_leaf; [exact Hx|]. by apply (HE 0%nat).
          + intros [w' m2] [Hx1 Hv1]. cbn [fst snd] in *. apply wp_bind. eapply wp_mono; [apply (IH IHf' Fw' vs' HF' Hi')|].
            * intros i f' w2 H1 H2. by apply (HE (S i)).
            * by eapply ext_trans.
            * intros [ws m3] [Hx2 HF2]. cbn in *. split; [by eapply ext_trans|]. constructor; [|done]. by eapply ext_value. }
      eapply wp_mono; [apply Hloop; by apply ext_refl|]. intros [ws m'] [Hx HF']. cbn [fst snd wp] in *. split; [done|]. split.
      + apply check_tuple_ret. split; [done|]. exists ws. split; [done|]. eapply Forall2_impl; [exact HF'|]. by intros ? ? [? _].
      + cbn [val_in]. apply all_in_Forall, Forall_lookup. intros i w Hi'. destruct (Forall2_lookup_r _ _ _ _ _ HF' Hi') as (? & _ & [_ ?]). done.
    - apply check_array_ret in Hc as (vs & -> & Hlen & HF). cbn [val_in] in Hi. apply all_in_Forall in Hi.
      pose proof (wf_array T ht _ _ Hw) as (_ & Fw & _). cbn [retag_val]. apply wp_bind.
      set (E := exists pt q, leaf (TArray elem count) (VTuple vs) pt q /\ sm_bad SM (memof m) q pt (vtable_lookup m)).
      assert (HE : forall i w, vs !! i = Some w ->
        (exists pt q, leaf elem w pt q /\ sm_bad SM (memof m) q pt (vtable_lookup m)) -> E).
      { intros i w H2 (pt & q & H3 & H4). exists pt, q. split; [|done]. by eapply lf_array. }
      assert (Hloop : forall m1, ext m m1 -> wp E (map_st (fun m v => retag fe elem v m) vs m1)
        (fun r => ext m1 (snd r) /\ length (fst r) = length vs /\ Forall (fun v => vok (snd r) elem v) (fst r))).
      { clearbody E. clear Hw Hlen. revert HF Hi HE. induction vs as [|w vs IH]; intros HF Hi HE m1 Hx.
        - cbn. split; [apply ext_refl, Hx|]. split; [done|constructor].
        - inversion HF as [|? ? Hc1 HF']; subst. inversion Hi as [|? ? Hi1 Hi']; subst.
          cbn [map_st]. apply wp_bind. eapply wp_weaken; [apply IHe|..].
          + apply Hx.
          + by eapply ext_framed.
          + done.
          + by eapply ext_value.
          + eapply bad_leaf; [exact Hx|]. by apply (HE 0%nat).
          + intros [w' m2] [Hx1 Hv1]. cbn [fst snd] in *. apply wp_bind. eapply wp_mono; [apply (IH HF' Hi')|].
            * intros i w2 H2. by apply (HE (S i)).
            * by eapply ext_trans.
            * intros [ws m3] (Hx2 & Hl2 & HF2). cbn in *. split; [by eapply ext_trans|]. split; [lia|]. constructor; [|done]. by eapply ext_value. }
      eapply wp_mono; [apply Hloop; by apply ext_refl|]. intros [ws m'] (Hx & Hl & HF'). cbn [fst snd wp] in *. split; [done|]. split.
      + apply check_array_ret. exists ws. split; [done|]. split; [lia|]. eapply Forall_impl; [exact HF'|]. by intros ? [? _].
      + cbn [val_in]. apply all_in_Forall. eapply Forall_impl; [exact HF'|]. by intros ? [_ ?].
    - by exfalso.
    - apply check_union_ret in Hc as (data & -> & HF). cbn. split; [by apply ext_refl|]. split; [|done].
      apply check_union_ret. eauto.
    - apply check_enum_ret in Hc as (d & w & t & tg & -> & Hg & Hc). cbn [retag_val]. rewrite map_get_with_spec, Hg. cbn [option_map].
      pose proof (wf_enum T ht _ _ _ _ _ Hw) as (Fw & _). pose proof (map_get_in _ _ _ Hg) as Hin. rewrite List.Forall_forall in Fw, IHv.
      destruct (Fw _ Hin) as (_ & W & _). apply wp_bind. eapply wp_weaken; [apply (IHv _ Hin); [done|done|done|by split]|..].
      + intros (pt & q & H1 & H2). exists pt, q. split; [|done]. by eapply lf_enum.
      + intros [w' m'] [Hx [Hc' Hi']]. cbn [fst snd wp] in *. split; [done|]. split; [|done]. apply check_enum_ret. by exists d, w', t, tg.
    - by exfalso.
  Qed.

  (** ** Writing a discriminant *)

  Lemma store_accessor_safe m ptr off b : sinv m -> good_ptr m ptr -> Forall (byte_in (prov_ok m)) b ->
    wp False (store_accessor T MO ptr m off b) (ext m).
  Proof.
    intros Hm Hp Hb. unfold store_accessor. apply wp_bind. eapply wp_mono; [eapply ptr_offset_safe; [exact Tok|exact Hm|exact Hp]|].
    intros q [[Hq _] _]. apply wp_bind. eapply wp_mono; [by apply cm_store_safe|]. by intros mem Hx.
  Qed.
  Lemma encode_discr_safe size tg ptr : forall m, sinv m -> good_ptr m ptr -> Forall (tagger_ok size) tg ->
    wp False (encode_discriminant T (store_accessor T MO ptr) tg m) (ext m).
  Proof.
    induction tg as [|[off [it v]] tg IH]; intros m Hm Hp HF; cbn; [by apply ext_refl|].
    inversion HF as [|? ? (_ & Hr & _) HF']; subst. cbn [fst snd] in Hr.
    destruct (encode_int_total T (P := P) it v Hr) as (b & Hb & _). rewrite Hb. cbn [obind].
    apply wp_bind. eapply wp_mono; [apply store_accessor_safe; [exact Hm|exact Hp|by eapply encode_int_in]|].
    intros m1 Hx. eapply wp_mono; [apply IH; [apply Hx|by eapply ext_good|done]|]. intros m2 Hx2. by eapply ext_trans.
  Qed.

  (** ** Storage *)

  (** the frame after a change of its locals *)
  Lemma storage_dead_safe f mem L l ty : memok (cm_mem mem) L -> map_get (fn_locals (f_func f)) l = Some ty -> sized T ty ->
    (forall n p, In (n, p) (f_locals f) -> pok (cm_mem mem) p) ->
    wp False (storage_dead T MO f mem l) (fun r => let '(f', mem') := r in
      memok (cm_mem mem') L /\ pmono (cm_mem mem) (cm_mem mem') /\ (exists ls, f' = with_locals f ls) /\
      forall n p, In (n, p) (f_locals f') -> In (n, p) (f_locals f)).
  Proof.
    intros Hok Hl Hs Hp. unfold storage_dead. rewrite Hl. cbn [unwrap obind]. rewrite (sized_tsize _ _ Hs). cbn [obind].
    rewrite (sized_talign _ _ Hs). cbn [obind]. destruct (map_get (f_locals f) l) as [ptr|] eqn:Eg.
    - apply wp_bind. unfold cm_deallocate. apply wp_bind. eapply wp_mono; [apply dealloc_ok; [exact Hok|]|].
      + eapply Hp. by apply map_get_in in Eg.
      + intros mem' [H1 H2]. cbn. split; [done|]. split; [done|]. split; [by eexists|]. intros n p Hin. by eapply map_remove_in.
    - cbn. split; [done|]. split; [by intros ?|]. split; [exists (f_locals f); by destruct f|done].
  Qed.
  Lemma storage_live_safe f mem L l ty cs : memok (cm_mem mem) L -> map_get (fn_locals (f_func f)) l = Some ty -> sized T ty ->
    (forall n p, In (n, p) (f_locals f) -> pok (cm_mem mem) p) ->
    wp False (storage_live T MO f mem l cs) (fun r => let '(f', mem', _) := r in
      memok (cm_mem mem') L /\ pmono (cm_mem mem) (cm_mem mem') /\ (exists ls, f' = with_locals f ls) /\
      forall n p, In (n, p) (f_locals f') -> In (n, p) (f_locals f) \/ pok (cm_mem mem') p).
  Proof.
    intros Hok Hl Hs Hp. unfold storage_live. apply wp_bind. eapply wp_mono; [by eapply storage_dead_safe|].
    intros [f1 mem1] (H1 & H2 & (ls & ->) & H3). change (f_func (with_locals f ls)) with (f_func f). rewrite Hl. cbn [unwrap obind].
    rewrite (sized_tsize _ _ Hs). cbn [obind]. rewrite (sized_talign _ _ Hs). cbn [obind].
    apply wp_bind. apply wp_safe; [by destruct cs as [|[]]|]. intros [ad cs1] _.
    apply wp_bind. unfold cm_allocate. apply wp_bind. eapply wp_mono; [by apply alloc_ok|].
    intros [p mem2] (M1 & M2 & M3 & _). cbn. split; [done|]. split; [by eapply pmono_trans|]. split; [by eexists|].
    intros n q [Hin|[= -> ->]]%map_insert_in; [|by right]. left. by eapply H3.
  Qed.

  (** ** Statements *)

  Variable func : Function.
  Notation locals := (fn_locals func).
  Hypothesis Hlocals : forall n ty, map_get locals n = Some ty -> wfT ty /\ sized T ty.
  Notation gap := (gap_free T prog locals).
  Notation ecause := (expr_cause T MO (sm_bad SM)).
  Notation scause := (stmt_cause T MO (sm_bad SM)).

  Definition running (m : Mach) : Prop := exists f, cur_frame m = Ret f /\ f_func f = func.
  Lemma running_here m : running m -> here locals m.
  Proof. intros (f & Hf & <-). by exists f. Qed.
  Lemma ext_running m m' : ext m m' -> running m -> running m'.
  Proof.
    intros Hx (f & Hf & E). destruct (same_frame m m' f) as (f' & Hf' & Ef); [apply Hx|done|]. exists f'. split; [done|].
    rewrite <- E. exact (f_equal fc_func Ef).
  Qed.

  Lemma sized_of ty msg : ensure_sized T ty msg = Ret tt -> sized T ty.
  Proof. unfold ensure_sized. intros H. apply obind_ret in H as (l & Hl & H). apply ensure_wf_ret in H. destruct l; try done. by eexists _, _. Qed.

  Lemma eval_value_step m e ty : sinv m -> running m -> value_check_wf T prog locals e = Ret ty -> gap (inl e) ->
    wfT ty /\ wp (ecause m (inl e)) (eval_value T MO e m) (fun r =>
      snd (fst r) = ty /\ good (ecause m (inl e)) (snd r) ty (fst (fst r)) /\ ext m (snd r)).
  Proof.
    intros Hm Hr Hw Hg. destruct (expr_wf T prog Std locals Hlocals) as [W _]. split; [by eapply W|].
    destruct (eval_safe T MO SM Tok Std prog Hmeth locals Hlocals) as [H _]. apply H; [done|by apply running_here|done|done].
  Qed.
  Lemma eval_place_step m p ty : sinv m -> running m -> place_check_wf T prog locals p = Ret ty -> gap (inr p) ->
    wfT ty /\ wp (ecause m (inr p)) (eval_place T MO p m) (fun r =>
      snd (fst r) = ty /\ place_ok (snd r) ty (fst (fst r)) /\ ext m (snd r)).
  Proof.
    intros Hm Hr Hw Hg. destruct (expr_wf T prog Std locals Hlocals) as [_ W]. split; [by eapply W|].
    destruct (eval_safe T MO SM Tok Std prog Hmeth locals Hlocals) as [_ H]. apply H; [done|by apply running_here|done|done].
  Qed.

  Definition advanced (m : Mach) : Prop := sinv m /\ framed m.
  Lemma ext_advanced m m' : framed m -> ext m m' -> advanced m'.
  Proof. intros Hf Hx. split; [apply Hx|by eapply ext_framed]. Qed.
  Lemma running_framed m : running m -> framed m.
  Proof. intros (f & Hf & _). by exists f. Qed.

  Lemma put_locals m f mem f' ls : sinv m -> cur_frame m = Ret f -> f' = with_locals f ls -> memok (cm_mem mem) (extras m) ->
    pmono (memof m) (cm_mem mem) -> (forall n p, In (n, p) ls -> In (n, p) (f_locals f) \/ pok (cm_mem mem) p) ->
    wp False (set_cur_frame (set_mem m mem) f') (fun m' => sinv m' /\ exists t r, m_threads m !! m_active m = Some t /\ t_stack t = f :: r /\
      m' = set_active_thread (set_mem m mem) (with_stack t (f' :: r))).
  Proof.
    intros Hm Hf -> Hok Hpm Hl. destruct (cur_frame_inv _ _ Hf) as (t & r & Ht & Hs).
    rewrite (set_cur_frame_eq (set_mem m mem) t f _ r Ht Hs). cbn [wp]. split; [|by exists t, r].
    by eapply put_frame_safe.
  Qed.
  Lemma frame_local m f n p : sinv m -> cur_frame m = Ret f -> In (n, p) (f_locals f) -> pok (memof m) p.
  Proof.
    intros Hm Hf Hin. destruct (cur_frame_inv _ _ Hf) as (t & r & Ht & Hs). apply (si_ptrs _ _ _ _ _ Hm).
    eapply (hp_local _ _ (m_active m) (tctl t) 0 (fctl f) n); [|cbn; by rewrite Hs|done].
    cbn. change (List.map tctl (m_threads m)) with (tctl <$> m_threads m). by rewrite list_lookup_fmap, Ht.
  Qed.
  Lemma put_framed (m : Mach) mem t f' r : m_threads m !! m_active m = Some t -> framed (set_active_thread (set_mem m mem) (with_stack t (f' :: r))).
  Proof.
    intros Ht. exists f'. apply (cur_frame_eq _ (with_stack t (f' :: r)) f' r); [|done]. cbn. apply list_lookup_insert. by eapply lookup_lt_Some.
  Qed.

  Lemma eval_statement_safe s m cs : sinv m -> running m -> statement_check_wf T prog func s = Ret tt ->
    (forall e, stmt_expr s e -> gap e) ->
    wp (scause m s) (eval_statement T MO s m cs) (fun r => advanced (fst r)).
  Proof.
    intros Hm Hr Hw Hgap. pose proof (running_framed _ Hr) as Hfr. destruct s as [d s|p|p d|p fe|p|l|l]; cbn [statement_check_wf eval_statement] in *.
    - apply obind_ret in Hw as (ty & Hw1 & Hw). apply obind_ret in Hw as (ty' & Hw2 & Hw). apply obind_ret in Hw as ([] & He & Hw).
      apply ensure_wf_ret, bool_decide_eq_true in He as <-.
      destruct (eval_place_step m d ty Hm Hr Hw1) as [Wt Hp]; [apply Hgap; constructor|].
      apply wp_bind. eapply wp_weaken; [apply wp_eq, Hp|intros Hc; by eapply sc_expr; [constructor|]|].
      intros [[pl t] m1] [(Ht & Hpl & Hx) Ep]. cbn [fst snd] in *. subst t.
      destruct (eval_value_step m1 s ty) as [_ Hv]; [apply Hx|by eapply ext_running|done|apply Hgap; constructor|].
      assert (Hc : ecause m1 (inl s) -> scause m (SAssign d s)) by (intros Hc; eapply sc_expr; [by eapply sr_source|done]).
      apply wp_bind. eapply wp_weaken; [apply Hv|exact Hc|].
      intros [[v t] m2] (Ht & Hg & Hx2). cbn [fst snd] in *. subst t.
      apply wp_bind. eapply wp_weaken; [eapply place_store_good; [apply Hx2|exact Wt|exact Hg|]|exact Hc|].
      + eapply ext_good; [exact Hx2|apply Hpl].
      + intros m3 Hx3. cbn. eapply ext_advanced; [|exact Hx3]. by do 2 (eapply ext_framed; [eassumption|]).
    - apply obind_ret in Hw as (ty & Hw1 & _).
      destruct (eval_place_step m p ty Hm Hr Hw1) as [Wt Hp]; [apply Hgap; constructor|].
      apply wp_bind. eapply wp_weaken; [apply Hp|intros Hc; by eapply sc_expr; [constructor|]|].
      intros [[pl t] m1] (Ht & Hpl & Hx). cbn. by eapply ext_advanced.
    - apply obind_ret in Hw as (ty & Hw1 & Hw).
      destruct (eval_place_step m p ty Hm Hr Hw1) as [Wt Hp]; [apply Hgap; constructor|].
      apply wp_bind. eapply wp_weaken; [apply Hp|intros Hc; by eapply sc_expr; [constructor|]|].
      intros [[pl t] m1] (Ht & Hpl & Hx). cbn [fst snd] in *. subst t. destruct ty as [| | | | | | |variants dty discr size align|]; try done.
      destruct (negb _); [done|]. destruct (map_get variants d) as [[t tg]|] eqn:Eg; [|done]. cbn [unwrap obind fst snd].
      pose proof (wf_enum T any_trait _ _ _ _ _ Wt) as (Fw & _). rewrite List.Forall_forall in Fw. destruct (Fw _ (map_get_in _ _ _ Eg)) as (_ & _ & _ & _ & _ & Htg).
      apply wp_bind. apply (wp_weaken False _ _ (ext m1)); [|done|].
      + eapply encode_discr_safe; [apply Hx|apply Hpl|exact Htg].
      + intros m2 Hx2. cbn. eapply ext_advanced; [|exact Hx2]. by eapply ext_framed.
    - apply obind_ret in Hw as (ty & Hw1 & Hw). apply sized_of in Hw.
      destruct (eval_place_step m p ty Hm Hr Hw1) as [Wt Hp]; [apply Hgap; constructor|].
      apply wp_bind. eapply wp_weaken; [apply wp_eq, Hp|intros Hc; by eapply sc_expr; [constructor|]|].
      intros [[pl t] m1] [(Ht & Hpl & Hx) Ep]. cbn [fst snd] in *. subst t.
      apply wp_bind. eapply wp_weaken; [apply wp_eq; eapply place_load_safe; [apply Hx|exact Wt|done|apply Hpl]|done|].
      intros [v m2] [(Hx2 & Hv) El]. cbn [fst snd] in *. assert (Hfr2 : framed m2) by (by do 2 (eapply ext_framed; [eassumption|])).
      apply wp_bind. eapply wp_weaken; [eapply (retag_val_safe any_trait fe ty v m2); [apply Hx2|done|done|done]|..].
      { intros (pt & q & H1 & H2). by eapply sc_validate. }
      intros [v' m3] [Hx3 Hv3]. cbn [fst snd] in *.
      apply wp_bind. apply (wp_weaken False _ _ (ext m3)); [|done|].
      + eapply place_store_good; [apply Hx3|exact Wt|by apply vok_good|]. eapply ext_good; [exact Hx3|]. eapply ext_good; [exact Hx2|apply Hpl].
      + intros m4 Hx4. cbn. eapply ext_advanced; [|exact Hx4]. by eapply ext_framed.
    - apply obind_ret in Hw as (ty & Hw1 & Hw). apply sized_of in Hw.
      destruct (eval_place_step m p ty Hm Hr Hw1) as [Wt Hp]; [apply Hgap; constructor|].
      apply wp_bind. eapply wp_weaken; [apply Hp|intros Hc; by eapply sc_expr; [constructor|]|].
      intros [[pl t] m1] (Ht & Hpl & Hx). cbn [fst snd] in *. subst t. destruct (negb _); [done|].
      rewrite (sized_tsize _ _ Hw). cbn [obind].
      apply wp_bind. apply (wp_weaken False _ _ (ext m1)); [|done|].
      + apply deinit_safe; [apply Hx|apply Hpl].
      + intros m2 Hx2. cbn. eapply ext_advanced; [|exact Hx2]. by eapply ext_framed.
    - apply ensure_wf_ret in Hw. unfold map_contains in Hw. destruct (map_get locals l) as [ty|] eqn:El; [|done].
      destruct (Hlocals _ _ El) as [Wt St]. destruct Hr as (f & Hf & Ef). rewrite Hf. cbn [obind].
      apply wp_bind. apply (wp_weaken False _ _ (fun r => let '(f', mem', _) := r in
        memok (cm_mem mem') (extras m) /\ pmono (memof m) (cm_mem mem') /\ (exists ls, f' = with_locals f ls) /\
        forall n p, In (n, p) (f_locals f') -> In (n, p) (f_locals f) \/ pok (cm_mem mem') p)); [|done|].
      { eapply storage_live_safe; [by eapply sinv_memok|by rewrite Ef|done|]. intros n p Hin. by eapply frame_local. }
      intros [[f' mem'] cs'] (H1 & H2 & (ls & ->) & H3). cbn [fst snd] in *.
      apply wp_bind. apply (wp_weaken False _ _ (fun m' => advanced m')); [|done|by intros m' Hm'].
      eapply wp_mono; [by eapply put_locals|]. intros m' [Hi (t & r & Ht & Hs & ->)]. split; [done|]. by apply put_framed.
    - apply obind_ret in Hw as ([] & Hw & _).
      apply ensure_wf_ret in Hw. unfold map_contains in Hw. destruct (map_get locals l) as [ty|] eqn:El; [|done].
      destruct (Hlocals _ _ El) as [Wt St]. destruct Hr as (f & Hf & Ef). rewrite Hf. cbn [obind].
      apply wp_bind. apply (wp_weaken False _ _ (fun r => let '(f', mem') := r in
        memok (cm_mem mem') (extras m) /\ pmono (memof m) (cm_mem mem') /\ (exists ls, f' = with_locals f ls) /\
        forall n p, In (n, p) (f_locals f') -> In (n, p) (f_locals f))); [|done|].
      { eapply storage_dead_safe; [by eapply sinv_memok|by rewrite Ef|done|]. intros n p Hin. by eapply frame_local. }
      intros [f' mem'] (H1 & H2 & (ls & ->) & H3). cbn [fst snd] in *.
      apply wp_bind. apply (wp_weaken False _ _ (fun m' => advanced m')); [|done|by intros m' Hm'].
      eapply wp_mono; [eapply put_locals; [done|done|done|done|done|]|]; [intros n p Hin; left; by apply H3|].
      intros m' [Hi (t & r & Ht & Hs & ->)]. split; [done|]. by apply put_framed.
  Qed.
End SafeStmt.
