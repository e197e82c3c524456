(** Proofs: what the memory knows about calls in the states of executions. *)
From Verif Require Export HistProofs.

Section Frames.
  Context {P F M : Type} `{EqDecision P}.
  Variable T : Target.
  Variable MO : MemOps P F M.
  Notation Mach := (Machine P F M).
  Notation Op := (MemOp P F).

  Definition plain (op : Op) : Prop := match op with OpRetag _ _ _ _ _ | OpEndCall _ => False | _ => True end.
  (** something about a memory and the frame data of all calls *)
  Variable J : M -> list F -> Prop.
  Hypothesis Jperm : forall m L L', L ≡ₚ L' -> J m L -> J m L'.
  Hypothesis Jcall : forall m L, J m L -> J m (mo_new_call MO :: L).
  Hypothesis Jplain : forall m L op m', plain op -> mem_op MO m op = Ret m' -> J m L -> J m' L.
  Hypothesis Jretag : forall m f L ptr pt fe lk p m' f', mo_retag MO m f ptr pt fe lk = Ret (p, m', f') -> J m (f :: L) -> J m' (f' :: L).
  Hypothesis Jend : forall m f L m', mo_end_call MO m f = Ret m' -> J m (f :: L) -> J m' L.

  Lemma insert_perm' {A} (l : list (list A)) i x y r : l !! i = Some (x ++ r) ->
    exists rest, concat l ≡ₚ x ++ rest /\ concat (<[i := y ++ r]> l) ≡ₚ y ++ rest.
  Proof.
    intros Hi. exists (concat (take i l) ++ r ++ concat (drop (S i) l)). split.
    - rewrite <- (take_drop_middle l i _ Hi) at 1. rewrite concat_app. cbn [concat].
      rewrite !app_assoc. apply Permutation_app_tail. rewrite <-!app_assoc. rewrite (app_assoc (concat _)), (app_assoc x). apply Permutation_app_tail, Permutation_app_comm.
    - rewrite insert_take_drop by (by eapply lookup_lt_Some). rewrite concat_app. cbn [concat].
      rewrite !app_assoc. apply Permutation_app_tail. rewrite <-!app_assoc. rewrite (app_assoc (concat _)), (app_assoc y). apply Permutation_app_tail, Permutation_app_comm.
  Qed.

  (** replacing some frames at the top of the active stack *)
  Lemma put_extras (m : Mach) t fs gs r : active_thread m = Ret t -> t_stack t = fs ++ r ->
    exists rest, call_data m ≡ₚ List.map f_extra fs ++ rest /\
      forall t', t_stack t' = gs ++ r -> call_data (set_active_thread m t') ≡ₚ List.map f_extra gs ++ rest.
  Proof.
    intros Ht Hs. apply unwrap_ret in Ht. set (L := List.map (fun t => List.map f_extra (t_stack t)) (m_threads m)).
    assert (HL : L !! m_active m = Some (List.map f_extra fs ++ List.map f_extra r)).
    { unfold L. change (List.map ?g ?l) with (g <$> l) at 1. rewrite list_lookup_fmap, Ht. cbn. by rewrite Hs, map_app. }
    destruct (insert_perm' L (m_active m) _ (List.map f_extra gs) _ HL) as (rest & H1 & H2). exists rest. split; [exact H1|].
    intros t' Ht'. etrans; [|exact H2]. unfold call_data. cbn. unfold L.
    rewrite <-List.map_app, <-Ht'.
    rewrite <-(list_fmap_insert (fun t0 : Thread P F => List.map f_extra (t_stack t0))). done.
  Qed.
  Lemma same_extras (m : Mach) t t' : active_thread m = Ret t -> t_stack t' = t_stack t -> call_data (set_active_thread m t') ≡ₚ call_data m.
  Proof.
    intros Ht Hs. destruct (put_extras m t [] [] (t_stack t) Ht eq_refl) as (rest & H1 & H2).
    rewrite (H2 t') by done. by rewrite H1.
  Qed.
  Lemma set_cur_extras (m : Mach) f f' m' : cur_frame m = Ret f -> set_cur_frame m f' = Ret m' ->
    exists rest, call_data m ≡ₚ f_extra f :: rest /\ call_data m' ≡ₚ f_extra f' :: rest.
  Proof.
    unfold cur_frame, set_cur_frame. intros Hf Hm. apply obind_ret in Hf as (t & Ht & Hf). rewrite Ht in Hm. cbn in Hm.
    destruct (t_stack t) as [|g r] eqn:Es; [done|]. injection Hf as ->. injection Hm as <-.
    destruct (put_extras m t [f] [f'] r Ht Es) as (rest & H1 & H2). exists rest. split; [exact H1|]. by apply H2.
  Qed.
  Lemma jump_extras (m : Mach) b m' : jump_to_block m b = Ret m' -> call_data m' ≡ₚ call_data m.
  Proof.
    unfold jump_to_block. intros E. apply obind_ret in E as (f & Hf & E).
    destruct (set_cur_extras _ _ _ _ Hf E) as (rest & H1 & H2). rewrite H2, H1. done.
  Qed.

  (** [J] holds with the frame data of a machine and more *)
  Definition K (L : list F) (m : Mach) : Prop := J (cm_mem (m_mem m)) (L ++ call_data m).
  Definition kr (L : list F) (m m' : Mach) : Prop := K L m -> K L m'.
  Lemma kr_refl L m : kr L m m.
  Proof. intros HK. exact HK. Qed.
  Lemma kr_trans L m1 m2 m3 : kr L m1 m2 -> kr L m2 m3 -> kr L m1 m3.
  Proof. unfold kr. auto. Qed.
  Lemma K_perm L m m' : m_mem m' = m_mem m -> call_data m' ≡ₚ call_data m -> K L m -> K L m'.
  Proof. unfold K. intros -> E. apply Jperm. by rewrite E. Qed.

  Lemma hist_J (A : Op -> Prop) c c' L : (forall op, A op -> plain op) -> hist MO A c c' -> J (cm_mem c) L -> J (cm_mem c') L.
  Proof.
    intros HA (ops & Hr & Ho). revert Hr. generalize (cm_mem c). unfold mem_run.
    induction ops as [|op ops IH]; intros m; cbn; [by intros [= ->]|]. intros (m1 & H1 & H2)%obind_ret HJ.
    eapply IH; [|exact H2|eapply Jplain; [|exact H1|done]].
    - intros o Hin. apply Ho. by right.
    - apply HA, Ho. by left.
  Qed.
  Lemma kload L m p n a at_ : post (cm_load MO (m_mem m) p n a at_) (fun r => kr L m (set_mem m (snd r))).
  Proof. eapply wp_mono; [by apply (cm_load_hist MO plain)|]. intros r H HK. eapply hist_J; [|exact H|exact HK]. done. Qed.
  Lemma kstore L m p b a at_ : post (cm_store MO (m_mem m) p b a at_) (fun mem => kr L m (set_mem m mem)).
  Proof. eapply wp_mono; [by apply (cm_store_hist MO plain)|]. intros r H HK. eapply hist_J; [|exact H|exact HK]. done. Qed.
  Lemma kretag L m ptr pt fe : post (retag_ptr MO m ptr pt fe) (fun r => kr L m (snd r)).
  Proof.
    apply post_intro. intros [p m'] E HK.
    unfold retag_ptr in E. apply obind_ret in E as (f & Hf & E).
    apply obind_ret in E as ([[p1 mem] extra] & Hr & E). apply obind_ret in E as (m1 & Hm & [= -> ->]).
    pose proof (set_cur_mem _ _ _ Hm) as Em. destruct (set_cur_extras (set_mem m mem) f _ _ Hf Hm) as (rest & H1 & H2).
    unfold K in *. cbn [snd]. rewrite Em. cbn. apply obind_ret in Hr as ([[p2 mem2] e2] & Hr & [= <- <- <-]).
    apply (Jperm _ (e2 :: L ++ rest)).
    { rewrite H2. cbn. by rewrite Permutation_middle. }
    eapply Jretag; [exact Hr|]. eapply Jperm; [|exact HK].
    change (call_data (set_mem m (cm_set (m_mem m) mem2))) with (call_data m) in H1. rewrite H1. by rewrite Permutation_middle.
  Qed.

  Lemma kvalue L e m : post (eval_value T MO e m) (fun r => kr L m (snd r)).
  Proof. apply eval_value_rel; [apply kr_refl|apply kr_trans|apply kload|apply kretag]. Qed.
  Lemma kplace L p m : post (eval_place T MO p m) (fun r => kr L m (snd r)).
  Proof. apply eval_place_rel; [apply kr_refl|apply kr_trans|apply kload|apply kretag]. Qed.
  Lemma ktyped_store L m ptr v ty al at_ : post (typed_store T MO m ptr v ty al at_) (kr L m).
  Proof. apply typed_store_rel, kstore. Qed.
  Lemma ktyped_load L m ptr ty al at_ : post (typed_load T MO m ptr ty al at_) (fun r => kr L m (snd r)).
  Proof. apply typed_load_rel, kload. Qed.
  Lemma kplace_load L m pl ty : post (place_load T MO m pl ty) (fun r => kr L m (snd r)).
  Proof. apply place_load_rel, kload. Qed.
  Lemma kplace_store L m pl v ty : post (place_store T MO m pl v ty) (kr L m).
  Proof. apply place_store_rel, kstore. Qed.
  Lemma kdeinit L m p n a : post (deinit MO m p n a) (kr L m).
  Proof. apply deinit_rel, kstore. Qed.
  Lemma kmap_st {A B} L (f : Mach -> A -> Outcome (B * Mach)) l m :
    Forall (fun x => forall m, post (f m x) (fun r => kr L m (snd r))) l -> post (map_st f l m) (fun r => kr L m (snd r)).
  Proof. apply map_st_rel; [apply kr_refl|apply kr_trans]. Qed.
  Lemma kencode L ptr tg m : post (encode_discriminant T (store_accessor T MO ptr) tg m) (kr L m).
  Proof. apply encode_discr_rel; [apply kr_refl|apply kr_trans|apply kstore]. Qed.
  Lemma kretag_val L fe ty v m : post (retag_val MO fe ty v m) (fun r => kr L m (snd r)).
  Proof. apply retag_val_rel; [apply kr_refl|apply kr_trans|apply kretag]. Qed.
  Lemma kargument L (m : Mach) a : post (eval_argument T MO m a) (fun r => kr L m (snd r)).
  Proof.
    destruct a as [e|p]; cbn; [apply kvalue|].
    apply wp_bind. eapply wp_mono; [apply kplace|]. intros [[pl ty] m1] H1.
    apply wp_bind. eapply wp_mono; [apply kplace_load|]. intros [v m2] H2.
    apply wp_bind. unfold prepare_for_inplace_passing. do 2 (apply post_bind_skip; intros ?).
    eapply wp_mono; [apply kdeinit|]. intros m3 H3. cbn in *. eauto using kr_trans.
  Qed.
  Lemma kraw L (m : Mach) p pt : post (load_raw_data MO m p pt) (fun r => kr L m (snd r)).
  Proof.
    unfold load_raw_data. destruct pt; try done. destruct (pi_layout _); try done.
    apply wp_bind. eapply wp_mono; [apply kload|]. intros [b mem] H1. by destruct (bytes_data b).
  Qed.

  (** ** Statements *)

  Lemma kstatement s (m : Mach) cs : post (eval_statement T MO s m cs) (fun r => kr [] m (fst r)).
  Proof.
    destruct s as [d e|p|d v|p fe|p|l|l]; cbn [eval_statement].
    - apply wp_bind. eapply wp_mono; [apply kplace|]. intros [[pl ty] m1] H1'.
      apply wp_bind. eapply wp_mono; [apply kvalue|]. intros [[v vt] m2] H2'.
      apply wp_bind. eapply wp_mono; [apply kplace_store|]. intros m3 H3'. cbn in *. eauto using kr_trans.
    - apply wp_bind. eapply wp_mono; [apply kplace|]. intros [[pl ty] m1] H1'. exact H1'.
    - apply wp_bind. eapply wp_mono; [apply kplace|]. intros [[pl ty] m1] H1'.
      destruct ty; try done. destruct (negb _); [done|]. apply post_bind_skip. intros var.
      apply wp_bind. eapply wp_mono; [apply kencode|]. intros m2 H2'. cbn in *. eauto using kr_trans.
    - apply wp_bind. eapply wp_mono; [apply kplace|]. intros [[pl ty] m1] H1'.
      apply wp_bind. eapply wp_mono; [apply kplace_load|]. intros [v m2] H2'.
      apply wp_bind. eapply wp_mono; [apply kretag_val|]. intros [w m3] H3'.
      apply wp_bind. eapply wp_mono; [apply kplace_store|]. intros m4 H4'. cbn in *. eauto 6 using kr_trans.
    - apply wp_bind. eapply wp_mono; [apply kplace|]. intros [[pl ty] m1] H1'.
      destruct (negb _); [done|]. apply post_bind_skip. intros sz.
      apply wp_bind. eapply wp_mono; [apply kdeinit|]. intros m2 H2'. cbn in *. eauto using kr_trans.
    - apply wp_bind, post_intro. intros f Hf. apply wp_bind. eapply wp_mono.
      { apply wp_eq, (storage_live_hist T MO plain); done. }
      intros [[f1 mem] cs1] [Hl E]. apply wp_bind, post_intro. intros m' Hm'. pose proof (set_cur_mem _ _ _ Hm') as Em.
      cbn [wp fst snd] in *. intros HK. destruct (set_cur_extras (set_mem m mem) f _ _ Hf Hm') as (rest & H1 & H2).
      assert (f_extra f1 = f_extra f) as Ef.
      { unfold storage_live in E. apply obind_ret in E as ([f2 mem1] & Hd & E).
        pose proof (storage_dead_hist T MO plain f (m_mem m) l ltac:(done)) as Hk. rewrite Hd in Hk. destruct Hk as (_ & Hk & _).
        do 4 (apply obind_ret in E as (? & _ & E); try destruct x1). apply obind_ret in E as ([? ?] & _ & [= <- _ _]). exact Hk. }
      unfold K in *. cbn in *. rewrite Em. cbn. eapply Jperm; [|eapply hist_J; [|exact Hl|exact HK]; done].
      rewrite H2, Ef. by rewrite <-H1.
    - apply wp_bind, post_intro. intros f Hf. apply wp_bind. eapply wp_mono.
      { apply (storage_dead_hist T MO plain); done. }
      intros [f1 mem] (Hl & Ef & _). apply wp_bind, post_intro. intros m' Hm'. pose proof (set_cur_mem _ _ _ Hm') as Em.
      cbn [wp fst snd] in *. intros HK. destruct (set_cur_extras (set_mem m mem) f _ _ Hf Hm') as (rest & H1 & H2).
      unfold K in *. cbn in *. rewrite Em. cbn. eapply Jperm; [|eapply hist_J; [|exact Hl|exact HK]; done].
      rewrite H2, Ef. by rewrite <-H1.
  Qed.

  (** ** Calls *)

  Lemma live_extra (f : StackFrame P F) mem l cs : post (storage_live T MO f mem l cs) (fun r => f_extra (fst (fst r)) = f_extra f).
  Proof.
    apply post_intro. intros [[f1 mem'] cs'] E. unfold storage_live in E. apply obind_ret in E as ([f2 mem1] & Hd & E).
    pose proof (storage_dead_hist T MO plain f mem l ltac:(done)) as Hk. rewrite Hd in Hk. destruct Hk as (_ & Hk & _).
    apply obind_ret in E as (ty & _ & E). apply obind_ret in E as (s & _ & E). apply obind_ret in E as (al & _ & E).
    apply obind_ret in E as ([ad cs1] & _ & E). apply obind_ret in E as ([p mem2] & _ & [= <- _ _]). exact Hk.
  Qed.
  Lemma kframe (m : Mach) func action conv rty args cs :
    post (create_frame T MO m func action conv rty args cs) (fun '(f, m', _) =>
      f_extra f = mo_new_call MO /\ m_threads m' = m_threads m /\ m_active m' = m_active m /\ (K [] m -> K [f_extra f] m')).
  Proof.
    unfold create_frame. apply wp_bind. eapply wp_mono.
    { apply (wp_fold_m _ True (fun i '(f, mem, _) => f_extra f = mo_new_call MO /\ hist MO plain (m_mem m) mem)).
      - split; [done|apply hist_refl].
      - intros i x [[f mem] cs1] _ [He Hi]. pose proof (live_extra f mem x cs1) as Hx.
        pose proof (storage_live_hist T MO plain f mem x cs1 ltac:(done) ltac:(done)) as Hl.
        destruct (storage_live _ _ _ _ _ _) as [[[f1 mem1] cs2]| | |]; try done. cbn in *. split; [congruence|by eapply hist_trans]. }
    intros [[f mem] cs1] [He Hi]. destruct (negb _); [done|]. apply post_bind_skip. intros ret.
    apply post_bind_skip. intros ok. destruct (negb _); [done|]. destruct (negb _); [done|].
    apply wp_bind. set (m0 := set_mem m mem).
    set (Q := fun m1 : Mach => m_threads m1 = m_threads m0 /\ m_active m1 = m_active m0 /\ kr [f_extra f] m0 m1).
    eapply wp_mono with (Q := Q).
    - assert (forall l1 l2 m1, Q m1 -> post (fold_m2 (fun m callee_local arg =>
          let! ty := unwrap (map_get (fn_locals func) callee_local) in
          let! ok := check_abi_compatibility (snd arg) ty in
          if negb ok then throw_ub "call ABI violation: argument types are not compatible" else
          let! align := align_of T (snd arg) in
          let! ptr := unwrap (map_get (f_locals f) callee_local) in
          expect_ok (typed_store T MO m ptr (fst arg) (snd arg) align NonAtomic)) l1 l2 m1) Q) as Hl;
        [|by apply Hl; split; [done|]; split; [done|]; apply kr_refl].
      induction l1 as [|x l1 IH]; intros [|[v ty] l2] m1 H1; try done. cbn [fold_m2].
      apply wp_bind. eapply wp_mono with (Q := Q); [|intros m2 H2; by apply IH].
      do 2 (apply post_bind_skip; intros ?). destruct (negb _); [done|].
      do 2 (apply post_bind_skip; intros ?). pose proof (ktyped_store [f_extra f] m1 a2 (fst (v, ty)) (snd (v, ty)) a1 NonAtomic) as Hs.
      pose proof (typed_store_rel T MO (fun m m' : Mach => m_threads m' = m_threads m /\ m_active m' = m_active m)
        ltac:(intros; by apply post_intro) m1 a2 (fst (v, ty)) (snd (v, ty)) a1 NonAtomic) as Ht.
      destruct (typed_store _ _ _ _ _ _ _) as [m2| | |]; try done. cbn in *. destruct H1 as (E1 & E2 & E3), Ht as [Ht1 Ht2]. split; [congruence|].
      split; [congruence|]. eauto using kr_trans.
    - intros m1 (E1 & E2 & H1). cbn. split; [done|]. split; [done|]. split; [done|]. intros HK. apply H1. unfold K in *. cbn in *.
      rewrite He. apply Jcall. eapply hist_J; [|exact Hi|exact HK]. done.
  Qed.

  (** ** Intrinsics *)

  Local Ltac cases :=
    repeat match goal with |- wp _ (match ?x with _ => _ end) _ => destruct x; try exact I end.

  Lemma set_thread_extras (m : Mach) i t t' : m_threads m !! i = Some t -> t_stack t' = t_stack t -> call_data (set_thread m i t') = call_data m.
  Proof.
    intros Ht Hs. unfold call_data. cbn. f_equal.
    change (List.map ?g ?l) with (g <$> l). rewrite (list_fmap_insert (fun t0 : Thread P F => List.map f_extra (t_stack t0))).
    apply list_insert_id. rewrite list_lookup_fmap, Ht. cbn. by rewrite Hs.
  Qed.

  Lemma kintrinsic (m : Mach) op args rty cs :
    post (eval_intrinsic T MO m op args rty cs) (fun '(_, m', _) => kr [] m m').
  Proof.
    assert (Hp : forall m1 : Mach, m_mem m1 = m_mem m -> call_data m1 ≡ₚ call_data m -> kr [] m m1) by (intros m1 E1 E2 HK; by eapply K_perm).
    assert (Hr : forall m1 : Mach, m_mem m1 = m_mem m -> m_threads m1 = m_threads m -> kr [] m m1).
    { intros m1 E1 E2. apply Hp; [done|]. unfold call_data. by rewrite E2. }
    destruct op as [| | | | | | | | | | | | |iop|lop| | |]; cbn [eval_intrinsic]; try done.
    - cases; apply post_bind_skip; intros _; cases; by apply Hr.
    - by apply post_bind_skip.
    - do 2 (apply post_bind_skip; intros ?). by apply Hr.
    - do 2 (apply post_bind_skip; intros ?). by apply Hr.
    - cases. apply post_bind_skip. intros [ad cs1]. apply wp_bind, post_intro. intros [p mem] Hm.
      apply (cm_alloc_hist MO plain) in Hm; [|done]. intros HK. eapply hist_J; [|exact Hm|exact HK]. done.
    - cases. apply post_bind_skip. intros ?. apply wp_bind, post_intro. intros mem Hm.
      apply obind_ret in Hm as (mem3 & Hm & [= <-]). intros HK. eapply (Jplain _ _ (OpDeallocate _ _ _ _)); [done|exact Hm|exact HK].
    - cases. apply post_bind_skip. intros func. cases. apply wp_bind. unfold spawn. apply wp_bind. unfold new_thread.
      apply wp_bind. eapply wp_mono; [apply kframe|]. intros [[f m1] cs1] (Hf & Et & Ea & H1). cbn. intros HK. apply H1 in HK.
      unfold K in *. cbn. eapply Jperm; [|exact HK]. unfold call_data. cbn. rewrite map_app, concat_app. cbn. apply Permutation_cons_append.
    - cases. apply post_bind_skip. intros _. apply wp_bind.
      unfold Step.join. destruct (list_get _ _) as [tj|] eqn:E; [|done].
      destruct (t_state tj) eqn:Es; try done; cbn [wp]; try (by apply Hr);
        apply wp_bind, post_intro; intros ta Hta; apply Hp; try done; by eapply same_extras.
    - cases. apply wp_bind. eapply wp_mono; [apply kraw|].
      intros [b1 m1] H1. apply wp_bind. eapply wp_mono; [apply kraw|].
      intros [b2 m2] H2. cbn in *. eauto using kr_trans.
    - cases. apply post_bind_skip. intros l. cases.
      apply post_bind_skip. intros _. apply wp_bind. eapply wp_mono; [apply ktyped_store|]. intros m1 H1. exact H1.
    - cases. apply post_bind_skip. intros l. cases.
      apply wp_bind. eapply wp_mono; [apply ktyped_load|]. intros [v m1] H1. exact H1.
    - cases. apply post_bind_skip. intros l.
      apply post_bind_skip. intros al. cases.
      apply wp_bind. eapply wp_mono; [apply ktyped_load|]. intros [v' m1] H1.
      case_match; [|exact H1].
      apply wp_bind. eapply wp_mono; [apply ktyped_store|]. intros m2 H2. cbn in *. eauto using kr_trans.
    - cases. apply post_bind_skip. intros l.
      apply post_bind_skip. intros al. cases.
      apply wp_bind. eapply wp_mono; [apply ktyped_load|]. intros [v' m1] H1.
      cases. apply post_bind_skip. intros nx.
      apply wp_bind. eapply wp_mono; [apply ktyped_store|]. intros m2 H2. cbn in *. eauto using kr_trans.
    - destruct lop.
      + cases. apply post_bind_skip. intros _. apply wp_bind.
        unfold lock_acquire. destruct (list_get _ _) as [[|o]|]; [by apply Hr| |done].
        apply wp_bind, post_intro. intros ta Hta. apply Hp; [done|]. by eapply same_extras.
      + cases. apply post_bind_skip. intros _. apply wp_bind.
        unfold lock_release. destruct (list_get _ _) as [[|o]|]; [done| |done]. destruct (negb _); [done|].
        destruct (some_thread_in _ _).
        * apply post_bind_skip. intros [w cs1]. apply wp_bind, post_unwrap. intros ta Hta. apply Hp; [done|].
          match goal with |- call_data ?x ≡ₚ _ => change (call_data x) with (call_data (set_thread m w (with_state ta Enabled))) end.
          by rewrite (set_thread_extras m w ta).
        * by apply Hr.
      + destruct args; [|done]. destruct rty; try done. by apply Hr.
    - cases. by apply Hr.
    - cases. apply post_bind_skip. intros [pr cs1]. apply post_bind_skip. intros p. by apply Hr.
    - cases. apply post_bind_skip. intros ta. destruct (head _); [|done]. by apply Hr.
  Qed.

  (** ** Terminators *)

  Lemma terminate_extras (m m' : Mach) : terminate_active_thread m = Ret m' -> call_data m' ≡ₚ call_data m.
  Proof.
    unfold terminate_active_thread. destruct (_ =? _)%nat; [done|]. intros E.
    apply obind_ret in E as (t & Ht & E). apply obind_ret in E as (u & _ & [= <-]).
    etrans; [|by apply (same_extras m t (with_state t Terminated) Ht)].
    unfold call_data. cbn. rewrite List.map_map. erewrite List.map_ext; [done|]. intros w. by destruct (bool_decide _).
  Qed.
  Lemma pop_extras (m m' : Mach) f : pop_frame m = Ret (f, m') -> call_data m ≡ₚ f_extra f :: call_data m' /\ m_mem m' = m_mem m.
  Proof.
    unfold pop_frame. intros Hp. apply obind_ret in Hp as (t & Ht & Hp). destruct (t_stack t) as [|g r] eqn:Es; [done|].
    injection Hp as <- <-. split; [|done]. destruct (put_extras m t [g] [] r Ht Es) as (rest & H1 & H2).
    rewrite (H2 (with_stack t r)) by done. exact H1.
  Qed.
  Lemma typed_load_data (m : Mach) ptr ty al at_ : post (typed_load T MO m ptr ty al at_) (fun r => call_data (snd r) = call_data m).
  Proof. apply (typed_load_rel T MO (fun m m' : Mach => call_data m' = call_data m)). intros. by apply post_intro. Qed.
  Lemma typed_store_data (m : Mach) ptr v ty al at_ : post (typed_store T MO m ptr v ty al at_) (fun m' => call_data m' = call_data m).
  Proof. apply (typed_store_rel T MO (fun m m' : Mach => call_data m' = call_data m)). intros. by apply post_intro. Qed.

  Lemma kterminator fr tm (m : Mach) cs : cur_frame m = Ret fr ->
    post (eval_terminator T MO tm m cs) (fun r => kr [] m (fst r) /\ (leaves (inr tm) -> call_data m ≡ₚ f_extra fr :: call_data (fst r))).
  Proof.
    intros Hcur.
    assert (Hjump : forall m1 b m2, jump_to_block m1 b = Ret m2 -> kr [] m m1 -> kr [] m m2).
    { intros m1 b m2 E Ho HK. eapply K_perm; [by eapply jump_mem_same|by eapply jump_extras|by apply Ho]. }
    assert (Hpop : forall f m1, pop_frame m = Ret (f, m1) -> f = fr).
    { intros f m1 Hp. unfold pop_frame in Hp. unfold cur_frame in Hcur. apply obind_ret in Hp as (t & Ht & Hp).
      rewrite Ht in Hcur. cbn in Hcur. destruct (t_stack t); [done|]. injection Hp as <- <-. by injection Hcur as <-. }
    assert (Hno : forall tm m', ~ leaves (inr tm) -> kr [] m m' -> kr [] m m' /\ (leaves (inr tm) -> call_data m ≡ₚ f_extra fr :: call_data m')).
    { intros tm' m' Hn Hk. split; [done|]. intros Hl. by destruct Hn. }
    destruct tm as [b|v cs'' fb| |op args ret nb|callee conv args ret nb ub| |v b|b|]; cbn [eval_terminator].
    - apply wp_bind, post_intro. intros m1 E. cbn. apply Hno; [by intros [?|?]|]. eapply Hjump; [done|]. apply kr_refl.
    - apply wp_bind. eapply wp_mono; [apply (kvalue [])|]. intros [[w wt] m1] H1. cbn in H1.
      destruct w as [i| | | | |]; try done. apply wp_bind, post_intro. intros m2 H2. cbn. apply Hno; [by intros [?|?]|]. by eapply Hjump.
    - done.
    - apply wp_bind. eapply wp_mono; [apply (kplace [])|]. intros [[pl ty] m1] H1. cbn in H1.
      apply wp_bind. eapply wp_mono.
      { apply (kmap_st []). apply Forall_true. intros e m'. apply kvalue. }
      intros [vs m2] H2. cbn in H2. apply wp_bind. eapply wp_mono; [apply kintrinsic|].
      intros [[v m3] cs1] H3. apply wp_bind. eapply wp_mono; [apply (kplace_store [])|].
      intros m4 H4. destruct nb as [b|]; [|done]. apply wp_bind, post_intro. intros m5 H5. cbn. apply Hno; [by intros [?|?]|].
      eapply Hjump; [done|]. eauto 6 using kr_trans.
    - apply wp_bind. eapply wp_mono; [apply (kplace [])|]. intros [[pl ty] m1] H1. cbn in H1.
      apply wp_bind. unfold prepare_for_inplace_passing. do 2 (apply post_bind_skip; intros ?).
      eapply wp_mono; [apply (kdeinit [])|]. intros m2 H2.
      apply wp_bind. eapply wp_mono; [apply (kvalue [])|]. intros [[fv ft] m3] H3. cbn in H3.
      apply post_bind_skip. intros func.
      apply wp_bind. eapply wp_mono.
      { apply (kmap_st []). apply Forall_true. intros e m'. apply kargument. }
      intros [vs m4] H4. cbn in H4. unfold eval_call. apply wp_bind. eapply wp_mono; [apply kframe|].
      intros [[f m5] cs1] (Hf & Et & Ea & H5). apply wp_bind, post_intro. intros t Ht. cbn [wp fst]. apply Hno; [by intros [?|?]|].
      intros HK. assert (K [] m4) as HK4 by auto. apply H5 in HK4.
      destruct (put_extras m5 t [] [f] (t_stack t) Ht eq_refl) as (rest & E1 & E2). unfold K in *.
      change (m_mem (set_active_thread m5 _)) with (m_mem m5). eapply Jperm; [|exact HK4]. cbn [app]. rewrite E2 by done. cbn. by rewrite E1.
    - apply wp_bind, post_intro. intros [f m1] Hp. pose proof (Hpop _ _ Hp) as ->. apply pop_extras in Hp as [Ep Em1].
      apply post_bind_skip. intros cty. apply post_bind_skip. intros al. apply post_bind_skip. intros rp.
      apply wp_bind. pose proof (ktyped_load [f_extra fr] m1 rp cty al NonAtomic) as Hl. pose proof (typed_load_data m1 rp cty al NonAtomic) as Hd.
      destruct (typed_load _ _ _ _ _ _ _) as [[rv m2]| | |]; try done. cbn [wp snd] in *.
      apply wp_bind. eapply wp_mono; [by apply (dealloc_locals_hist T MO plain)|]. intros [f1 mem1] (Hk & Hex & Hac). cbn [fst snd] in *.
      apply wp_bind, post_intro. intros mem2 He. apply obind_ret in He as (mem3 & He & [= <-]).
      assert (Hbase : kr [] m (set_mem m2 (cm_set mem1 mem3))).
      { intros HK. assert (K [f_extra fr] m2) as H2.
        { apply Hl. unfold K in *. cbn [app]. rewrite Em1. eapply Jperm; [|exact HK]. by rewrite <-Ep. }
        unfold K in *. cbn. eapply Jend; [exact He|]. rewrite Hex. eapply hist_J; [|exact Hk|exact H2]. done. }
      assert (Hdat : call_data m ≡ₚ f_extra fr :: call_data (set_mem m2 (cm_set mem1 mem3))).
      { change (call_data (set_mem m2 (cm_set mem1 mem3))) with (call_data m2). by rewrite Hd. }
      rewrite Hac. destruct (f_action fr) as [|nb ub p] eqn:Ea.
      + apply wp_bind, post_intro. intros m3 H3. pose proof (terminate_mem _ _ H3) as Em3. apply terminate_extras in H3. cbn [wp fst]. split.
        * intros HK. eapply K_perm; [exact Em3|exact H3|]. by apply Hbase.
        * intros _. by rewrite H3.
      + apply post_bind_skip. intros u. apply post_bind_skip. intros ?.
        apply wp_bind. match goal with |- wp _ (typed_store _ _ ?mm ?a ?b ?c ?d ?e) _ =>
          pose proof (ktyped_store [] mm a b c d e) as Hs; pose proof (typed_store_data mm a b c d e) as Hsd end.
        destruct (typed_store _ _ _ _ _ _ _) as [m3| | |]; try done. cbn [wp] in *.
        destruct nb as [b|]; [|done]. apply wp_bind, post_intro. intros m4 H4. cbn. split.
        * eapply Hjump; [done|]. by eapply kr_trans.
        * intros _. apply jump_extras in H4. by rewrite H4, Hsd.
    - apply wp_bind. eapply wp_mono; [apply (kvalue [])|]. intros [[w wt] m1] H1. cbn in H1.
      destruct w as [| |p| | |]; try done. destruct wt as [| |pt| | | | | |]; try done.
      cases. apply wp_bind, post_intro. intros t Ht. apply wp_bind, post_intro. intros m2 H2. cbn. apply Hno; [by intros [?|?]|].
      eapply Hjump; [done|]. intros HK. eapply (K_perm _ m1); [done|by eapply same_extras|by apply H1].
    - apply wp_bind, post_intro. intros t Ht. destruct (t_payloads t) as [|p ps] eqn:Ep; [done|].
      apply wp_bind, post_intro. intros m2 H2. cbn. apply Hno; [by intros [?|?]|]. eapply Hjump; [done|].
      intros HK. eapply (K_perm _ m); [done|by eapply same_extras|done].
    - apply wp_bind, post_intro. intros [f m1] Hp. pose proof (Hpop _ _ Hp) as ->. apply pop_extras in Hp as [Ep Em1].
      apply wp_bind. eapply wp_mono; [by apply (dealloc_locals_hist T MO plain)|]. intros [f1 mem1] (Hk & Hex & Hac). cbn [fst snd] in *.
      apply wp_bind, post_intro. intros mem2 He. apply obind_ret in He as (mem3 & He & [= <-]).
      assert (Hbase : kr [] m (set_mem m1 (cm_set mem1 mem3))).
      { intros HK. unfold K in *. cbn. eapply Jend; [exact He|]. rewrite Hex. eapply hist_J; [|exact Hk|]; [done|]. rewrite Em1.
        eapply Jperm; [|exact HK]. exact Ep. }
      rewrite Hac. destruct (f_action fr) as [|nb ub p] eqn:Ea; [done|]. destruct ub as [b|]; [|done].
      apply wp_bind, post_intro. intros m4 H4. cbn. split; [by eapply Hjump|]. intros _. apply jump_extras in H4. by rewrite H4.
  Qed.

  (** ** Steps *)

  Theorem kstep cs (m m' : Mach) : step T MO cs m = Ret m' ->
    kr [] m m' /\ forall fr x, about_to m (m_active m') fr x -> leaves x -> call_data m ≡ₚ f_extra fr :: call_data m'.
  Proof.
    unfold step. destruct (negb _); [done|].
    destruct (reset_data_race_tracking m) as [[ps pa] m0] eqn:Er.
    assert (H0 : m_threads m0 = m_threads m /\ cm_mem (m_mem m0) = cm_mem (m_mem m)).
    { unfold reset_data_race_tracking in Er. destruct (cm_reset_accesses _) as [a b] eqn:Ec.
      injection Er as _ _ <-. split; [done|]. cbn. by injection Ec as _ <-. }
    destruct H0 as (H0t & H0v). intros E.
    apply obind_ret in E as ([a cs1] & Ha & E). set (m1 := set_active m0 a) in *.
    apply obind_ret in E as (f & Hf & E). apply obind_ret in E as (block & Hb & E). apply unwrap_ret in Hb.
    apply obind_ret in E as ([m2 cs2] & E2 & E). apply obind_ret in E as (u & _ & [= <-]).
    assert (exists t r, m_threads m !! a = Some t /\ t_stack t = f :: r) as (t & r & Ht & Hs).
    { pose proof Hf as Hf'. unfold cur_frame in Hf'. apply obind_ret in Hf' as (t & Ht & Hf'). unfold active_thread in Ht. apply unwrap_ret in Ht.
      destruct (t_stack t) as [|g r] eqn:Es; [done|]. injection Hf' as <-. exists t, r.
      change (m_threads m0 !! a = Some t) in Ht. rewrite H0t in Ht. done. }
    assert (E01 : call_data m1 = call_data m) by (unfold call_data, m1; cbn; by rewrite H0t).
    assert (H01 : kr [] m m1) by (unfold kr, K; rewrite E01; change (m_mem m1) with (m_mem m0); by rewrite H0v).
    assert (Hfun : m_active m2 = a -> forall fr x, about_to m (m_active m2) fr x -> fr = f /\     match x with inl _ => (f_stmt f < length (bb_statements block))%nat | inr tm => f_stmt f = length (bb_statements block) /\ tm = bb_terminator block end).
    { intros -> fr x (t' & r' & b' & Ht' & Hs' & Hb' & Hx). rewrite Ht in Ht'. injection Ht' as <-. rewrite Hs in Hs'. injection Hs' as <- <-.
      rewrite Hb in Hb'. injection Hb' as <-. split; [done|]. destruct x; [by eapply lookup_lt_Some|]. by destruct Hx as [? <-]. }
    destruct (Nat.eqb_spec (f_stmt f) (length (bb_statements block))) as [Hn|Hn].
    - pose proof (kterminator f (bb_terminator block) m1 cs1 Hf) as Ho. rewrite E2 in Ho.
      pose proof (terminator_ctl T MO (bb_terminator block) m1 cs1) as Hc. rewrite E2 in Hc. cbn [wp fst] in *.
      apply c_term_active in Hc. change (m_active m2 = a) in Hc. destruct Ho as [Ho1 Ho2]. split; [by eapply kr_trans|].
      intros fr x Hab Hl. destruct (Hfun Hc fr x Hab) as [-> Hx]. destruct Hl as [-> | ->]; destruct Hx as [_ Hx]; rewrite <-E01; apply Ho2; rewrite <-Hx; first [by left|by right].
    - apply obind_ret in E2 as (s & Hst & E2). apply unwrap_ret in Hst. apply obind_ret in E2 as ([m3 cs3] & E3 & E2).
      apply obind_ret in E2 as (f2 & Hf2 & E2). apply obind_ret in E2 as (m4 & Hm4 & [= -> ->]).
      pose proof (kstatement s m1 cs1) as Ho. rewrite E3 in Ho.
      pose proof (statement_ctl T MO s m1 cs1) as Hc. rewrite E3 in Hc. cbn [wp fst] in *.
      pose proof (set_cur_mem _ _ _ Hm4) as Em. destruct (set_cur_extras _ _ _ _ Hf2 Hm4) as (rest & D1 & D2).
      apply set_cur_frame_ctl in Hm4 as (t3 & f3 & r3 & Ht3 & E4).
      assert (Ha2 : m_active m2 = a).
      { change (c_active (ctl m2) = a). rewrite E4. change (c_active (ctl m3) = a). by inversion Hc. }
      split.
      + intros HK. eapply (K_perm _ m3); [done|rewrite D2, D1; done|auto].
      + intros fr x Hab Hl. destruct (Hfun Ha2 fr x Hab) as [-> Hx]. destruct Hl as [-> | ->]; by destruct Hx as [? _].
  Qed.

  (** ** The start *)

  Hypothesis Jnew : J (mo_new MO) [].

  Lemma kalloc_all {X} k (sa : X -> Size * Align) mem cs l : post (alloc_all MO k sa mem cs l) (fun '(_, mem', _) => hist MO plain mem mem').
  Proof.
    unfold alloc_all. apply (wp_fold_m _ True (fun _ '(_, mem', _) => hist MO plain mem mem')); [apply hist_refl|].
    intros i [n x] [[ptrs mem1] cs1] _ H1. cbn [fst snd]. destruct (sa x) as [s al]. apply post_bind_skip. intros [ad cs2].
    apply wp_bind, post_intro. intros [p mem2] Hm. apply (cm_alloc_hist MO plain) in Hm; [|done]. cbn. by eapply hist_trans.
  Qed.
  Lemma kstart prog (m : Mach) : starts T MO prog m -> K [] m.
  Proof.
    intros (cs & rest & E).
    assert (post (machine_new T MO prog cs) (fun r => K [] (fst r))) as Hp; [|by rewrite E in Hp].
    clear E. unfold machine_new. apply post_bind_skip. intros _.
    apply wp_bind. eapply wp_mono; [by apply kalloc_all|]. intros [[gl mem1] cs1] H1.
    apply wp_bind. eapply wp_mono with (Q := hist MO plain mem1).
    { unfold fill_globals. apply (wp_fold_m _ True (fun _ mem' => hist MO plain mem1 mem')); [apply hist_refl|].
      intros i [n g] mem2 _ H2. apply post_bind_skip. intros bytes. apply post_bind_skip. intros ptr.
      pose proof (cm_store_hist MO plain mem2 ptr bytes (g_align g) NonAtomic ltac:(done)) as Hs.
      destruct (cm_store _ _ _ _ _ _); try done. cbn in *. by eapply hist_trans. }
    intros mem2 H2. apply wp_bind. eapply wp_mono; [by apply kalloc_all|]. intros [[fp mem3] cs3] H3.
    apply wp_bind. eapply wp_mono; [by apply kalloc_all|]. intros [[vp mem4] cs4] H4.
    apply post_bind_skip. intros func. apply wp_bind. unfold new_thread. apply wp_bind.
    eapply wp_mono; [apply kframe|]. intros [[f m1] cs5] (Hf & Et & _ & H5). cbn.
    cbn in Et. assert (hist MO plain (cm_new MO) mem4) as Hh by eauto using hist_trans.
    unfold K in *. cbn in *. eapply Jperm; [|apply H5; eapply hist_J; [|exact Hh|exact Jnew]; done].
    unfold call_data. cbn. by rewrite Et.
  Qed.
  Theorem kreach prog (m : Mach) : reachable T MO prog m -> J (cm_mem (m_mem m)) (call_data m).
  Proof.
    induction 1 as [m Hs|m m' Hr IH [cs Hs]]; [by apply kstart in Hs|]. by apply kstep in Hs as [Hs _]; apply Hs.
  Qed.
End Frames.
