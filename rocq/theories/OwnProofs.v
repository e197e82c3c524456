(** Which allocations a step creates and frees, and the invariant that stack memory is exactly the
    locals of the frames. *)
From Verif Require Export SchedProofs BasicMemProofs.
From Coq Require Import Permutation.

(** an allocation without its contents and without borrow tracking data *)
Record AV := mkAV { v_addr : Address; v_size : Size; v_align : Align; v_kind : AllocKind; v_live : bool }.

Section Own.
  Context {PE AE F : Type} `{EqDecision (nat * PE)}.
  Variable T : Target.
  Notation P := (nat * PE)%type.
  Notation M := (BMem PE AE).
  Notation Mach := (Machine P F M).
  Notation V := (list AV).
  Variable MO : MemOps P F M.
  Hypothesis BL : bm_like T MO.
  Hypothesis Tok : target_ok T.

  Definition view (a : Allocation PE AE) : AV :=
    mkAV (al_addr a) (al_size a) (al_align a) (al_kind a) (al_live a).
  Definition mv (mem : M) : V := List.map view mem.
  Definition mview (m : Mach) : V := mv (cm_mem (m_mem m)).

  (** ** Memory operations *)

  Lemma mv_lookup (mem : M) id : mv mem !! id = option_map view (mem !! id).
  Proof. apply list_lookup_fmap. Qed.
  Lemma mv_insert (mem : M) id a : mv (<[id := a]> mem) = <[id := view a]> (mv mem).
  Proof. apply list_fmap_insert. Qed.
  Lemma mv_insert_same (mem : M) id a a' :
    mem !! id = Some a -> view a' = view a -> mv (<[id := a']> mem) = mv mem.
  Proof.
    intros Ha Hv. rewrite mv_insert, Hv. apply list_insert_id. by rewrite mv_lookup, Ha.
  Qed.

  Lemma extra_mv (mem mem' : M) : extra_change mem mem' -> mv mem' = mv mem.
  Proof.
    induction 1 as [|m m1 id a ae Hc IH Ha]; [done|]. rewrite <-IH. by eapply mv_insert_same.
  Qed.
  Lemma store_mv mem p b al mem' : mo_store MO mem p b al = Ret mem' -> mv mem' = mv mem.
  Proof.
    destruct (bl_store _ _ BL mem p b al) as [h ->].
    intros (_ & [(_ & ->)|(_ & id & pe & off & a & ae & data & _ & Ha & Hl & _ & _ & _ & Hd & ->)])%bm_store_ret;
      [done|].
    eapply mv_insert_same; [done|]. unfold view, al_size. cbn. apply write_subslice_length in Hd.
    by rewrite Hd.
  Qed.
  Lemma load_mv mem p n al b mem' : mo_load MO mem p n al = Ret (b, mem') -> mv mem' = mv mem.
  Proof.
    destruct (bl_load _ _ BL mem p n al) as [h ->].
    intros (_ & [(_ & _ & ->)|(_ & id & pe & off & a & ae & _ & Ha & Hl & _ & _ & _ & Hd & ->)])%bm_load_ret;
      [done|].
    by eapply mv_insert_same.
  Qed.
  (** a range of addresses that can be allocated *)
  Definition vacant (v : V) (s : Size) (al : Align) (ad : Address) : Prop :=
    0 < ad /\ ad mod Z.of_N (align_bytes al) = 0 /\ ad + Z.of_N s < 2 ^ (8 * Z.of_N (PTR_SIZE T)) /\
    Z.of_N s <= 2 ^ (8 * Z.of_N (PTR_SIZE T) - 1) - 1 /\
    forall i x, v !! i = Some x -> v_live x = true ->
      v_addr x <> ad /\ ranges_apart (v_addr x) (v_size x) ad s.
  Lemma alloc_mv mem k s al ad p mem' : mo_allocate MO mem k s al ad = Ret (p, mem') ->
    mv mem' = mv mem ++ [mkAV ad s al k true] /\ vacant (mv mem) s al ad /\
    exists pe, p = mkThin ad (Some (length (mv mem), pe)).
  Proof.
    destruct (bl_alloc _ _ BL mem k s al) as (pe & ae & E). rewrite E.
    intros (Hv & Hok & -> & ->)%bm_allocate_ret. split; [|split].
    - unfold mv. rewrite map_app. cbn. do 2 f_equal. unfold view, al_size. cbn.
      rewrite list_repeat_length. f_equal. lia.
    - apply addr_ok_spec in Hok as (Hpos & Hal & Hin & Hap). apply (tok_valid T Tok) in Hv.
      pose proof (ptr_size_pos T Tok) as Hps.
      apply in_bounds_spec in Hin. apply in_bounds_spec in Hv. unfold int_max, size_bits in *. simpl in *.
      destruct (N.eqb_spec (PTR_SIZE T) 0); [done|].
      split; [done|]. split; [done|]. split; [lia|]. split; [lia|].
      intros i x Hx Hl. rewrite mv_lookup in Hx. destruct (mem !! i) as [a|] eqn:Ea; [|done].
      injection Hx as <-. by eapply Hap.
    - exists pe. unfold mv. by rewrite map_length.
  Qed.
  Lemma dealloc_mv mem p k s al mem' : mo_deallocate MO mem p k s al = Ret mem' ->
    exists id pe, tp_prov p = Some (id, pe) /\ mv mem !! id = Some (mkAV (tp_addr p) s al k true) /\
      mv mem' = <[id := mkAV (tp_addr p) s al k false]> (mv mem).
  Proof.
    destruct (bl_dealloc _ _ BL mem p k s al) as [h ->].
    intros (id & pe & a & ae & Hp & Ha & Hl & -> & -> & -> & -> & _ & ->)%bm_deallocate_ret.
    exists id, pe. split; [done|]. rewrite mv_lookup, Ha. cbn [option_map]. split.
    - unfold view. by rewrite Hl.
    - by rewrite mv_insert.
  Qed.

  (** ** Evaluation *)

  Definition quiet (m m' : Mach) : Prop := same m m' /\ mview m' = mview m.
  Lemma quiet_refl m : quiet m m.
  Proof. done. Qed.
  Lemma quiet_trans m1 m2 m3 : quiet m1 m2 -> quiet m2 m3 -> quiet m1 m3.
  Proof. intros [A1 B1] [A2 B2]. split; [by eapply same_trans|congruence]. Qed.

  Lemma cm_store_quiet m p b a at_ :
    post (cm_store MO (m_mem m) p b a at_) (fun mem => quiet m (set_mem m mem)).
  Proof.
    apply post_intro. intros mem Hm. apply obind_ret in Hm as (mem' & Hm & [= <-]).
    apply store_mv in Hm. split; [done|]. exact Hm.
  Qed.
  Lemma cm_load_quiet m p n a at_ :
    post (cm_load MO (m_mem m) p n a at_) (fun r => quiet m (set_mem m (snd r))).
  Proof.
    apply post_intro. intros [b mem] Hm. apply obind_ret in Hm as ([b' mem'] & Hm & [= <- <-]).
    apply load_mv in Hm. split; [done|]. exact Hm.
  Qed.
  Lemma set_cur_frame_mem (m : Mach) f m' : set_cur_frame m f = Ret m' -> m_mem m' = m_mem m.
  Proof.
    unfold set_cur_frame. intros Hm. apply obind_ret in Hm as (t & _ & Hm).
    destruct (t_stack t); [done|]. by injection Hm as <-.
  Qed.
  Lemma retag_ptr_quiet m ptr pt fe : post (retag_ptr MO m ptr pt fe) (fun r => quiet m (snd r)).
  Proof.
    pose proof (retag_ptr_same MO m ptr pt fe) as Hs. apply post_intro. intros [p m'] E. rewrite E in Hs.
    split; [exact Hs|]. unfold retag_ptr in E. apply obind_ret in E as (f & _ & E).
    apply obind_ret in E as ([[p1 mem] extra] & Hr & E). apply obind_ret in E as (m1 & Hm & [= -> ->]).
    apply set_cur_frame_mem in Hm. unfold mview. cbn [snd]. rewrite Hm. cbn.
    apply obind_ret in Hr as ([[p2 mem2] e2] & Hr & [= <- <- <-]).
    apply (bl_retag _ _ BL) in Hr. by apply extra_mv.
  Qed.

  Lemma typed_store_quiet m ptr v ty al at_ : post (typed_store T MO m ptr v ty al at_) (quiet m).
  Proof. apply typed_store_rel, cm_store_quiet. Qed.
  Lemma typed_load_quiet m ptr ty al at_ :
    post (typed_load T MO m ptr ty al at_) (fun r => quiet m (snd r)).
  Proof. apply typed_load_rel, cm_load_quiet. Qed.
  Lemma place_load_quiet m pl ty : post (place_load T MO m pl ty) (fun r => quiet m (snd r)).
  Proof. apply place_load_rel, cm_load_quiet. Qed.
  Lemma place_store_quiet m pl v ty : post (place_store T MO m pl v ty) (quiet m).
  Proof. apply place_store_rel, cm_store_quiet. Qed.
  Lemma deinit_quiet m p n a : post (deinit MO m p n a) (quiet m).
  Proof. apply deinit_rel, cm_store_quiet. Qed.
  Lemma map_st_quiet {A B} (f : Mach -> A -> Outcome (B * Mach)) l m :
    Forall (fun x => forall m, post (f m x) (fun r => quiet m (snd r))) l ->
    post (map_st f l m) (fun r => quiet m (snd r)).
  Proof. apply map_st_rel; [apply quiet_refl|apply quiet_trans]. Qed.
  Lemma encode_discr_quiet ptr tg m :
    post (encode_discriminant T (store_accessor T MO ptr) tg m) (quiet m).
  Proof. apply encode_discr_rel; [apply quiet_refl|apply quiet_trans|apply cm_store_quiet]. Qed.
  Lemma eval_value_quiet e m : post (eval_value T MO e m) (fun r => quiet m (snd r)).
  Proof. apply eval_value_rel; [apply quiet_refl|apply quiet_trans|apply cm_load_quiet|apply retag_ptr_quiet]. Qed.
  Lemma eval_place_quiet p m : post (eval_place T MO p m) (fun r => quiet m (snd r)).
  Proof. apply eval_place_rel; [apply quiet_refl|apply quiet_trans|apply cm_load_quiet|apply retag_ptr_quiet]. Qed.
  Lemma retag_val_quiet fe ty v m : post (retag_val MO fe ty v m) (fun r => quiet m (snd r)).
  Proof. apply retag_val_rel; [apply quiet_refl|apply quiet_trans|apply retag_ptr_quiet]. Qed.
  Lemma eval_argument_quiet (m : Mach) a : post (eval_argument T MO m a) (fun r => quiet m (snd r)).
  Proof.
    destruct a as [e|p]; cbn; [apply eval_value_quiet|].
    apply wp_bind. eapply wp_mono; [apply eval_place_quiet|]. intros [[pl ty] m1] H1.
    apply wp_bind. eapply wp_mono; [apply place_load_quiet|]. intros [v m2] H2.
    apply wp_bind. unfold prepare_for_inplace_passing. do 2 (apply post_bind_skip; intros ?).
    eapply wp_mono; [apply deinit_quiet|]. intros m3 H3. cbn in *. eauto using quiet_trans.
  Qed.

  (** ** Frames *)

  (** a frame as far as its locals are concerned *)
  Notation FL := (Function * list (LocalName * ThinPtr P))%type.
  Definition fl (f : FrameCtl P) : FL := (fc_func f, fc_locals f).
  Definition lay (c : Ctl P) : list (list FL) := List.map (fun t => List.map fl (tc_stack t)) (c_threads c).

  Inductive kill : FL -> V -> LocalName -> FL -> V -> Prop :=
  | kill_none fn ls v l : map_get ls l = None -> kill (fn, ls) v l (fn, ls) v
  | kill_some fn ls v l p id pe ty s a :
      map_get ls l = Some p -> map_get (fn_locals fn) l = Some ty ->
      size_of T ty = Ret s -> align_of T ty = Ret a ->
      tp_prov p = Some (id, pe) -> v !! id = Some (mkAV (tp_addr p) s a AStack true) ->
      kill (fn, ls) v l (fn, map_remove ls l) (<[id := mkAV (tp_addr p) s a AStack false]> v).
  Inductive live : FL -> V -> LocalName -> FL -> V -> Prop :=
  | live_intro fn ls ls1 v v1 l ty s a ad pe :
      kill (fn, ls) v l (fn, ls1) v1 -> map_get (fn_locals fn) l = Some ty ->
      size_of T ty = Ret s -> align_of T ty = Ret a -> vacant v1 s a ad ->
      live (fn, ls) v l (fn, map_insert ls1 l (mkThin ad (Some (length v1, pe)))) (v1 ++ [mkAV ad s a AStack true]).
  Inductive iterl (R : FL -> V -> LocalName -> FL -> V -> Prop) : FL -> V -> list LocalName -> FL -> V -> Prop :=
  | it_nil f v : iterl R f v [] f v
  | it_cons f v l f1 v1 ls f2 v2 : R f v l f1 v1 -> iterl R f1 v1 ls f2 v2 -> iterl R f v (l :: ls) f2 v2.

  Lemma iter_snoc R f v ls f1 v1 l f2 v2 :
    iterl R f v ls f1 v1 -> R f1 v1 l f2 v2 -> iterl R f v (ls ++ [l]) f2 v2.
  Proof.
    induction 1 as [|f v l0 f0 v0 ls f1 v1 H0 Hi IH]; intros H2; cbn.
    - econstructor; [done|constructor].
    - econstructor; [done|]. by apply IH.
  Qed.

  (** everything else neither allocates nor frees *)
  Definition no_alloc (x : Statement + Terminator) : Prop :=
    match x with
    | inl (SStorageDead _) | inl (SStorageLive _) => False
    | inr (TmCall _ _ _ _ _ _) | inr TmReturn | inr TmResumeUnwind => False
    | inr (TmIntrinsic op _ _ _) => match op with InSpawn | InAllocate | InDeallocate => False | _ => True end
    | _ => True
    end.

  Inductive own_step (prog : Program) (L : list (list FL)) (v : V) (a : nat) : Statement + Terminator -> list (list FL) -> V -> Prop :=
  | os_same x : no_alloc x -> own_step prog L v a x L v
  | os_dead l f r f' v' : L !! a = Some (f :: r) -> kill f v l f' v' ->
      own_step prog L v a (inl (SStorageDead l)) (<[a := f' :: r]> L) v'
  | os_live l f r f' v' : L !! a = Some (f :: r) -> live f v l f' v' ->
      own_step prog L v a (inl (SStorageLive l)) (<[a := f' :: r]> L) v'
  | os_call callee conv args ret nb ub func n st f' v' : L !! a = Some st ->
      map_get (pr_functions prog) n = Some func ->
      iterl live (func, []) v (fn_ret func :: fn_args func) f' v' ->
      own_step prog L v a (inr (TmCall callee conv args ret nb ub)) (<[a := f' :: st]> L) v'
  | os_pop tm f r f' v' : tm = TmReturn \/ tm = TmResumeUnwind -> L !! a = Some (f :: r) ->
      iterl kill f v (List.map fst (snd f)) f' v' ->
      own_step prog L v a (inr tm) (<[a := r]> L) v'
  | os_spawn args ret nb func n f' v' :
      map_get (pr_functions prog) n = Some func ->
      iterl live (func, []) v (fn_ret func :: fn_args func) f' v' ->
      own_step prog L v a (inr (TmIntrinsic InSpawn args ret nb)) (L ++ [[f']]) v'
  | os_alloc args ret nb ad s al : vacant v s al ad ->
      own_step prog L v a (inr (TmIntrinsic InAllocate args ret nb)) L (v ++ [mkAV ad s al AHeap true])
  | os_free args ret nb id ad s al : v !! id = Some (mkAV ad s al AHeap true) ->
      own_step prog L v a (inr (TmIntrinsic InDeallocate args ret nb)) L (<[id := mkAV ad s al AHeap false]> v).

  (** ** Statements *)

  Lemma storage_dead_kill (f : StackFrame P F) mem l :
    post (storage_dead T MO f mem l) (fun r =>
      kill (fl (fctl f)) (mv (cm_mem mem)) l (fl (fctl (fst r))) (mv (cm_mem (snd r))) /\
      exists ls, fctl (fst r) = fc_with_locals (fctl f) ls).
  Proof.
    pose proof (storage_dead_ctl T MO f mem l) as Hs. apply post_intro. intros [f' mem'] E. rewrite E in Hs.
    split; [|exact Hs]. unfold storage_dead in E.
    apply obind_ret in E as (ty & Hty & E). apply unwrap_ret in Hty.
    apply obind_ret in E as (s & Es & E). apply obind_ret in E as (al & Ea & E).
    destruct (map_get (f_locals f) l) as [p|] eqn:Ep.
    - apply obind_ret in E as (mem1 & Hd & [= <- <-]). apply obind_ret in Hd as (mem2 & Hd & [= <-]).
      apply dealloc_mv in Hd as (id & pe & Hp & Hv & E2). cbn [snd fst fctl with_locals f_func f_locals cm_set cm_mem].
      rewrite E2. unfold fl. cbn [fc_func fc_locals f_func f_locals fctl with_locals]. by eapply kill_some.
    - injection E as <- <-. by apply kill_none.
  Qed.

  Lemma storage_live_live (f : StackFrame P F) mem l cs :
    post (storage_live T MO f mem l cs) (fun r =>
      live (fl (fctl f)) (mv (cm_mem mem)) l (fl (fctl (fst (fst r)))) (mv (cm_mem (snd (fst r)))) /\
      exists ls, fctl (fst (fst r)) = fc_with_locals (fctl f) ls).
  Proof.
    pose proof (storage_live_ctl T MO f mem l cs) as Hs. apply post_intro. intros [[f' mem'] cs'] E. rewrite E in Hs.
    split; [|exact Hs]. unfold storage_live in E. apply obind_ret in E as ([f1 mem1] & Hd & E).
    pose proof (storage_dead_kill f mem l) as Hk. rewrite Hd in Hk. destruct Hk as [Hk [ls Hls]].
    apply obind_ret in E as (ty & Hty & E). apply unwrap_ret in Hty.
    apply obind_ret in E as (s & Es & E). apply obind_ret in E as (al & Ea & E).
    apply obind_ret in E as ([ad cs1] & _ & E). apply obind_ret in E as ([p mem2] & Hm & [= <- <- <-]).
    apply obind_ret in Hm as ([p' mem3] & Hm & [= <- <-]). apply alloc_mv in Hm as (E2 & Hfr & pe & ->).
    cbn [snd fst] in *. cbn [cm_set cm_mem]. rewrite E2. unfold fl in *. cbn [fc_func fc_locals fctl with_locals f_func f_locals] in *.
    assert (f_func f1 = f_func f) as Ef.
    { change (fc_func (fctl f1) = f_func f). by rewrite Hls. }
    rewrite Ef in *. by eapply live_intro.
  Qed.

  Lemma lay_put (c : Ctl P) t : lay (c_put c t) = <[c_active c := List.map fl (tc_stack t)]> (lay c).
  Proof. unfold lay, c_put, c_with_threads. cbn [c_threads]. apply (list_fmap_insert (fun t => List.map fl (tc_stack t))). Qed.
  Lemma lay_lookup (c : Ctl P) a t : c_threads c !! a = Some t -> lay c !! a = Some (List.map fl (tc_stack t)).
  Proof.
    intros Ht. unfold lay. rewrite (list_lookup_fmap (fun t => List.map fl (tc_stack t))). by rewrite Ht.
  Qed.
  Lemma lay_top (c : Ctl P) t f r : c_top c t f r -> lay c !! c_active c = Some (fl f :: List.map fl r).
  Proof. intros [Ht Hs]. rewrite (lay_lookup _ _ _ Ht), Hs. done. Qed.
  Lemma lay_put_same (c : Ctl P) t t' : c_threads c !! c_active c = Some t ->
    List.map fl (tc_stack t') = List.map fl (tc_stack t) -> lay (c_put c t') = lay c.
  Proof. intros Ht E. rewrite lay_put, E. apply list_insert_id. by apply lay_lookup. Qed.
  Lemma lay_jump (c : Ctl P) b c' : c_jump c b c' -> lay c' = lay c.
  Proof.
    intros (t & f & r & [Ht Hs] & ->). eapply lay_put_same; [done|]. cbn [tc_with_stack tc_stack].
    by rewrite Hs.
  Qed.
  Lemma jump_mem (m : Mach) b m' : jump_to_block m b = Ret m' -> m_mem m' = m_mem m.
  Proof.
    unfold jump_to_block. intros E. apply obind_ret in E as (f & _ & E). by apply set_cur_frame_mem in E.
  Qed.

  (** what is at stake: the layout of the frames and the views of the allocations *)
  Definition own_to (m : Mach) (x : Statement + Terminator) (m' : Mach) : Prop :=
    own_step (m_prog m) (lay (ctl m)) (mview m) (m_active m) x (lay (ctl m')) (mview m').
  Lemma own_quiet m x m' : no_alloc x -> quiet m m' -> own_to m x m'.
  Proof. intros Hx [E1 E2]. unfold own_to. rewrite E1, E2. by constructor. Qed.
  Lemma own_quiet_r m x m1 m' : own_to m x m1 -> quiet m1 m' -> own_to m x m'.
  Proof. unfold own_to. intros Ho [E1 E2]. by rewrite E1, E2. Qed.
  Lemma own_quiet_l m m1 x m' : quiet m m1 -> own_to m1 x m' -> own_to m x m'.
  Proof.
    unfold own_to. intros [E1 E2] Ho. rewrite E1, E2 in Ho.
    change (m_prog m1) with (c_prog (ctl m1)) in Ho. rewrite E1 in Ho. change (c_prog (ctl m)) with (m_prog m) in Ho.
    assert (m_active m1 = m_active m) as <- by (change (c_active (ctl m1) = c_active (ctl m)); by rewrite E1). done.
  Qed.

  Lemma statement_own s (m : Mach) cs :
    post (eval_statement T MO s m cs) (fun r => own_to m (inl s) (fst r)).
  Proof.
    destruct s as [d e|p|d v|p fe|p|l|l]; cbn [eval_statement].
    - apply wp_bind. eapply wp_mono; [apply eval_place_quiet|]. intros [[pl ty] m1] H1.
      apply wp_bind. eapply wp_mono; [apply eval_value_quiet|]. intros [[v vt] m2] H2.
      apply wp_bind. eapply wp_mono; [apply place_store_quiet|]. intros m3 H3. apply own_quiet; [done|].
      cbn in *. eauto using quiet_trans.
    - apply wp_bind. eapply wp_mono; [apply eval_place_quiet|]. intros [[pl ty] m1] H1. by apply own_quiet.
    - apply wp_bind. eapply wp_mono; [apply eval_place_quiet|]. intros [[pl ty] m1] H1.
      destruct ty; try done. destruct (negb _); [done|]. apply post_bind_skip. intros var.
      apply wp_bind. eapply wp_mono; [apply encode_discr_quiet|]. intros m2 H2. apply own_quiet; [done|].
      cbn in *. eauto using quiet_trans.
    - apply wp_bind. eapply wp_mono; [apply eval_place_quiet|]. intros [[pl ty] m1] H1.
      apply wp_bind. eapply wp_mono; [apply place_load_quiet|]. intros [v m2] H2.
      apply wp_bind. eapply wp_mono; [apply retag_val_quiet|]. intros [w m3] H3.
      apply wp_bind. eapply wp_mono; [apply place_store_quiet|]. intros m4 H4. apply own_quiet; [done|].
      cbn in *. eauto 6 using quiet_trans.
    - apply wp_bind. eapply wp_mono; [apply eval_place_quiet|]. intros [[pl ty] m1] H1.
      destruct (negb _); [done|]. apply post_bind_skip. intros sz.
      apply wp_bind. eapply wp_mono; [apply deinit_quiet|]. intros m2 H2. apply own_quiet; [done|].
      cbn in *. eauto using quiet_trans.
    - apply wp_bind, post_intro. intros f Hf. apply wp_bind. eapply wp_mono; [apply storage_live_live|].
      intros [[f1 mem] cs1] [Hl [ls Els]]. apply wp_bind, post_intro. intros m' Hm'.
      cbn [fst snd] in *. pose proof (set_cur_frame_mem _ _ _ Hm') as Em.
      destruct (put_frame_ctl _ _ _ _ _ _ Hf Els Hm') as (t & r & Ht & E). cbn [wp fst].
      unfold own_to. rewrite E, lay_put. unfold mview at 2. rewrite Em. cbn [tc_with_stack tc_stack List.map].
      change (m_active m) with (c_active (ctl m)). rewrite <-Els.
      apply os_live with (f := fl (fctl f)); [by apply lay_top in Ht|]. exact Hl.
    - apply wp_bind, post_intro. intros f Hf. apply wp_bind. eapply wp_mono; [apply storage_dead_kill|].
      intros [f1 mem] [Hl [ls Els]]. apply wp_bind, post_intro. intros m' Hm'.
      cbn [fst snd] in *. pose proof (set_cur_frame_mem _ _ _ Hm') as Em.
      destruct (put_frame_ctl _ _ _ _ _ _ Hf Els Hm') as (t & r & Ht & E). cbn [wp fst].
      unfold own_to. rewrite E, lay_put. unfold mview at 2. rewrite Em. cbn [tc_with_stack tc_stack List.map].
      change (m_active m) with (c_active (ctl m)). rewrite <-Els.
      apply os_dead with (f := fl (fctl f)); [by apply lay_top in Ht|]. exact Hl.
  Qed.

  (** ** Calls *)

  Lemma create_frame_own (m : Mach) func action conv rty args cs :
    post (create_frame T MO m func action conv rty args cs) (fun '(f, m', _) =>
      same m m' /\ (exists ls, fctl f = mkFCtl func ls action (fn_start func) 0) /\
      iterl live (func, []) (mview m) (fn_ret func :: fn_args func) (fl (fctl f)) (mview m')).
  Proof.
    unfold create_frame. apply wp_bind.
    eapply wp_mono.
    { apply (wp_fold_m _ True (fun i '(f, mem, _) => (exists ls, fctl f = mkFCtl func ls action (fn_start func) 0) /\
        iterl live (func, []) (mview m) (take i (fn_ret func :: fn_args func)) (fl (fctl f)) (mv (cm_mem mem)))).
      - split; [by eexists|]. constructor.
      - intros i x [[f mem] cs1] Hx [[ls Hf] Hi]. eapply wp_mono; [apply storage_live_live|].
        intros [[f1 mem1] cs2] [Hl [ls1 H1]]. cbn [fst snd] in *. split; [rewrite H1, Hf; by eexists|].
        erewrite take_S_r by done. by eapply iter_snoc. }
    intros [[f mem] cs1] [Hf Hi]. rewrite firstn_all in Hi. destruct (negb _); [done|]. apply post_bind_skip. intros ret.
    apply post_bind_skip. intros ok. destruct (negb _); [done|]. destruct (negb _); [done|].
    apply wp_bind. set (m0 := set_mem m mem). eapply wp_mono with (Q := quiet m0).
    - assert (forall l1 l2 m1, quiet m0 m1 -> post (fold_m2 (fun m callee_local arg =>
          let! ty := unwrap (map_get (fn_locals func) callee_local) in
          let! ok := check_abi_compatibility (snd arg) ty in
          if negb ok then throw_ub "call ABI violation: argument types are not compatible" else
          let! align := align_of T (snd arg) in
          let! ptr := unwrap (map_get (f_locals f) callee_local) in
          expect_ok (typed_store T MO m ptr (fst arg) (snd arg) align NonAtomic)) l1 l2 m1) (quiet m0)) as Hl;
        [|by apply Hl].
      induction l1 as [|x l1 IH]; intros [|[v ty] l2] m1 H1; try done. cbn [fold_m2].
      apply wp_bind. eapply wp_mono with (Q := quiet m0); [|intros m2 H2; by apply IH].
      do 2 (apply post_bind_skip; intros ?). destruct (negb _); [done|].
      do 2 (apply post_bind_skip; intros ?). pose proof (typed_store_quiet m1 a2 (fst (v, ty)) (snd (v, ty)) a1 NonAtomic) as Hs.
      destruct (typed_store _ _ _ _ _ _ _); try done. cbn in *. eauto using quiet_trans.
    - intros m1 [H1 H2]. split; [done|]. split; [done|]. rewrite H2. done.
  Qed.

  (** ** Intrinsics *)

  Definition tl (t : ThreadCtl P) : list FL := List.map fl (tc_stack t).
  Lemma lay_set_state (ts : list (ThreadCtl P)) w s :
    List.map tl (set_state_at ts w s) = List.map tl ts.
  Proof.
    unfold set_state_at. destruct (ts !! w) as [t|] eqn:Et; [|done].
    rewrite (list_fmap_insert tl). apply list_insert_id.
    change (List.map tl ts) with (tl <$> ts). rewrite list_lookup_fmap, Et. done.
  Qed.
  Lemma lay_intrinsic (c : Ctl P) op c' : op <> InSpawn -> c_intrinsic c op c' -> lay c' = lay c.
  Proof.
    intros Hop Hc. destruct Hc; try done.
    - by eapply lay_put_same.
    - by eapply lay_put_same.
    - unfold lay, c_with_locks, c_with_sync, c_with_threads. cbn [c_threads]. apply (lay_set_state (c_threads c)).
  Qed.

  Lemma load_raw_data_quiet (m : Mach) p pt : post (load_raw_data MO m p pt) (fun r => quiet m (snd r)).
  Proof.
    unfold load_raw_data. destruct pt; try done. destruct (pi_layout _); try done.
    apply wp_bind. eapply wp_mono; [apply cm_load_quiet|]. intros [b mem] H1. by destruct (bytes_data b).
  Qed.

  Local Ltac cases :=
    repeat match goal with |- wp _ (match ?x with _ => _ end) _ => destruct x; try exact I end.

  Lemma intrinsic_view (m : Mach) op args rty cs :
    match op with InSpawn | InAllocate | InDeallocate => False | _ => True end ->
    post (eval_intrinsic T MO m op args rty cs) (fun '(_, m', _) => mview m' = mview m).
  Proof.
    intros Ho. assert (Hq : forall m', quiet m m' -> mview m' = mview m) by (by intros m' [_ ?]).
    destruct op as [| | | | | | | | | | | | |iop|lop| | |]; cbn [eval_intrinsic]; try done.
    - cases; apply post_bind_skip; intros _; cases; done.
    - by apply post_bind_skip.
    - do 2 (apply post_bind_skip; intros ?). done.
    - do 2 (apply post_bind_skip; intros ?). done.
    - cases. apply post_bind_skip. intros _. apply wp_bind.
      unfold Step.join. destruct (list_get _ _) as [tj|] eqn:E; [|done].
      destruct (t_state tj) eqn:Es; try done; cbn [wp]; apply post_bind_skip; intros ?; done.
    - cases. apply wp_bind. eapply wp_mono; [apply load_raw_data_quiet|].
      intros [b1 m1] H1. apply wp_bind. eapply wp_mono; [apply load_raw_data_quiet|].
      intros [b2 m2] H2. cbn in *. apply Hq. eauto using quiet_trans.
    - cases. apply post_bind_skip. intros l. cases.
      apply post_bind_skip. intros _. apply wp_bind. eapply wp_mono; [apply typed_store_quiet|].
      intros m1 H1. by apply Hq.
    - cases. apply post_bind_skip. intros l. cases.
      apply wp_bind. eapply wp_mono; [apply typed_load_quiet|]. intros [v m1] H1. by apply Hq.
    - cases. apply post_bind_skip. intros l.
      apply post_bind_skip. intros al. cases.
      apply wp_bind. eapply wp_mono; [apply typed_load_quiet|]. intros [v' m1] H1.
      case_match; [|by apply Hq].
      apply wp_bind. eapply wp_mono; [apply typed_store_quiet|]. intros m2 H2.
      cbn in *. apply Hq. eauto using quiet_trans.
    - cases. apply post_bind_skip. intros l.
      apply post_bind_skip. intros al. cases.
      apply wp_bind. eapply wp_mono; [apply typed_load_quiet|]. intros [v' m1] H1.
      cases. apply post_bind_skip. intros nx.
      apply wp_bind. eapply wp_mono; [apply typed_store_quiet|]. intros m2 H2.
      cbn in *. apply Hq. eauto using quiet_trans.
    - destruct lop.
      + cases. apply post_bind_skip. intros _. apply wp_bind.
        unfold lock_acquire. destruct (list_get _ _) as [[|o]|]; [done| |done].
        apply post_bind_skip. intros ?. done.
      + cases. apply post_bind_skip. intros _. apply wp_bind.
        unfold lock_release. destruct (list_get _ _) as [[|o]|]; [done| |done]. destruct (negb _); [done|].
        destruct (some_thread_in _ _).
        * apply post_bind_skip. intros [w cs1]. apply post_bind_skip. intros ta. done.
        * done.
      + destruct args; [|done]. by destruct rty.
    - cases. done.
    - cases. apply post_bind_skip. intros [pr cs1]. apply post_bind_skip. intros p. done.
    - cases. apply post_bind_skip. intros ta. by destruct (head _).
  Qed.

  Lemma intrinsic_own (m : Mach) op args rty cs :
    post (eval_intrinsic T MO m op args rty cs) (fun '(_, m', _) => forall args' ret nb,
      own_to m (inr (TmIntrinsic op args' ret nb)) m').
  Proof.
    pose proof (intrinsic_ctl T MO m op args rty cs) as Hc.
    pose proof (intrinsic_view m op args rty cs) as Hv.
    apply post_intro. intros [[v m'] cs'] E. intros args' ret nb. rewrite E in Hc, Hv. cbn [wp] in Hc, Hv.
    pose proof (fun n => lay_intrinsic _ _ _ n Hc) as Hl. unfold own_to.
    destruct op as [| | | | | | | | | | | | |iop|lop| | |];
      try (rewrite (Hl ltac:(done)), (Hv I); by constructor).
    - rewrite (Hl ltac:(done)). revert E. cbn [eval_intrinsic].
      destruct args as [|[sv ?] [|[av ?] [|? ?]]]; try done. destruct sv as [i| | | | |]; try done.
      destruct (size_from_bytes i) as [s|]; [|done]. destruct av as [j| | | | |]; try done.
      destruct (align_from_int j) as [al|]; [|done]. destruct rty; try done. destruct (bool_decide _); [done|].
      intros E. apply obind_ret in E as ([ad cs1] & _ & E). apply obind_ret in E as ([p mem] & Hm & [= <- <- <-]).
      apply obind_ret in Hm as ([p' mem3] & Hm & [= <- <-]). apply alloc_mv in Hm as (E2 & Hfr & pe & ->).
      unfold mview at 2. cbn [m_mem set_mem cm_set cm_mem]. rewrite E2. by constructor.
    - rewrite (Hl ltac:(done)). revert E. cbn [eval_intrinsic].
      destruct args as [|[pv ?] [|[sv ?] [|[av ?] [|? ?]]]]; try done.
      destruct pv as [| |[p [?|]]| | |]; try done. destruct sv as [i| | | | |]; try done.
      destruct (size_from_bytes i) as [s|]; [|done]. destruct av as [j| | | | |]; try done.
      destruct (align_from_int j) as [al|]; [|done].
      intros E. apply obind_ret in E as (? & _ & E). apply obind_ret in E as (mem & Hm & [= <- <- <-]).
      apply obind_ret in Hm as (mem3 & Hm & [= <-]). apply dealloc_mv in Hm as (id & pe & _ & Hli & E2).
      unfold mview at 2. cbn [m_mem set_mem cm_set cm_mem]. rewrite E2. by constructor.
    - revert E. cbn [eval_intrinsic]. clear Hc.
      destruct args as [|[fv ?] [|[dv dty] [|? ?]]]; try done. intros E.
      apply obind_ret in E as (func & Hfn & E). apply fn_from_ptr_prog in Hfn as [n Hn]. destruct dty; try done. destruct rty; try done.
      apply obind_ret in E as ([[tid m1] cs1] & E & [= _ <- _]).
      apply obind_ret in E as ([[tid1 m2] cs2] & E & [= _ <- _]).
      apply obind_ret in E as ([[f m3] cs3] & E & [= _ <- _]).
      pose proof (create_frame_own m func BottomOfStack CcC unit_ty [(dv, TPtr pt)] cs) as Hf.
      rewrite E in Hf. cbn [wp] in Hf. destruct Hf as (Hs & [ls Hls] & Hi).
      change (mview (set_sync _ _)) with (mview m3).
      match goal with |- own_step _ _ _ _ _ ?x _ => assert (x = lay (ctl m) ++ [[fl (fctl f)]]) as -> end.
      { rewrite <-Hs. unfold lay, ctl. cbn [c_threads m_threads set_sync set_threads]. rewrite !map_app. done. }
      by eapply os_spawn.
  Qed.

  (** ** Terminators *)

  Lemma dealloc_locals_kill (f : StackFrame P F) mem :
    post (dealloc_locals T MO f mem) (fun r =>
      iterl kill (fl (fctl f)) (mv (cm_mem mem)) (List.map fst (f_locals f)) (fl (fctl (fst r))) (mv (cm_mem (snd r))) /\
      f_action (fst r) = f_action f).
  Proof.
    unfold dealloc_locals. eapply wp_mono.
    - apply (wp_fold_m _ True (fun i r =>
        iterl kill (fl (fctl f)) (mv (cm_mem mem)) (take i (List.map fst (f_locals f))) (fl (fctl (fst r))) (mv (cm_mem (snd r))) /\
        f_action (fst r) = f_action f)).
      + split; [|done]. constructor.
      + intros i x [f1 mem1] Hx [Hi Ha]. eapply wp_mono; [apply storage_dead_kill|].
        intros [f2 mem2] [Hk [ls2 H2]]. cbn [fst snd] in *. split.
        * erewrite take_S_r by done. by eapply iter_snoc.
        * rewrite <-Ha. change (fc_action (fctl f2) = f_action f1). by rewrite H2.
    - intros [f2 mem2] [Hi Ha]. by rewrite firstn_all in Hi.
  Qed.

  Lemma end_call_mv mem f mem' : cm_end_call MO mem f = Ret mem' -> mv (cm_mem mem') = mv (cm_mem mem).
  Proof.
    intros E. apply obind_ret in E as (mem1 & E & [= <-]). apply (bl_end _ _ BL) in E. by apply extra_mv.
  Qed.

  Lemma lay_terminate (m m' : Mach) : terminate_active_thread m = Ret m' ->
    lay (ctl m') = lay (ctl m) /\ mview m' = mview m.
  Proof.
    unfold terminate_active_thread. destruct (_ =? _)%nat; [done|]. intros E.
    apply obind_ret in E as (t & Ht & E). apply obind_ret in E as (u & _ & [= <-]). split; [|done].
    apply active_ctl in Ht.
    transitivity (lay (ctl (set_active_thread m (with_state t Terminated)))).
    - unfold lay, ctl. cbn [c_threads set_sync set_threads m_threads]. rewrite !List.map_map. apply List.map_ext. intros w.
      by destruct (bool_decide _).
    - rewrite ctl_put. by eapply lay_put_same.
  Qed.

  Lemma terminator_own tm (m : Mach) cs :
    post (eval_terminator T MO tm m cs) (fun r => own_to m (inr tm) (fst r)).
  Proof.
    assert (Hjump : forall x m1 b m2, jump_to_block m1 b = Ret m2 -> own_to m x m1 -> own_to m x m2).
    { intros x m1 b m2 E Ho. pose proof (jump_ctl m1 b) as Hj. rewrite E in Hj. cbn [wp] in Hj.
      unfold own_to, mview. rewrite (lay_jump _ _ _ Hj), (jump_mem _ _ _ E). exact Ho. }
    assert (Hput : forall (x : Statement + Terminator) m1 t t', no_alloc x -> active_thread m1 = Ret t -> t_stack t' = t_stack t ->
      quiet m m1 -> own_to m x (set_active_thread m1 t')).
    { intros x m1 t t' Hx Ht Es [Hc Hm]. unfold own_to. rewrite ctl_put. apply active_ctl in Ht.
      rewrite (lay_put_same _ _ _ Ht) by (cbn; by rewrite Es). rewrite Hc.
      change (mview (set_active_thread m1 t')) with (mview m1). rewrite Hm. by constructor. }
    destruct tm as [b|v cases fb| |op args ret nb|callee conv args ret nb ub| |v b|b|]; cbn [eval_terminator].
    - apply wp_bind, post_intro. intros m1 E. cbn. eapply Hjump; [done|]. by apply own_quiet.
    - apply wp_bind. eapply wp_mono; [apply eval_value_quiet|]. intros [[w wt] m1] H1. cbn in H1.
      destruct w as [i| | | | |]; try done. apply wp_bind, post_intro.
      intros m2 H2. cbn. eapply Hjump; [done|]. by apply own_quiet.
    - done.
    - apply wp_bind. eapply wp_mono; [apply eval_place_quiet|]. intros [[pl ty] m1] H1. cbn in H1.
      apply wp_bind. eapply wp_mono.
      { apply map_st_quiet. apply Forall_true. intros e m'. apply eval_value_quiet. }
      intros [vs m2] H2. cbn in H2. apply wp_bind. eapply wp_mono; [apply intrinsic_own|].
      intros [[v m3] cs1] H3. apply wp_bind. eapply wp_mono; [apply place_store_quiet|].
      intros m4 H4. destruct nb as [b|]; [|done]. apply wp_bind, post_intro. intros m5 H5. cbn.
      eapply Hjump; [done|]. eapply own_quiet_r; [|done]. eapply own_quiet_l; [|apply H3].
      by eapply quiet_trans.
    - apply wp_bind. eapply wp_mono; [apply eval_place_quiet|]. intros [[pl ty] m1] H1. cbn in H1.
      apply wp_bind. unfold prepare_for_inplace_passing. do 2 (apply post_bind_skip; intros ?).
      eapply wp_mono; [apply deinit_quiet|]. intros m2 H2.
      apply wp_bind. eapply wp_mono; [apply eval_value_quiet|]. intros [[fv ft] m3] H3. cbn in H3.
      apply wp_bind, post_intro. intros func Hfn. apply fn_from_ptr_prog in Hfn as [n Hn].
      change (m_prog m3) with (c_prog (ctl m3)) in Hn.
      apply wp_bind. eapply wp_mono.
      { apply map_st_quiet. apply Forall_true. intros e m'. apply eval_argument_quiet. }
      intros [vs m4] H4. cbn in H4. unfold eval_call. apply wp_bind. eapply wp_mono; [apply create_frame_own|].
      intros [[f m5] cs1] (H5 & _ & Hi). apply wp_bind, post_intro. intros t Ht. cbn [wp fst].
      apply (own_quiet_l m m4); [by eauto 6 using quiet_trans|]. unfold own_to. rewrite ctl_put, lay_put.
      apply active_ctl in Ht. rewrite H5 in Ht |- *. apply lay_lookup in Ht.
      cbn [tctl with_stack t_stack tc_stack List.map]. change (c_active (ctl m4)) with (m_active m4).
      change (mview (set_active_thread m5 _)) with (mview m5). eapply os_call; [exact Ht| |exact Hi].
      change (m_prog m4) with (c_prog (ctl m4)). destruct H4 as [-> _]. exact Hn.
    - apply wp_bind, post_intro. intros [f m1] Hp.
      assert (m_mem m1 = m_mem m) as Em1.
      { unfold pop_frame in Hp. apply obind_ret in Hp as (t & _ & Hp). destruct (t_stack t); [done|]. by injection Hp as _ <-. }
      apply pop_frame_ctl in Hp as (t & r & Ht & E1).
      apply post_bind_skip. intros cty. apply post_bind_skip. intros al. apply post_bind_skip. intros rp.
      apply wp_bind. eapply wp_mono; [apply typed_load_quiet|]. intros [rv m2] [H2 H2v]. cbn [snd] in *.
      apply wp_bind. eapply wp_mono; [apply dealloc_locals_kill|]. intros [f1 mem1] [Hk Hac]. cbn [fst snd] in *.
      apply wp_bind, post_intro. intros mem2 He. apply end_call_mv in He.
      assert (Hbase : own_to m (inr TmReturn) (set_mem m2 mem2)).
      { unfold own_to. change (ctl (set_mem m2 mem2)) with (ctl m2). rewrite H2, E1, lay_put.
        change (mview (set_mem m2 mem2)) with (mv (cm_mem mem2)). rewrite He.
        change (c_active (ctl m)) with (m_active m). cbn [tc_with_stack tc_stack].
        eapply os_pop; [by left|by apply (lay_top _ _ _ _ Ht)|].
        unfold mview in H2v. rewrite H2v, Em1 in Hk. exact Hk. }
      rewrite Hac. destruct (f_action f) as [|nb ub p] eqn:Ea.
      + apply wp_bind, post_intro. intros m3 H3. apply lay_terminate in H3 as [E3 E4]. cbn [wp fst].
        unfold own_to. by rewrite E3, E4.
      + apply post_bind_skip. intros u. apply post_bind_skip. intros ?.
        apply wp_bind. eapply wp_mono; [apply typed_store_quiet|]. intros m3 H3.
        destruct nb as [b|]; [|done]. apply wp_bind, post_intro. intros m4 H4. cbn.
        eapply Hjump; [done|]. by eapply own_quiet_r.
    - apply wp_bind. eapply wp_mono; [apply eval_value_quiet|]. intros [[w wt] m1] H1. cbn in H1.
      destruct w as [| |p| | |]; try done. destruct wt as [| |pt| | | | | |]; try done.
      cases. apply wp_bind, post_intro. intros t Ht.
      apply wp_bind, post_intro. intros m2 H2. cbn. eapply Hjump; [done|]. by eapply Hput.
    - apply wp_bind, post_intro. intros t Ht. destruct (t_payloads t) as [|p ps] eqn:Ep; [done|].
      apply wp_bind, post_intro. intros m2 H2. cbn. eapply Hjump; [done|]. by eapply Hput.
    - apply wp_bind, post_intro. intros [f m1] Hp.
      assert (m_mem m1 = m_mem m) as Em1.
      { unfold pop_frame in Hp. apply obind_ret in Hp as (t & _ & Hp). destruct (t_stack t); [done|]. by injection Hp as _ <-. }
      apply pop_frame_ctl in Hp as (t & r & Ht & E1).
      apply wp_bind. eapply wp_mono; [apply dealloc_locals_kill|]. intros [f1 mem1] [Hk Hac]. cbn [fst snd] in *.
      apply wp_bind, post_intro. intros mem2 He. apply end_call_mv in He.
      assert (Hbase : own_to m (inr TmResumeUnwind) (set_mem m1 mem2)).
      { unfold own_to. change (ctl (set_mem m1 mem2)) with (ctl m1). rewrite E1, lay_put.
        change (mview (set_mem m1 mem2)) with (mv (cm_mem mem2)). rewrite He.
        change (c_active (ctl m)) with (m_active m). cbn [tc_with_stack tc_stack].
        eapply os_pop; [by right|by apply (lay_top _ _ _ _ Ht)|].
        rewrite Em1 in Hk. exact Hk. }
      rewrite Hac. destruct (f_action f) as [|nb ub p] eqn:Ea; [done|]. destruct ub as [b|]; [|done].
      apply wp_bind, post_intro. intros m4 H4. cbn. by eapply Hjump.
  Qed.

  (** ** Steps *)

  Definition next_is (m : Mach) (a : nat) (x : Statement + Terminator) : Prop :=
    exists t f r b, m_threads m !! a = Some t /\ t_stack t = f :: r /\
      map_get (fn_blocks (f_func f)) (f_block f) = Some b /\
      match x with
      | inl s => bb_statements b !! f_stmt f = Some s
      | inr tm => f_stmt f = length (bb_statements b) /\ bb_terminator b = tm
      end.

  Theorem step_own cs (m : Mach) : post (step T MO cs m) (fun m' => exists x,
    next_is m (m_active m') x /\ own_step (m_prog m) (lay (ctl m)) (mview m) (m_active m') x (lay (ctl m')) (mview m')).
  Proof.
    unfold step. destruct (negb _); [done|].
    destruct (reset_data_race_tracking m) as [[ps pa] m0] eqn:Er.
    assert (H0 : m_threads m0 = m_threads m /\ ctl m0 = ctl m /\ mview m0 = mview m).
    { unfold reset_data_race_tracking in Er. destruct (cm_reset_accesses _) as [a b] eqn:Ec.
      injection Er as _ _ <-. split; [done|]. split; [done|]. unfold mview. cbn. by injection Ec as _ <-. }
    destruct H0 as (H0t & H0c & H0v).
    apply wp_bind, post_intro. intros [a cs1] Ha.
    set (m1 := set_active m0 a). assert (H1 : ctl m1 = c_with_active (ctl m) a).
    { unfold m1. change (ctl (set_active m0 a)) with (c_with_active (ctl m0) a). by rewrite H0c. }
    assert (H1l : lay (ctl m1) = lay (ctl m)) by (by rewrite H1).
    assert (H1p : m_prog m1 = m_prog m) by (change (c_prog (ctl m1) = m_prog m); by rewrite H1).
    apply wp_bind, post_intro. intros f Hf.
    assert (exists t r, m_threads m !! a = Some t /\ t_stack t = f :: r) as (t & r & Ht & Hs).
    { unfold cur_frame in Hf. apply obind_ret in Hf as (t & Ht & Hf). unfold active_thread in Ht. apply unwrap_ret in Ht.
      destruct (t_stack t) as [|g r] eqn:Es; [done|]. injection Hf as <-. exists t, r.
      change (m_threads m0 !! a = Some t) in Ht. rewrite H0t in Ht. done. }
    apply wp_bind, post_unwrap. intros block Hb.
    apply wp_bind. eapply wp_mono with (Q := fun r => m_active (fst r) = a /\ exists x, next_is m a x /\
       own_step (m_prog m) (lay (ctl m)) (mview m) a x (lay (ctl (fst r))) (mview (fst r))).
    2: { intros [m2 cs2] [H2 H3]. apply post_bind_skip. intros _. cbn [wp fst] in *. by rewrite H2. }
    destruct (Nat.eqb_spec (f_stmt f) (length (bb_statements block))) as [Hn|Hn].
    - pose proof (terminator_own (bb_terminator block) m1 cs1) as Ho.
      pose proof (terminator_ctl T MO (bb_terminator block) m1 cs1) as Hc.
      apply post_intro. intros [m2 cs2] E. rewrite E in Ho, Hc. cbn [wp fst] in *.
      apply c_term_active in Hc. split; [exact Hc|]. exists (inr (bb_terminator block)). split.
      + by exists t, f, r, block.
      + unfold own_to in Ho. rewrite H1l, H1p in Ho. change (mview m1) with (mview m0) in Ho. by rewrite H0v in Ho.
    - apply wp_bind, post_unwrap. intros s Hst. apply wp_bind.
      pose proof (statement_own s m1 cs1) as Ho. pose proof (statement_ctl T MO s m1 cs1) as Hc.
      apply post_intro. intros [m2 cs2] E. rewrite E in Ho, Hc. cbn [wp fst] in *.
      apply wp_bind, post_intro. intros f2 Hf2. apply cur_frame_ctl in Hf2 as (t2 & r2 & _ & _ & Ht2).
      apply wp_bind, post_intro. intros m3 Hm3. pose proof (set_cur_frame_mem _ _ _ Hm3) as Em.
      apply set_cur_frame_ctl in Hm3 as (t3 & f3 & r3 & Ht3 & E3).
      destruct (c_top_fun _ _ _ _ _ _ _ Ht2 Ht3) as (-> & -> & ->). cbn [wp fst].
      assert (Ha2 : c_active (ctl m2) = a) by (by inversion Hc).
      split; [change (c_active (ctl m3) = a); by rewrite E3|]. exists (inl s). split.
      + by exists t, f, r, block.
      + unfold own_to in Ho. rewrite H1l, H1p in Ho. change (mview m1) with (mview m0) in Ho. rewrite H0v in Ho.
        unfold mview at 2. rewrite Em, E3. destruct Ht2 as [Ht2 Hs2].
        erewrite lay_put_same; [exact Ho|exact Ht2|]. cbn [tc_with_stack tc_stack]. by rewrite Hs2.
  Qed.
End Own.
