(** What statements and terminators do to the contents of memory. *)
From Verif Require Export SafeProg DataSpec.
Local Open Scope Z_scope.
From Coq Require Import ZifyBool ZifyN ZifyNat.

Lemma value_eqb_eq {P} `{EqDecision P} (a b : Value P) : value_eqb a b = true <-> a = b.
Proof.
  revert b. induction a as [i|b|p|vs IH|d v IH|cs] using Value_ind'; intros [j|c|q|ws|e w|ds]; cbn [value_eqb]; try done.
  - rewrite Z.eqb_eq. split; congruence.
  - rewrite Bool.eqb_true_iff. split; congruence.
  - rewrite bool_decide_eq_true. split; congruence.
  - rewrite forall2b_Forall2. split.
    + intros HF. f_equal. induction HF as [|x y l k Hxy HF IHF]; [done|]. inversion IH as [|? ? Hx Hl]; subst. f_equal; [by apply Hx|by apply IHF].
    + intros [= <-]. induction IH as [|x l Hx Hl IHl]; constructor; [by apply Hx|done].
  - rewrite andb_true_iff, Z.eqb_eq, IH. split; [intros [-> ->]; done|intros [= -> ->]; done].
  - rewrite bool_decide_eq_true. split; congruence.
Qed.

Section Data.
  Context {PE AE F : Type} `{EqDecision (nat * PE)}.
  Variable T : Target.
  Notation P := (nat * PE)%type.
  Notation M := (BMem PE AE).
  Notation Mach := (Machine P F M).
  Variable MO : MemOps P F M.
  Hypothesis BL : bm_like T MO.
  Hypothesis Tok : target_ok T.

  (** ** The contents of all allocations *)

  Definition md (mem : M) : list (list (AByte P)) := List.map al_data mem.
  Definition mdata (m : Mach) : list (list (AByte P)) := md (cm_mem (m_mem m)).

  Lemma md_lookup (mem : M) id : md mem !! id = option_map al_data (mem !! id).
  Proof. apply list_lookup_fmap. Qed.
  Lemma md_insert (mem : M) id a : md (<[id := a]> mem) = <[id := al_data a]> (md mem).
  Proof. apply list_fmap_insert. Qed.
  Lemma md_insert_same (mem : M) id a a' : mem !! id = Some a -> al_data a' = al_data a -> md (<[id := a']> mem) = md mem.
  Proof. intros Ha Hv. rewrite md_insert, Hv. apply list_insert_id. by rewrite md_lookup, Ha. Qed.
  Lemma extra_md (mem mem' : M) : extra_change mem mem' -> md mem' = md mem.
  Proof. induction 1 as [|m m1 id a ae Hc IH Ha]; [done|]. rewrite <-IH. by eapply md_insert_same. Qed.
  Lemma load_md mem p n al b mem' : mo_load MO mem p n al = Ret (b, mem') -> md mem' = md mem.
  Proof.
    destruct (bl_load _ _ BL mem p n al) as [h ->].
    intros (_ & [(_ & _ & ->)|(_ & id & pe & off & a & ae & _ & Ha & Hl & _ & _ & _ & Hd & ->)])%bm_load_ret; [done|].
    by eapply md_insert_same.
  Qed.

  Lemma cell_md (m : Mach) id j : cell m id j = match mdata m !! id with Some d => d !! j | None => None end.
  Proof. unfold cell, mdata. rewrite md_lookup. by destruct (_ !! id). Qed.
  Lemma points_view (m : Mach) p id i : points_to m p id i <->
    exists pe x, tp_prov p = Some (id, pe) /\ mview m !! id = Some x /\ v_live x = true /\ tp_addr p = v_addr x + Z.of_nat i.
  Proof.
    unfold points_to, mview. split.
    - intros (pe & a & Hp & Ha & Hl & Had). exists pe, (view a). rewrite mv_lookup, Ha. done.
    - intros (pe & x & Hp & Hx & Hl & Had). rewrite mv_lookup in Hx. destruct (_ !! id) as [a|] eqn:Ea; [|done].
      injection Hx as <-. by exists pe, a.
  Qed.

  (** ** States with the same memory *)

  Definition alike (m m' : Mach) : Prop := mview m' = mview m /\ mdata m' = mdata m.
  Lemma alike_refl m : alike m m.
  Proof. done. Qed.
  Lemma alike_trans m1 m2 m3 : alike m1 m2 -> alike m2 m3 -> alike m1 m3.
  Proof. unfold alike. intros [A1 B1] [A2 B2]. split; congruence. Qed.
  Lemma alike_sym m1 m2 : alike m1 m2 -> alike m2 m1.
  Proof. unfold alike. intros [A1 B1]. done. Qed.
  Lemma alike_cell m m' id j : alike m m' -> cell m' id j = cell m id j.
  Proof. intros [_ E]. by rewrite !cell_md, E. Qed.
  Lemma alike_points m m' p id i : alike m m' -> points_to m' p id i <-> points_to m p id i.
  Proof. intros [E _]. by rewrite !points_view, E. Qed.
  Lemma view_points (m m' : Mach) p id i : mview m' = mview m -> points_to m' p id i <-> points_to m p id i.
  Proof. intros E. by rewrite !points_view, E. Qed.
  Lemma alike_in m m' p n id j : alike m m' -> cell_in m' p n id j <-> cell_in m p n id j.
  Proof. intros E. unfold cell_in. by setoid_rewrite (alike_points _ _ _ _ _ E). Qed.
  Lemma view_in (m m' : Mach) p n id j : mview m' = mview m -> cell_in m' p n id j <-> cell_in m p n id j.
  Proof. intros E. unfold cell_in. by setoid_rewrite (view_points _ _ _ _ _ E). Qed.
  Lemma alike_stores m m' p bs : alike m m' -> stores_at m' p bs <-> stores_at m p bs.
  Proof.
    intros E. unfold stores_at. setoid_rewrite (alike_points _ _ _ _ _ E). by setoid_rewrite (alike_cell _ _ _ _ E).
  Qed.
  Lemma alike_keeps m m1 m2 m3 W : alike m m1 -> alike m2 m3 -> keeps m1 m2 W -> keeps m m3 W.
  Proof.
    intros E1 E2 Hk id j. rewrite <-(alike_cell _ _ _ _ E1), (alike_cell _ _ _ _ E2). apply Hk.
  Qed.
  Lemma alike_keeps_all m m' : alike m m' -> keeps_all m m'.
  Proof. intros E id j _ _. by apply alike_cell. Qed.
  Lemma keeps_mono (m m' : Mach) (W W' : nat -> nat -> Prop) : (forall id j, W id j -> W' id j) -> keeps m m' W -> keeps m m' W'.
  Proof. intros Hw Hk id j Hc Hn. apply Hk; [done|]. intros Hw'. by apply Hn, Hw. Qed.
  Lemma keeps_trans (m1 m2 m3 : Mach) W : keeps m1 m2 W -> keeps m2 m3 W -> keeps m1 m3 W.
  Proof.
    intros H1 H2 id j Hc Hn. rewrite <-(H1 id j Hc Hn). apply H2; [|done]. by rewrite (H1 id j Hc Hn).
  Qed.
  Lemma alike_writes m m1 m2 m3 p bs : alike m m1 -> alike m2 m3 -> writes m1 m2 p bs -> writes m m3 p bs.
  Proof.
    intros E1 E2 [Hs Hk]. split; [by apply (alike_stores _ _ _ _ E2)|].
    eapply keeps_mono; [|by eapply alike_keeps]. intros id j. by apply (alike_in _ _ _ _ _ _ E1).
  Qed.

  Definition still (m m' : Mach) : Prop := same m m' /\ alike m m'.
  Lemma still_refl m : still m m.
  Proof. done. Qed.
  Lemma still_trans m1 m2 m3 : still m1 m2 -> still m2 m3 -> still m1 m3.
  Proof. intros [A1 B1] [A2 B2]. split; [by eapply same_trans|by eapply alike_trans]. Qed.

  (** ** Accesses *)

  Lemma cm_load_still m p n a at_ :
    post (cm_load MO (m_mem m) p n a at_) (fun r => still m (set_mem m (snd r))).
  Proof.
    pose proof (cm_load_quiet T MO BL m p n a at_) as Hq. apply post_intro. intros [b mem] Hm. rewrite Hm in Hq.
    destruct Hq as [H1 H2]. split; [done|]. split; [done|].
    apply obind_ret in Hm as ([b' mem'] & Hm & [= <- <-]). by apply load_md in Hm.
  Qed.
  Lemma retag_ptr_still m ptr pt fe : post (retag_ptr MO m ptr pt fe) (fun r => still m (snd r)).
  Proof.
    pose proof (retag_ptr_quiet T MO BL m ptr pt fe) as Hq. apply post_intro. intros [q m'] Hm. rewrite Hm in Hq.
    destruct Hq as [H1 H2]. split; [done|]. split; [done|]. unfold retag_ptr in Hm.
    apply obind_ret in Hm as (f & _ & Hm). apply obind_ret in Hm as ([[q' mem] ex] & Hr & Hm).
    apply obind_ret in Hm as (m1 & Hs & [= <- <-]). apply set_cur_frame_mem in Hs. unfold mdata. cbn [snd]. rewrite Hs.
    apply obind_ret in Hr as ([[q'' mem'] ex'] & Hr & [= <- <- <-]). apply (bl_retag _ _ BL) in Hr. by apply extra_md.
  Qed.
  Lemma typed_load_still m ptr ty al at_ : post (typed_load T MO m ptr ty al at_) (fun r => still m (snd r)).
  Proof. apply typed_load_rel, cm_load_still. Qed.
  Lemma place_load_still m pl ty : post (place_load T MO m pl ty) (fun r => still m (snd r)).
  Proof. apply place_load_rel, cm_load_still. Qed.
  Lemma eval_value_still e m : post (eval_value T MO e m) (fun r => still m (snd r)).
  Proof. apply eval_value_rel; [apply still_refl|apply still_trans|apply cm_load_still|apply retag_ptr_still]. Qed.
  Lemma eval_place_still p m : post (eval_place T MO p m) (fun r => still m (snd r)).
  Proof. apply eval_place_rel; [apply still_refl|apply still_trans|apply cm_load_still|apply retag_ptr_still]. Qed.
  Lemma retag_val_still fe ty v m : post (retag_val MO fe ty v m) (fun r => still m (snd r)).
  Proof. apply retag_val_rel; [apply still_refl|apply still_trans|apply retag_ptr_still]. Qed.
  Lemma map_st_still {A B} (f : Mach -> A -> Outcome (B * Mach)) l m :
    Forall (fun x => forall m, post (f m x) (fun r => still m (snd r))) l -> post (map_st f l m) (fun r => still m (snd r)).
  Proof. apply map_st_rel; [apply still_refl|apply still_trans]. Qed.
  Lemma eval_values_still es m : post (map_st (fun m e => eval_value T MO e m) es m) (fun r => still m (snd r)).
  Proof. apply map_st_still. apply Forall_true. intros e m'. apply eval_value_still. Qed.

  (** a store *)
  Lemma store_writes (m m' : Mach) p bs al : mo_store MO (cm_mem (m_mem m)) p bs al = Ret (cm_mem (m_mem m')) ->
    writes m m' p bs.
  Proof.
    destruct (bl_store _ _ BL (cm_mem (m_mem m)) p bs al) as [h ->].
    intros (_ & [(-> & E)|(Hne & id & pe & off & a & ae & data & Hp & Ha & Hl & _ & Had & _ & Hd & E)])%bm_store_ret.
    { split; [by left|]. intros id j _ _. unfold cell. by rewrite E. }
    assert (Hc : forall id' j, cell m' id' j = if decide (id' = id) then data !! j else cell m id' j).
    { intros id' j. unfold cell. rewrite E. destruct (decide (id' = id)) as [->|Hn].
      - rewrite list_lookup_insert by (by eapply lookup_lt_Some). done.
      - by rewrite list_lookup_insert_ne. }
    assert (Hpt : points_to m p id (N.to_nat off)).
    { exists pe, a. repeat split; try done. lia. }
    split.
    - right. exists id, (N.to_nat off). split.
      + exists pe, (mkAlloc data (al_addr a) (al_align a) (al_kind a) (al_live a) ae). rewrite E.
        rewrite list_lookup_insert by (by eapply lookup_lt_Some). repeat split; try done. cbn. lia.
      + intros k Hk. rewrite Hc. rewrite decide_True by done. rewrite (write_subslice_lookup _ _ _ _ _ Hd).
        destruct ((_ <=? _)%nat && _) eqn:Eb; [|lia]. f_equal. lia.
    - intros id' j _ Hn. rewrite Hc. destruct (decide (id' = id)) as [->|]; [|done].
      unfold cell. rewrite Ha. rewrite (write_subslice_lookup _ _ _ _ _ Hd). destruct ((_ <=? _)%nat && _) eqn:Eb; [|done].
      exfalso. apply Hn. exists (N.to_nat off). split; [done|]. lia.
  Qed.

  Lemma cm_store_writes (m : Mach) p bs al at_ mem : cm_store MO (m_mem m) p bs al at_ = Ret mem ->
    quiet m (set_mem m mem) /\ writes m (set_mem m mem) p bs.
  Proof.
    intros E. pose proof (cm_store_quiet T MO BL m p bs al at_) as Hq. rewrite E in Hq. split; [done|].
    apply obind_ret in E as (mem' & E & [= <-]). by eapply store_writes.
  Qed.
  Lemma typed_store_writes (m m' : Mach) p v ty al at_ : typed_store T MO m p v ty al at_ = Ret m' ->
    exists bs, encode T ty v = Ret bs /\ quiet m m' /\ writes m m' p bs.
  Proof.
    unfold typed_store. intros E. apply obind_ret in E as (ok & _ & E). apply obind_ret in E as (u & _ & E).
    apply obind_ret in E as (bs & Hb & E). apply obind_ret in E as (mem & Hm & [= <-]). exists bs. split; [done|].
    by eapply cm_store_writes.
  Qed.
  Lemma place_store_writes (m m' : Mach) pl v ty : place_store T MO m pl v ty = Ret m' ->
    pl_aligned pl = true /\ exists bs, encode T ty v = Ret bs /\ quiet m m' /\ writes m m' (p_thin (pl_ptr pl)) bs.
  Proof.
    unfold place_store. destruct (pl_aligned pl); [|done]. cbn [negb]. intros E. split; [done|]. by eapply typed_store_writes.
  Qed.
  Lemma list_repeat_std {A} (x : A) n : list_repeat x n = repeat x (N.to_nat n).
  Proof. unfold list_repeat. induction (N.to_nat n) as [|k IH]; [done|]. cbn. by rewrite IH. Qed.
  Lemma deinit_erases (m m' : Mach) p s al : deinit MO m p s al = Ret m' -> quiet m m' /\ erases m m' p s.
  Proof.
    unfold deinit. intros E. apply obind_ret in E as (mem & Hm & [= <-]). apply cm_store_writes in Hm as [Hq Hw].
    split; [done|]. unfold erases. rewrite <-list_repeat_std. done.
  Qed.
  Lemma prepare_erases (m m' : Mach) pl ty : prepare_for_inplace_passing T MO m pl ty = Ret m' ->
    exists s, size_of T ty = Ret s /\ quiet m m' /\ erases m m' (p_thin (pl_ptr pl)) s.
  Proof.
    unfold prepare_for_inplace_passing. intros E. apply obind_ret in E as (s & Hs & E). apply obind_ret in E as (al & _ & E).
    exists s. split; [done|]. by eapply deinit_erases.
  Qed.

  (** ** Steps *)

  Lemma turn_begin (m : Mach) a : turn m a = begin_step m a.
  Proof. done. Qed.
  Lemma turn_alike (m : Mach) a : alike m (turn m a).
  Proof. done. Qed.
  Lemma step_stmt (m m' : Mach) s : steps_to T MO m m' -> at_statement m (m_active m') s ->
    exists cs m1 cs' f, eval_statement T MO s (turn m (m_active m')) cs = Ret (m1, cs') /\ cur_frame m1 = Ret f /\
      set_cur_frame m1 (with_pc f (f_block f) (S (f_stmt f))) = Ret m' /\ alike m1 m'.
  Proof.
    intros Hs Ha. apply step_at in Hs as (cs & cs' & [(tm & Htm & _)|(s' & m1 & f & Hs' & He & Hf & Hm)]).
    { exfalso. by eapply at_term_stmt. }
    assert (s' = s) as ->.
    { destruct Ha as (f1 & b1 & (t1 & r1 & ? & ? & ?) & ?), Hs' as (f2 & b2 & (t2 & r2 & ? & ? & ?) & ?).
      assert (f2 = f1) as -> by congruence. congruence. }
    exists cs, m1, cs', f. rewrite turn_begin. split; [done|]. split; [done|]. split; [done|].
    apply set_cur_frame_mem in Hm. unfold alike, mview, mdata. by rewrite Hm.
  Qed.
  Lemma step_term (m m' : Mach) tm : steps_to T MO m m' -> at_terminator m (m_active m') tm ->
    exists cs cs', eval_terminator T MO tm (turn m (m_active m')) cs = Ret (m', cs').
  Proof.
    intros Hs Ha. apply step_at in Hs as (cs & cs' & [(tm' & Htm & He)|(s' & m1 & f & Hs' & _)]).
    - rewrite (at_terminator_fun _ _ _ _ Ha Htm). by exists cs, cs'.
    - exfalso. by eapply at_term_stmt.
  Qed.

  (** an aligned place *)
  Definition at_place p (m : Mach) pl ty (m1 : Mach) : Prop := eval_place T MO p m = Ret (pl, ty, m1) /\ pl_aligned pl = true.

  (** a place, its size, a value *)
  Lemma step_assign (m m' : Mach) d s : steps_to T MO m m' -> at_statement m (m_active m') (SAssign d s) ->
    exists pl ty m1 v vt m2 bs, at_place d (turn m (m_active m')) pl ty m1 /\
      eval_value T MO s m1 = Ret (v, vt, m2) /\ encode T ty v = Ret bs /\ writes m m' (p_thin (pl_ptr pl)) bs.
  Proof.
    intros Hs Ha. destruct (step_stmt _ _ _ Hs Ha) as (cs & m3 & cs' & f & He & _ & _ & Hal). cbn [eval_statement] in He.
    apply obind_ret in He as ([[pl ty] m1] & Hp & He). apply obind_ret in He as ([[v vt] m2] & Hv & He).
    apply obind_ret in He as (m4 & Hst & [= <- <-]). apply place_store_writes in Hst as (Hpal & bs & Hb & _ & Hw).
    exists pl, ty, m1, v, vt, m2, bs. split; [done|]. split; [done|]. split; [done|].
    pose proof (eval_place_still d (turn m (m_active m'))) as H1. rewrite Hp in H1. destruct H1 as [_ H1].
    pose proof (eval_value_still s m1) as H2. rewrite Hv in H2. destruct H2 as [_ H2].
    eapply alike_writes; [|exact Hal|exact Hw]. eapply alike_trans; [apply turn_alike|]. by eapply alike_trans.
  Qed.

  (** nothing else changes the contents *)
  Definition grows (mem mem' : ConcMem M) : Prop := exists X, md (cm_mem mem') = md (cm_mem mem) ++ X.
  Lemma grows_refl mem : grows mem mem.
  Proof. exists []. by rewrite app_nil_r. Qed.
  Lemma grows_trans m1 m2 m3 : grows m1 m2 -> grows m2 m3 -> grows m1 m3.
  Proof. intros [X E] [Y E']. exists (X ++ Y). by rewrite E', E, app_assoc. Qed.
  Lemma grows_same mem mem' : md (cm_mem mem') = md (cm_mem mem) -> grows mem mem'.
  Proof. intros E. exists []. by rewrite app_nil_r. Qed.
  Lemma grows_keeps (m m' : Mach) : grows (m_mem m) (m_mem m') -> keeps_all m m'.
  Proof.
    intros [X E] id j Hc _. rewrite cell_md in *. rewrite cell_md. unfold mdata in *. rewrite E.
    destruct (md (cm_mem (m_mem m)) !! id) as [d|] eqn:Ed; [|done]. rewrite lookup_app_l by (by eapply lookup_lt_Some).
    by rewrite Ed.
  Qed.
  Lemma dealloc_md mem p k s al mem' : cm_deallocate MO mem p k s al = Ret mem' -> md (cm_mem mem') = md (cm_mem mem).
  Proof.
    intros E. apply obind_ret in E as (mem1 & E & [= <-]). destruct (bl_dealloc _ _ BL (cm_mem mem) p k s al) as [h Eh]. rewrite Eh in E.
    apply bm_deallocate_ret in E as (id & pe & a & ae & _ & Ha & _ & _ & _ & _ & _ & _ & ->). by eapply md_insert_same.
  Qed.
  Lemma alloc_md mem k s al ad p mem' : cm_allocate MO mem k s al ad = Ret (p, mem') ->
    md (cm_mem mem') = md (cm_mem mem) ++ [list_repeat Uninit s].
  Proof.
    intros E. apply obind_ret in E as ([p1 mem1] & E & [= <- <-]). destruct (bl_alloc _ _ BL (cm_mem mem) k s al) as (pe & ae & Eh). rewrite Eh in E.
    apply bm_allocate_ret in E as (_ & _ & _ & ->). cbn. unfold md. by rewrite map_app.
  Qed.
  Lemma storage_dead_md f mem l f' mem' : storage_dead T MO f mem l = Ret (f', mem') -> md (cm_mem mem') = md (cm_mem mem).
  Proof.
    unfold storage_dead. intros E. apply obind_ret in E as (ty & _ & E). apply obind_ret in E as (s & _ & E).
    apply obind_ret in E as (al & _ & E). destruct (map_get _ l).
    - apply obind_ret in E as (mem1 & E & [= _ <-]). by eapply dealloc_md.
    - by injection E as _ <-.
  Qed.
  Lemma storage_live_grows f mem l cs f' mem' cs' : storage_live T MO f mem l cs = Ret (f', mem', cs') -> grows mem mem'.
  Proof.
    unfold storage_live. intros E. apply obind_ret in E as ([f1 mem1] & Hd & E). apply storage_dead_md in Hd.
    apply obind_ret in E as (ty & _ & E). apply obind_ret in E as (s & _ & E).
    apply obind_ret in E as (al & _ & E). apply obind_ret in E as ([ad cs1] & _ & E).
    apply obind_ret in E as ([p mem2] & Ha & [= _ <- _]). apply alloc_md in Ha. eexists. by rewrite Ha, Hd.
  Qed.
  Lemma dealloc_locals_md f mem f' mem' : dealloc_locals T MO f mem = Ret (f', mem') -> md (cm_mem mem') = md (cm_mem mem).
  Proof.
    unfold dealloc_locals. generalize (List.map fst (f_locals f)). intros l. revert f mem. induction l as [|x l IH]; intros f mem E; cbn [fold_m] in E.
    - by injection E as _ <-.
    - apply obind_ret in E as ([f1 mem1] & Hd & E). apply storage_dead_md in Hd. apply IH in E. congruence.
  Qed.
  Lemma end_call_md mem x mem' : cm_end_call MO mem x = Ret mem' -> md (cm_mem mem') = md (cm_mem mem).
  Proof. intros E. apply obind_ret in E as (mem1 & E & [= <-]). apply (bl_end _ _ BL) in E. by apply extra_md. Qed.
  Lemma jump_alike (m m' : Mach) b : jump_to_block m b = Ret m' -> alike m m'.
  Proof. intros E. apply jump_mem in E. unfold alike, mview, mdata. by rewrite E. Qed.
  Lemma put_alike (m m' : Mach) f : set_cur_frame m f = Ret m' -> alike m m'.
  Proof. intros E. apply set_cur_frame_mem in E. unfold alike, mview, mdata. by rewrite E. Qed.

  (** statements and terminators that write nothing *)
  Lemma step_silent_stmt (m m' : Mach) s : steps_to T MO m m' -> at_statement m (m_active m') s ->
    match s with SPlaceMention _ | SStorageLive _ | SStorageDead _ => True | _ => False end -> keeps_all m m'.
  Proof.
    intros Hs Ha Hk. destruct (step_stmt _ _ _ Hs Ha) as (cs & m1 & cs' & f & He & _ & _ & Hal).
    assert (keeps_all (turn m (m_active m')) m1) as Hm.
    { destruct s as [d e|p|d v|p fe|p|l|l]; try done; cbn [eval_statement] in He.
      - apply obind_ret in He as ([[pl ty] m2] & Hp & [= <- <-]). pose proof (eval_place_still p (turn m (m_active m'))) as H1.
        rewrite Hp in H1. apply alike_keeps_all, H1.
      - apply obind_ret in He as (f1 & _ & He). apply obind_ret in He as ([[f2 mem] cs2] & Hl & He).
        apply obind_ret in He as (m2 & Hm & [= <- <-]). apply storage_live_grows in Hl. apply set_cur_frame_mem in Hm.
        apply grows_keeps. by rewrite Hm.
      - apply obind_ret in He as (f1 & _ & He). apply obind_ret in He as ([f2 mem] & Hl & He).
        apply obind_ret in He as (m2 & Hm & [= <- <-]). apply storage_dead_md in Hl. apply set_cur_frame_mem in Hm.
        apply grows_keeps. rewrite Hm. by apply grows_same. }
    eapply alike_keeps; [apply turn_alike|exact Hal|exact Hm].
  Qed.
  Lemma pop_mem (m m' : Mach) f : pop_frame m = Ret (f, m') -> m_mem m' = m_mem m.
  Proof.
    unfold pop_frame. intros E. apply obind_ret in E as (t & _ & E). destruct (t_stack t); [done|]. by injection E as _ <-.
  Qed.
  Lemma step_silent_term (m m' : Mach) tm : steps_to T MO m m' -> at_terminator m (m_active m') tm ->
    match tm with TmGoto _ | TmSwitch _ _ _ | TmStartUnwind _ _ | TmStopUnwind _ | TmResumeUnwind => True | _ => False end ->
    keeps_all m m'.
  Proof.
    intros Hs Ha Hk. destruct (step_term _ _ _ Hs Ha) as (cs & cs' & He).
    assert (keeps_all (turn m (m_active m')) m') as Hm; [|exact Hm].
    revert He. generalize (turn m (m_active m')). intros m0 He. destruct tm; try done; cbn [eval_terminator] in He.
    - apply obind_ret in He as (m1 & Hj & [= <- <-]). apply alike_keeps_all. by eapply jump_alike.
    - apply obind_ret in He as ([[v ty] m1] & Hv & He). destruct v; try done. apply obind_ret in He as (m2 & Hj & [= <- <-]).
      pose proof (eval_value_still value m0) as H1. rewrite Hv in H1. destruct H1 as [_ H1].
      apply alike_keeps_all. eapply alike_trans; [exact H1|]. by eapply jump_alike.
    - apply obind_ret in He as ([[v ty] m1] & Hv & He). destruct v; try done. destruct ty as [| |[]| | | | | |]; try done.
      case_match; try done. apply obind_ret in He as (t & Ht & He). apply obind_ret in He as (m2 & Hj & [= <- <-]).
      pose proof (eval_value_still payload m0) as H1. rewrite Hv in H1. destruct H1 as [_ H1]. cbn [snd] in H1.
      apply alike_keeps_all. eapply alike_trans; [exact H1|]. eapply alike_trans; [|by eapply jump_alike]. done.
    - apply obind_ret in He as (t & Ht & He). destruct (t_payloads t); [done|]. apply obind_ret in He as (m2 & Hj & [= <- <-]).
      apply alike_keeps_all. eapply alike_trans; [|by eapply jump_alike]. done.
    - apply obind_ret in He as ([f m1] & Hp & He). apply obind_ret in He as ([f1 mem] & Hd & He).
      apply obind_ret in He as (mem1 & Hec & He). destruct (f_action _) as [|nb ub rp]; [done|]. destruct ub as [b|]; [|done].
      apply obind_ret in He as (m2 & Hj & [= <- <-]). apply pop_mem in Hp. apply dealloc_locals_md in Hd. apply end_call_md in Hec.
      apply jump_mem in Hj. apply grows_keeps. rewrite Hj. cbn. apply grows_same. by rewrite Hec, Hd, Hp.
  Qed.

  (** what the other statements write *)
  Lemma step_deinit (m m' : Mach) p : steps_to T MO m m' -> at_statement m (m_active m') (SDeinit p) ->
    exists pl ty s m1, at_place p (turn m (m_active m')) pl ty m1 /\ size_of T ty = Ret s /\
      erases m m' (p_thin (pl_ptr pl)) s.
  Proof.
    intros Hs Ha. destruct (step_stmt _ _ _ Hs Ha) as (cs & m3 & cs' & f & He & _ & _ & Hal). cbn [eval_statement] in He.
    apply obind_ret in He as ([[pl ty] m1] & Hp & He). destruct (pl_aligned pl) eqn:Hpal; [|done]. cbn [negb] in He. apply obind_ret in He as (s & Hsz & He).
    apply obind_ret in He as (m2 & Hd & [= <- <-]). apply deinit_erases in Hd as [_ Hd]. exists pl, ty, s, m1.
    split; [done|]. split; [done|]. pose proof (eval_place_still p (turn m (m_active m'))) as H1. rewrite Hp in H1.
    eapply alike_writes; [|exact Hal|exact Hd]. eapply alike_trans; [apply turn_alike|apply H1].
  Qed.

  (** ** Loads *)

  Lemma cm_load_reads (m : Mach) p n al at_ bs mem : cm_load MO (m_mem m) p n al at_ = Ret (bs, mem) ->
    length bs = N.to_nat n /\ stores_at m p bs.
  Proof.
    intros E. apply obind_ret in E as ([bs' mem'] & E & [= <- <-]). destruct (bl_load _ _ BL (cm_mem (m_mem m)) p n al) as [h Eh].
    cbn in E. rewrite Eh in E. apply bm_load_ret in E as (_ & [(-> & -> & _)|(Hn & id & pe & off & a & ae & Hp & Ha & Hl & Hin & Had & _ & Hs & _)]).
    { split; [done|]. by left. }
    assert (Hlen := subslice_length _ _ _ _ Hs). split; [lia|]. right. exists id, (N.to_nat off). split.
    - exists pe, a. repeat split; try done. lia.
    - intros k Hk. unfold cell. rewrite Ha. rewrite (subslice_lookup _ _ _ _ k Hs) by lia. done.
  Qed.
  Lemma typed_load_holds (m m' : Mach) p ty al at_ v : typed_load T MO m p ty al at_ = Ret (v, m') -> holds T m p ty v.
  Proof.
    unfold typed_load. intros E. apply obind_ret in E as (s & Hs & E). apply obind_ret in E as ([bs mem] & Hl & E).
    apply obind_ret in E as (o & Ho & E). destruct o as [w|]; [|done]. apply obind_ret in E as (u & _ & [= -> _]).
    apply cm_load_reads in Hl as [Hn Hl]. exists bs. split; [rewrite Hs; f_equal; lia|]. done.
  Qed.
  Lemma place_load_holds (m m' : Mach) pl ty v : place_load T MO m pl ty = Ret (v, m') ->
    pl_aligned pl = true /\ holds T m (p_thin (pl_ptr pl)) ty v.
  Proof. unfold place_load. destruct (pl_aligned pl); [|done]. cbn [negb]. intros E. split; [done|]. by eapply typed_load_holds. Qed.
  Lemma place_load_shape (m m' : Mach) pl ty v : place_load T MO m pl ty = Ret (v, m') -> shape T ty v.
  Proof.
    unfold place_load, typed_load. destruct (negb _); [done|]. intros E. apply obind_ret in E as (s & Hs & E). apply obind_ret in E as ([bs mem] & Hl & E).
    apply obind_ret in E as (o & Ho & E). destruct o as [w|]; [|done]. apply obind_ret in E as ([] & Hc & [= -> _]).
    by eapply check_value_shape.
  Qed.
  Lemma alike_holds m m' p ty v : alike m m' -> holds T m' p ty v <-> holds T m p ty v.
  Proof. intros E. unfold holds. by setoid_rewrite (alike_stores _ _ _ _ E). Qed.

  (** ** Stores elsewhere *)

  Lemma keeps_stores (m m' : Mach) W p bs : mview m' = mview m -> keeps m m' W -> stores_at m p bs ->
    (forall id j, cell_in m p (length bs) id j -> ~ W id j) -> stores_at m' p bs.
  Proof.
    intros Ev Hk [->|(id & i & Hp & Hb)] Hn; [by left|]. right. exists id, i. split; [by apply (view_points _ _ _ _ _ Ev)|].
    intros k Hl. rewrite <-(Hb k Hl). apply Hk.
    - rewrite (Hb k Hl). apply lookup_lt_is_Some_2 in Hl as [x ->]. done.
    - apply Hn. exists i. split; [done|lia].
  Qed.
  Lemma points_fun (m : Mach) p id i id' i' : points_to m p id i -> points_to m p id' i' -> id' = id /\ i' = i.
  Proof.
    intros (pe & a & Hp & Ha & _ & Had) (pe' & a' & Hp' & Ha' & _ & Had'). rewrite Hp in Hp'. injection Hp' as -> ->.
    rewrite Ha in Ha'. injection Ha' as <-. split; [done|lia].
  Qed.
  Lemma past_apart (m : Mach) p n1 l1 n2 l2 id j : cell_in m (past p n1) l1 id j -> cell_in m (past p n2) l2 id j ->
    (N.to_nat n1 + l1 <= N.to_nat n2)%nat \/ (N.to_nat n2 + l2 <= N.to_nat n1)%nat -> False.
  Proof.
    intros (i1 & (pe & a & Hp & Ha & _ & Had) & H1) (i2 & (pe' & a' & Hp' & Ha' & _ & Had') & H2). cbn in *.
    rewrite Ha in Ha'. injection Ha' as <-. lia.
  Qed.

  (** ** Discriminants *)

  Lemma inbounds_ret (m : Mach) p o q : ptr_offset_inbounds T MO m p o = Ret q -> q = mkThin (tp_addr p + o) (tp_prov p).
  Proof.
    unfold ptr_offset_inbounds. intros E. apply obind_ret in E as (? & _ & E). apply obind_ret in E as (? & _ & E).
    apply obind_ret in E as (? & _ & [= <-]). done.
  Qed.
  Lemma store_tags p tg : forall (m m' : Mach), encode_discriminant T (store_accessor T MO p) tg m = Ret m' ->
    quiet m m' /\ keeps m m' (tag_cells m p tg) /\
    forall l1 o it x l2, tg = l1 ++ (o, (it, x)) :: l2 ->
      Forall (fun e => (o + it_size it <= fst e)%N \/ (fst e + it_size (fst (snd e)) <= o)%N) l2 ->
      exists bs, encode_int T it x = Ret bs /\ stores_at m' (past p o) bs.
  Proof.
    unfold encode_discriminant. induction tg as [|[o [it x]] tg IH]; intros m m' E; cbn [fold_m] in E.
    { injection E as <-. split; [apply quiet_refl|]. split; [intros ? ? _ _; done|]. intros [|] ? ? ? ? [=]. }
    apply obind_ret in E as (m1 & E1 & E). apply obind_ret in E1 as (bs & Hb & E1). unfold store_accessor in E1.
    apply obind_ret in E1 as (q & Hq & E1). apply inbounds_ret in Hq as ->. apply obind_ret in E1 as (mem & Hs & [= <-]).
    apply cm_store_writes in Hs as [Hqu [Hst Hk]]. destruct (IH _ _ E) as (Hqu' & Hk' & Hl). set (m1 := set_mem m mem) in *.
    pose proof (encode_int_length T _ _ _ Hb) as Hlen.
    split; [by eapply quiet_trans|]. split.
    - eapply keeps_trans.
      + eapply keeps_mono; [|exact Hk]. intros id j Hc. exists o, it, x. split; [by left|]. replace (N.to_nat (it_size it)) with (length bs) by lia. exact Hc.
      + eapply keeps_mono; [|exact Hk']. intros id j (o' & it' & x' & Hin & Hc). exists o', it', x'. split; [by right|].
        by apply (view_in _ _ _ _ _ _ (proj2 Hqu)) in Hc.
    - intros l1 o' it' x' l2 El HF. destruct l1 as [|e l1]; cbn in El.
      + injection El as <- <- <- <-. exists bs. split; [done|].
        eapply keeps_stores; [apply Hqu'|exact Hk'|exact Hst|]. intros id j Hc (o' & it' & x' & Hin & Hc').
        rewrite List.Forall_forall in HF. apply HF in Hin. cbn in Hin. eapply past_apart; [exact Hc|exact Hc'|]. lia.
      + injection El as <- El. by eapply Hl.
  Qed.
  Lemma step_set_discr (m m' : Mach) p v : steps_to T MO m m' -> at_statement m (m_active m') (SSetDiscriminant p v) ->
    exists pl variants dty d s al m1 vty tags, at_place p (turn m (m_active m')) pl (TEnum variants dty d s al) m1 /\
      map_get variants v = Some (vty, tags) /\ keeps m m' (tag_cells m (p_thin (pl_ptr pl)) tags) /\
      forall l1 o it x l2, tags = l1 ++ (o, (it, x)) :: l2 ->
        Forall (fun e => (o + it_size it <= fst e)%N \/ (fst e + it_size (fst (snd e)) <= o)%N) l2 ->
        exists bs, encode_int T it x = Ret bs /\ stores_at m' (past (p_thin (pl_ptr pl)) o) bs.
  Proof.
    intros Hs Ha. destruct (step_stmt _ _ _ Hs Ha) as (cs & m3 & cs' & f & He & _ & _ & Hal). cbn [eval_statement] in He.
    apply obind_ret in He as ([[pl ty] m1] & Hp & He). destruct ty as [| | | | | | |vs dty d s al|]; try done.
    destruct (pl_aligned pl) eqn:Hpal; [|done]. cbn [negb] in He. apply obind_ret in He as ([vty tags] & Hv & He). apply unwrap_ret in Hv.
    apply obind_ret in He as (m2 & Hd & [= <- <-]). exists pl, vs, dty, d, s, al, m1, vty, tags. split; [done|]. split; [done|].
    apply store_tags in Hd as (_ & Hk & Hl). pose proof (eval_place_still p (turn m (m_active m'))) as H1. rewrite Hp in H1. destruct H1 as [_ H1].
    assert (alike m m1) as H2 by (eapply alike_trans; [apply turn_alike|exact H1]). split.
    - eapply keeps_mono; [|eapply alike_keeps; [exact H2|exact Hal|exact Hk]].
      intros id j (o & it & x & Hin & Hc). exists o, it, x. split; [done|]. by apply (alike_in _ _ _ _ _ _ H2).
    - intros l1 o it x l2 El HF. destruct (Hl _ _ _ _ _ El HF) as (bs & Hb & Hst). exists bs. split; [done|]. by apply (alike_stores _ _ _ _ Hal).
  Qed.

  (** ** Validate *)

  Hypothesis Hret : forall mem f ptr pt fe lk q mem' f', mo_retag MO mem f ptr pt fe lk = Ret (q, mem', f') -> same_dest ptr q.
  Lemma retag_val_tagged fe : forall ty v (m : Mach), shape T ty v -> post (retag_val MO fe ty v m) (fun r => retagged v (fst r)).
  Proof.
    induction ty as [it| |pt|fields head u IHf IHu|elem count IHe|elem IHe|fields chunks size align IHf|variants dty discr size align IHv|tn] using Ty_ind';
      intros v m Hsh; destruct v as [i|b|p|vs|d v|cs]; try (by inversion Hsh); try (apply post_intro; intros [w m'] [= <- <-]; constructor); cbn [retag_val].
    - apply post_intro. intros [w m'] E. apply obind_ret in E as ([q m1] & E & [= <- <-]). cbn [fst]. constructor.
      apply obind_ret in E as (f & _ & E). apply obind_ret in E as ([[q1 mem] ex] & Hr & E). apply obind_ret in E as (m2 & _ & [= <- <-]).
      apply obind_ret in Hr as ([[q2 mem2] ex2] & Hr & [= <- <- <-]). by eapply Hret.
    - inversion Hsh as [| | |? ? ? HF| | |]; subst. apply wp_bind. eapply wp_mono with (Q := fun r => Forall2 retagged vs (fst r)).
      + clear Hsh IHu. revert vs m HF. induction fields as [|[o t] fields IH]; intros vs m HF; inversion HF; subst; cbn [map_st2]; [constructor|].
        inversion IHf as [|? ? Hx Hy]; subst. apply wp_bind. eapply wp_mono; [by apply Hx|].
        intros [w m1] Hw. cbn [fst snd] in *. apply wp_bind. eapply wp_mono; [by apply IH|]. intros [ws m2] Hws. cbn in *. by constructor.
      + intros [ws m'] Hws. cbn in *. by constructor.
    - inversion Hsh as [| | | |? ? ? ? HF| |]; subst. apply wp_bind. eapply wp_mono with (Q := fun r => Forall2 retagged vs (fst r)).
      + clear Hsh. revert m. induction HF as [|v vs Hv HF IH]; intros m; cbn [map_st]; [constructor|].
        apply wp_bind. eapply wp_mono; [by apply IHe|].
        intros [w m1] Hw. cbn [fst snd] in *. apply wp_bind. eapply wp_mono; [by apply IH|]. intros [ws m2] Hws. cbn in *. by constructor.
      + intros [ws m'] Hws. cbn in *. by constructor.
    - inversion Hsh as [| | | | | |? ? ? ? ? ? ? ? ? Ev Hv]; subst. rewrite map_get_with_spec, Ev. cbn. apply wp_bind.
      rewrite List.Forall_forall in IHv. eapply wp_mono; [by apply (IHv _ (map_get_in _ _ _ Ev))|]. intros [w m1] Hw. cbn in *. by constructor.
  Qed.
  Lemma step_validate (m m' : Mach) p fe : steps_to T MO m m' -> at_statement m (m_active m') (SValidate p fe) ->
    exists pl ty m1 v w bs, at_place p (turn m (m_active m')) pl ty m1 /\ (exists m2, place_load T MO m1 pl ty = Ret (v, m2)) /\
      holds T m (p_thin (pl_ptr pl)) ty v /\ retagged v w /\ encode T ty w = Ret bs /\ writes m m' (p_thin (pl_ptr pl)) bs.
  Proof.
    intros Hs Ha. destruct (step_stmt _ _ _ Hs Ha) as (cs & m3 & cs' & f & He & _ & _ & Hal). cbn [eval_statement] in He.
    apply obind_ret in He as ([[pl ty] m1] & Hp & He). apply obind_ret in He as ([v m2] & Hv & He).
    apply obind_ret in He as ([w m4] & Hw & He). apply obind_ret in He as (m5 & Hst & [= <- <-]).
    pose proof (eval_place_still p (turn m (m_active m'))) as H1. rewrite Hp in H1. destruct H1 as [_ H1].
    pose proof (place_load_still m1 pl ty) as H2. rewrite Hv in H2. destruct H2 as [_ H2].
    pose proof (retag_val_still fe ty v m2) as H3. rewrite Hw in H3. destruct H3 as [_ H3].
    pose proof (retag_val_tagged fe ty v m2 (place_load_shape _ _ _ _ _ Hv)) as H4. rewrite Hw in H4. cbn [fst snd wp] in *.
    apply place_store_writes in Hst as (_ & bs & Hb & _ & Hwr). pose proof Hv as Hv0. apply place_load_holds in Hv as [Hpal Hv].
    assert (alike m m1) as H0 by (eapply alike_trans; [apply turn_alike|exact H1]).
    exists pl, ty, m1, v, w, bs. split; [done|]. split; [by eexists|]. split; [by apply (alike_holds _ _ _ _ _ H0)|]. split; [done|]. split; [done|].
    eapply alike_writes; [|exact Hal|exact Hwr]. eapply alike_trans; [exact H0|]. by eapply alike_trans.
  Qed.

  (** ** Calls *)

  Lemma fn_designates (m : Mach) v func : fn_from_ptr m v = Ret func -> designates m v func.
  Proof.
    unfold fn_from_ptr. destruct v as [| |[p [|]]| | |]; try done. destruct (List.find _ _) as [[n q]|] eqn:Ef; [|done].
    intros Hg%unwrap_ret. apply find_some in Ef as [Hin Hq]. cbn in Hq. apply bool_decide_eq_true in Hq as ->. by exists n, p.
  Qed.

  Lemma args_data args : forall (m m' : Mach) vals, map_st (eval_argument T MO) args m = Ret (vals, m') ->
    exists moved, args_eval T MO m args vals moved m' /\ quiet m m' /\
      keeps m m' (fun id j => exists q s, In (q, s) moved /\ cell_in m q (N.to_nat s) id j).
  Proof.
    induction args as [|a args IH]; intros m m' vals E; cbn [map_st] in E.
    { injection E as <- <-. exists []. split; [constructor|]. split; [apply quiet_refl|]. by intros ? ? _ _. }
    apply obind_ret in E as ([[v ty] m1] & Ha & E). apply obind_ret in E as ([vs m2] & Hr & [= <- <-]).
    destruct (IH _ _ _ Hr) as (moved & Hm & Hq & Hk). destruct a as [e|p]; cbn [eval_argument] in Ha.
    - pose proof (eval_value_still e m) as H1. rewrite Ha in H1. destruct H1 as [H1 H2]. cbn [snd] in *. exists moved.
      split; [by econstructor|]. split; [eapply quiet_trans; [|exact Hq]; split; [done|apply H2]|].
      eapply keeps_mono; [|eapply alike_keeps; [exact H2|apply alike_refl|exact Hk]].
      intros id j (q & s & Hin & Hc). exists q, s. split; [done|]. by apply (alike_in _ _ _ _ _ _ H2).
    - apply obind_ret in Ha as ([[pl ty'] m3] & Hp & Ha). apply obind_ret in Ha as ([w m4] & Hl & Ha).
      apply obind_ret in Ha as (m5 & Hpr & [= <- <- <-]).
      pose proof (eval_place_still p m) as H1. rewrite Hp in H1. destruct H1 as [H1 H2].
      pose proof (place_load_still m3 pl ty') as H3. rewrite Hl in H3. destruct H3 as [H3 H4]. cbn [snd] in *.
      destruct (prepare_erases _ _ _ _ Hpr) as (s & Hs & Hq1 & He).
      assert (alike m m4) as H5 by (by eapply alike_trans).
      exists ((p_thin (pl_ptr pl), s) :: moved). split; [by econstructor|]. split.
      + eapply quiet_trans; [|exact Hq]. eapply quiet_trans; [|exact Hq1]. split; [by eapply same_trans|apply H5].
      + eapply keeps_trans.
        * eapply keeps_mono; [|eapply alike_keeps; [exact H5|apply alike_refl|exact (proj2 He)]].
          intros id j Hc. exists (p_thin (pl_ptr pl)), s. split; [by left|]. rewrite repeat_length in Hc. by apply (alike_in _ _ _ _ _ _ H5).
        * eapply keeps_mono; [|exact Hk]. intros id j (q & s' & Hin & Hc). exists q, s'. split; [by right|].
          apply (alike_in _ _ _ _ _ _ H5). by apply (view_in _ _ _ _ _ _ (proj2 Hq1)).
  Qed.

  (** the locals of a new frame are new and apart *)
  Lemma map_remove_get_eq {V} (l : list (LocalName * V)) k : map_get (map_remove l k) k = None.
  Proof. rewrite map_remove_get. by rewrite bool_decide_eq_true_2. Qed.
  Lemma map_remove_get_ne {V} (l : list (LocalName * V)) k k' : k' <> k -> map_get (map_remove l k) k' = map_get l k'.
  Proof. intros Hn. rewrite map_remove_get. by rewrite bool_decide_eq_false_2. Qed.
  Lemma map_insert_get_eq {V} (l : list (LocalName * V)) k x : map_get (map_insert l k x) k = Some x.
  Proof. rewrite map_insert_get. by rewrite bool_decide_eq_true_2. Qed.
  Lemma map_insert_get_ne {V} (l : list (LocalName * V)) k x k' : k' <> k -> map_get (map_insert l k x) k' = map_get l k'.
  Proof. intros Hn. rewrite map_insert_get. by rewrite bool_decide_eq_false_2. Qed.
  Definition apart_from (n : nat) (ls : list (LocalName * ThinPtr P)) (v : list AV) : Prop :=
    (forall l p, map_get ls l = Some p -> exists id pe, tp_prov p = Some (id, pe) /\ (n <= id < length v)%nat) /\
    (forall l p l' p' id pe pe', map_get ls l = Some p -> map_get ls l' = Some p' ->
       tp_prov p = Some (id, pe) -> tp_prov p' = Some (id, pe') -> l = l').
  Lemma live_apart n f v l f' v' : (n <= length v)%nat -> apart_from n (snd f) v -> live T f v l f' v' ->
    (n <= length v')%nat /\ apart_from n (snd f') v'.
  Proof.
    intros Hn [H1 H2] Hl. destruct Hl as [fn ls ls1 v v1 l ty s a ad pe Hk _ _ _ _]. cbn [snd] in *.
    assert (length v1 = length v /\ forall l' p, map_get ls1 l' = Some p -> map_get ls l' = Some p) as [El Hs].
    { inversion Hk; subst; [done|]. split; [by rewrite insert_length|]. intros l' p'.
      destruct (decide (l' = l)) as [->|Hne]; [by rewrite map_remove_get_eq|by rewrite map_remove_get_ne]. }
    rewrite app_length, El. cbn [length]. split; [lia|]. split.
    - intros l' p. destruct (decide (l' = l)) as [->|Hne].
      + rewrite map_insert_get_eq. intros [= <-]. cbn. exists (length v), pe. rewrite app_length, El. cbn. split; [done|lia].
      + rewrite map_insert_get_ne by done. intros Hg. destruct (H1 _ _ (Hs _ _ Hg)) as (id & pe' & Hp & Hi). exists id, pe'.
        split; [done|]. rewrite app_length. cbn. lia.
    - assert (Hnew : forall l' p id pe', map_get ls1 l' = Some p -> tp_prov p = Some (id, pe') -> id <> length v1).
      { intros l' p id pe' Hg Hp. destruct (H1 _ _ (Hs _ _ Hg)) as (id' & pe'' & Hp' & Hi). rewrite Hp in Hp'. injection Hp' as -> _. lia. }
      intros l1 p1 l2 p2 id pe1 pe2. destruct (decide (l1 = l)) as [->|Hne1], (decide (l2 = l)) as [->|Hne2]; rewrite ?map_insert_get_eq, ?map_insert_get_ne by done.
      + done.
      + intros [= <-] Hg [= <- <-] Hp. by destruct (Hnew _ _ _ _ Hg Hp).
      + intros Hg [= <-] Hp [= <- <-]. by destruct (Hnew _ _ _ _ Hg Hp).
      + intros Hg1 Hg2 Hp1 Hp2. eapply H2; eauto.
  Qed.
  Lemma lives_apart n f v ls f' v' : (n <= length v)%nat -> apart_from n (snd f) v -> iterl (live T) f v ls f' v' -> apart_from n (snd f') v'.
  Proof.
    intros Hn Ha Hi. induction Hi as [|f v l f1 v1 ls f2 v2 Hl Hi IH]; [done|].
    destruct (live_apart _ _ _ _ _ _ Hn Ha Hl) as [Hn1 Ha1]. by apply IH.
  Qed.

  Notation local_holds := (local_holds T).
  Lemma store_args func (f : StackFrame P F) n : forall ls args (m m' : Mach),
    fold_m2 (fun m callee_local arg =>
          let! ty := unwrap (map_get (fn_locals func) callee_local) in
          let! ok := check_abi_compatibility (snd arg) ty in
          if negb ok then throw_ub "call ABI violation: argument types are not compatible" else
          let! align := align_of T (snd arg) in
          let! ptr := unwrap (map_get (f_locals f) callee_local) in
          expect_ok (typed_store T MO m ptr (fst arg) (snd arg) align NonAtomic)) ls args m = Ret m' ->
    length ls = length args -> NoDup ls -> apart_from n (f_locals f) (mview m) ->
    quiet m m' /\ keeps m m' (fun id _ => exists l p pe, In l ls /\ map_get (f_locals f) l = Some p /\ tp_prov p = Some (id, pe)) /\
    Forall2 (local_holds m' f) ls args /\
    Forall2 (fun l arg => exists ty, map_get (fn_locals func) l = Some ty /\ check_abi_compatibility (snd arg) ty = Ret true) ls args.
  Proof.
    induction ls as [|l ls IH]; intros [|[v vt] args] m m' E Hlen Hnd Hap; try done; cbn [fold_m2] in E.
    { injection E as <-. split; [apply quiet_refl|]. split; [by intros ? ? _ _|]. split; constructor. }
    apply obind_ret in E as (m1 & E1 & E). apply obind_ret in E1 as (ty & Hty & E1). apply unwrap_ret in Hty.
    apply obind_ret in E1 as (ok & Hok & E1). destruct ok; [|done]. cbn [negb fst snd] in *.
    apply obind_ret in E1 as (al & _ & E1). apply obind_ret in E1 as (p & Hp & E1). apply unwrap_ret in Hp.
    destruct (typed_store _ _ _ _ _ _ _ _) as [m2| | |] eqn:Hst; try done. injection E1 as ->.
    apply typed_store_writes in Hst as (bs & Hb & Hq & Hw). apply NoDup_cons in Hnd as [Hnl Hnd].
    destruct (IH args m1 m' E) as (Hq' & Hk & HF & HA); [by injection Hlen|done|by rewrite (proj2 Hq)|].
    split; [by eapply quiet_trans|]. split.
    - eapply keeps_trans.
      + eapply keeps_mono; [|exact (proj2 Hw)]. intros id j (i & (pe & a & Hpr & _) & _). exists l, p, pe. split; [by left|]. done.
      + eapply keeps_mono; [|exact Hk]. intros id j (l' & p' & pe & Hin & Hrest). exists l', p', pe. split; [by right|done].
    - split; constructor; try done; [|by exists ty].
      exists p, bs. split; [done|]. split; [done|]. eapply keeps_stores; [apply Hq'|exact Hk|exact (proj1 Hw)|].
      intros id j (i & (pe & a & Hpr & _) & _) (l' & p' & pe' & Hin & Hg & Hpr').
      assert (l = l') as <- by (eapply (proj2 Hap); eauto). apply Hnl. by apply elem_of_list_In.
  Qed.
  Lemma create_frame_data (m m' : Mach) func action conv rty args cs f cs' :
    create_frame T MO m func action conv rty args cs = Ret (f, m', cs') -> NoDup (fn_args func) ->
    keeps_all m m' /\ Forall2 (local_holds m' f) (fn_args func) args /\
    conv = fn_conv func /\
    (exists rt, map_get (fn_locals func) (fn_ret func) = Some rt /\ check_abi_compatibility rty rt = Ret true) /\
    Forall2 (fun l arg => exists ty, map_get (fn_locals func) l = Some ty /\ check_abi_compatibility (snd arg) ty = Ret true) (fn_args func) args.
  Proof.
    intros E Hnd. pose proof (create_frame_own T MO BL Tok m func action conv rty args cs) as Ho. rewrite E in Ho. destruct Ho as (_ & _ & Hi).
    unfold create_frame in E. apply obind_ret in E as ([[f1 mem] cs1] & Hf & E).
    case_bool_decide as Hconv; [|done]. cbn [negb] in E. apply obind_ret in E as (rt & Hrt & E). apply unwrap_ret in Hrt.
    apply obind_ret in E as (ok & Hok & E). destruct ok; [|done]. cbn [negb] in E.
    destruct (Nat.eqb_spec (length (fn_args func)) (length args)) as [Hlen|]; [|done]. cbn [negb] in E.
    apply obind_ret in E as (m1 & Hs & [= <- <- <-]).
    assert (grows (m_mem m) mem) as Hg.
    { clear Hs Hi. match type of Hf with fold_m _ ?l (?f0, _, _) = _ => revert Hf; generalize f0; generalize l end.
      generalize (m_mem m). intros mem0 l f0. revert mem0 f0 cs. induction l as [|x l IH]; intros mem0 f0 cs Hf; cbn [fold_m] in Hf.
      - injection Hf as _ <- _. apply grows_refl.
      - apply obind_ret in Hf as ([[f2 mem2] cs2] & H1 & Hf). apply storage_live_grows in H1. eapply grows_trans; [exact H1|]. by eapply IH. }
    assert (apart_from (length (mview m)) (f_locals f1) (mview m1)) as Hap.
    { change (f_locals f1) with (snd (fl (fctl f1))). eapply lives_apart; [|  |exact Hi]; [done|]. split; [done|]. by intros ? ? ? ? ? ? ?. }
    assert (mview m1 = mview (set_mem m mem)) as Ev.
    { pose proof (store_args func f1 (length (mview m))) as Hx.
      assert (forall l1 l2 m0 m2, fold_m2 (fun m callee_local arg =>
          let! ty := unwrap (map_get (fn_locals func) callee_local) in
          let! ok := check_abi_compatibility (snd arg) ty in
          if negb ok then throw_ub "call ABI violation: argument types are not compatible" else
          let! align := align_of T (snd arg) in
          let! ptr := unwrap (map_get (f_locals f1) callee_local) in
          expect_ok (typed_store T MO m ptr (fst arg) (snd arg) align NonAtomic)) l1 l2 m0 = Ret m2 -> mview m2 = mview m0) as Hl; [|by eapply Hl].
      clear -BL. induction l1 as [|x l1 IH]; intros [|y l2] m0 m2 Hm; cbn [fold_m2] in Hm; try (by injection Hm as <-).
      apply obind_ret in Hm as (m3 & H1 & H2). apply IH in H2. rewrite H2. apply obind_ret in H1 as (? & _ & H1). apply obind_ret in H1 as ([] & _ & H1); [|done].
      cbn [negb] in H1. apply obind_ret in H1 as (? & _ & H1). apply obind_ret in H1 as (? & _ & H1). destruct (typed_store _ _ _ _ _ _ _ _) eqn:Hst; try done.
      injection H1 as ->. apply typed_store_writes in Hst as (? & _ & Hq & _). apply Hq. }
    rewrite Ev in Hap. destruct (store_args _ _ _ _ _ _ _ Hs Hlen Hnd Hap) as (Hq & Hk & HF & HA).
    split; [|split; [done|]; split; [done|]; split; [by exists rt|done]].
    intros id j Hc _. rewrite Hk.
    - apply (grows_keeps m (set_mem m mem)); [done|done|tauto].
    - rewrite (grows_keeps m (set_mem m mem)); [done|done|done|tauto].
    - intros (l & p & pe & Hin & Hg' & Hp). destruct (proj1 Hap _ _ Hg') as (id' & pe' & Hp' & Hi').
      rewrite Hp in Hp'. injection Hp' as <- <-. unfold cell in Hc. destruct (_ !! id) as [a|] eqn:Ea; [|done].
      apply lookup_lt_Some in Ea. unfold mview, mv in Hi'. rewrite map_length in Hi'. lia.
  Qed.

  Lemma fctl_same (f g : StackFrame P F) : fctl g = fctl f -> same_frame f g.
  Proof. unfold fctl, same_frame. intros [= -> -> -> -> ->]. done. Qed.
  Lemma fctl_list (r r' : list (StackFrame P F)) : List.map fctl r' = List.map fctl r -> Forall2 same_frame r r'.
  Proof.
    revert r'. induction r as [|f r IH]; intros [|g r'] E; [constructor|done..|]. cbn in E.
    assert (fctl g = fctl f) by congruence. assert (List.map fctl r' = List.map fctl r) by congruence. constructor; [by apply fctl_same|by apply IH].
  Qed.
  Lemma same_thread (m m' : Mach) a t' : same m m' -> m_threads m' !! a = Some t' ->
    exists t, m_threads m !! a = Some t /\ Forall2 same_frame (t_stack t) (t_stack t') /\ t_state t' = t_state t /\ t_payloads t' = t_payloads t.
  Proof.
    unfold same. intros E Ht. pose proof (ctl_thread m' a) as E1. rewrite E, ctl_thread, Ht in E1.
    destruct (m_threads m !! a) as [t|] eqn:Et; [|done]. cbn in E1. injection E1 as E1 E2 E3. exists t. split; [done|].
    split; [by apply fctl_list|]. done.
  Qed.
  Lemma same_active (m m' : Mach) : same m m' -> m_active m' = m_active m.
  Proof. unfold same. intros E. change (c_active (ctl m') = c_active (ctl m)). by rewrite E. Qed.
  Lemma same_prog (m m' : Mach) : same m m' -> m_prog m' = m_prog m.
  Proof. unfold same. intros E. change (c_prog (ctl m') = c_prog (ctl m)). by rewrite E. Qed.

  Lemma step_call_data prog (m m' : Mach) callee conv args ret nb ub : minv T prog m -> steps_to T MO m m' ->
    at_terminator m (m_active m') (TmCall callee conv args ret nb ub) ->
    exists rp rty rs m1 m2 fv fty m3 func vals moved m4 f st st',
      eval_place T MO ret (turn m (m_active m')) = Ret (rp, rty, m1) /\ size_of T rty = Ret rs /\
      prepare_for_inplace_passing T MO m1 rp rty = Ret m2 /\ eval_value T MO callee m2 = Ret (fv, fty, m3) /\
      fn_from_ptr m3 fv = Ret func /\ args_eval T MO m3 args vals moved m4 /\
      stack_of m (m_active m') st /\ stack_of m' (m_active m') (f :: st') /\ Forall2 same_frame st st' /\
      f_func f = func /\ f_block f = fn_start func /\ f_stmt f = 0%nat /\ f_action f = BackToCaller nb ub (p_thin (pl_ptr rp)) /\
      Forall2 (local_holds m' f) (fn_args func) vals /\
      keeps m m' (fun id j => cell_in m (p_thin (pl_ptr rp)) (N.to_nat rs) id j \/
                    exists q s, In (q, s) moved /\ cell_in m q (N.to_nat s) id j) /\
      conv = fn_conv func /\
      (exists rt, map_get (fn_locals func) (fn_ret func) = Some rt /\ check_abi_compatibility rty rt = Ret true) /\
      Forall2 (fun l arg => exists ty, map_get (fn_locals func) l = Some ty /\ check_abi_compatibility (snd arg) ty = Ret true) (fn_args func) vals.
  Proof.
    intros Hi Hs Ha. destruct (step_term _ _ _ Hs Ha) as (cs & cs' & He). cbn [eval_terminator] in He.
    apply obind_ret in He as ([[rp rty] m1] & H1 & He). apply obind_ret in He as (m2 & H2 & He).
    apply obind_ret in He as ([[fv fty] m3] & H3 & He). apply obind_ret in He as (func & H4 & He).
    apply obind_ret in He as ([vals m4] & H5 & He). unfold eval_call in He.
    apply obind_ret in He as ([[f m5] cs1] & H6 & He). apply obind_ret in He as (t & Ht & [= Em _]). apply unwrap_ret in Ht.
    pose proof (eval_place_still ret (turn m (m_active m'))) as S1. rewrite H1 in S1. destruct S1 as [S1 A1]. cbn [snd] in *.
    destruct (prepare_erases _ _ _ _ H2) as (rs & Hrs & [S2 V2] & E2).
    pose proof (eval_value_still callee m2) as S3. rewrite H3 in S3. destruct S3 as [S3 A3]. cbn [snd] in *.
    destruct (args_data _ _ _ _ H5) as (moved & Hargs & [S5 V5] & K5).
    pose proof (create_frame_own T MO BL Tok m4 func (BackToCaller nb ub (p_thin (pl_ptr rp))) conv rty vals cs) as Ho. rewrite H6 in Ho.
    destruct Ho as (S6 & [ls Hls] & _).
    assert (same (turn m (m_active m')) m5) as S by (eapply same_trans; [exact S1|]; eapply same_trans; [exact S2|]; eapply same_trans; [exact S3|]; by eapply same_trans).
    destruct (fn_from_ptr_prog _ _ _ H4) as [n Hn].
    rewrite (same_prog _ _ S3), (same_prog _ _ S2), (same_prog _ _ S1) in Hn. cbn [m_prog turn] in Hn. rewrite (mi_prog _ _ _ Hi) in Hn.
    pose proof (prog_fn T prog n func (mi_wf _ _ _ Hi) Hn) as Hok. pose proof (fo_names _ _ _ Hok) as Hnd. apply NoDup_cons in Hnd as [_ Hnd].
    destruct (create_frame_data _ _ _ _ _ _ _ _ _ _ H6 Hnd) as (K6 & HF & Hconv & Hrt & HA).
    assert (alike m5 m') as A7 by (rewrite <-Em; done).
    destruct (same_thread _ _ _ _ S Ht) as (t0 & Ht0 & Hst & _).
    assert (Eact : m_active m5 = m_active m') by (rewrite (same_active _ _ S); done).
    exists rp, rty, rs, m1, m2, fv, fty, m3, func, vals, moved, m4, f, (t_stack t0), (t_stack t).
    do 6 (split; [done|]). split. { exists t0. rewrite <-Eact. done. }
    split. { eexists. split; [|]. { rewrite <-Em. unfold set_active_thread, set_thread. cbn [set_threads m_threads m_active].
        apply list_lookup_insert. by eapply lookup_lt_Some. } done. }
    split; [done|]. unfold fctl in Hls. injection Hls as -> Hl -> -> ->. do 4 (split; [done|]).
    split. { eapply Forall2_impl; [exact HF|]. intros l arg (p & bs & Hg & Hb & Hsa). exists p, bs. split; [done|]. split; [done|]. by apply (alike_stores _ _ _ _ A7). }
    split; [|done].
    assert (alike m m1) as A0 by (eapply alike_trans; [apply turn_alike|exact A1]).
    assert (mview m3 = mview m) as V3 by (rewrite (proj1 A3), V2, (proj1 A0); done).
    eapply keeps_trans.
    { eapply keeps_mono; [|eapply alike_keeps; [exact A0|exact A3|exact (proj2 E2)]]. intros id j Hc. left. rewrite repeat_length in Hc.
      by apply (alike_in _ _ _ _ _ _ A0). }
    eapply keeps_trans.
    { eapply keeps_mono; [|exact K5]. intros id j (q & s & Hin & Hc). right. exists q, s. split; [done|]. by apply (view_in _ _ _ _ _ _ V3). }
    apply (keeps_mono _ _ (fun _ _ => False)); [by intros id j []|]. eapply alike_keeps; [apply alike_refl|exact A7|exact K6].
  Qed.

  (** ** Returns *)

  Definition shrinks (v v' : list AV) : Prop := forall id x, v' !! id = Some x -> v_live x = true -> v !! id = Some x.
  Lemma kills_shrink f v ls f' v' : iterl (PE := PE) (kill T) f v ls f' v' -> shrinks v v'.
  Proof.
    induction 1 as [|f v l f1 v1 ls f2 v2 Hk Hi IH]; [by intros ? ?|]. intros id x Hx Hl. specialize (IH _ _ Hx Hl).
    inversion Hk as [|fn0 ls0 v0 l0 p id0 pe ty s a]; subst; [done|].
    destruct (decide (id = id0)) as [->|Hn].
    - rewrite list_lookup_insert in IH by (by eapply lookup_lt_Some). by injection IH as <-.
    - by rewrite list_lookup_insert_ne in IH.
  Qed.
  Lemma shrinks_points (m m' : Mach) p id i : shrinks (mview m) (mview m') -> points_to m' p id i -> points_to m p id i.
  Proof.
    intros Hs. rewrite !points_view. intros (pe & x & Hp & Hx & Hl & Ha). exists pe, x. split; [done|]. split; [by apply Hs|done].
  Qed.
  Lemma end_call_view mem x mem' : cm_end_call MO mem x = Ret mem' -> mv (cm_mem mem') = mv (cm_mem mem).
  Proof. intros E. apply obind_ret in E as (mem1 & E & [= <-]). apply (bl_end _ _ BL) in E. by apply extra_mv. Qed.

  Lemma step_return_data (m m' : Mach) : steps_to T MO m m' -> at_terminator m (m_active m') TmReturn ->
    exists f r rty p v, stack_of m (m_active m') (f :: r) /\ map_get (fn_locals (f_func f)) (fn_ret (f_func f)) = Some rty /\
      map_get (f_locals f) (fn_ret (f_func f)) = Some p /\ holds T m p rty v /\
      match f_action f with
      | BottomOfStack => keeps_all m m' /\ stack_of m' (m_active m') []
      | BackToCaller nb _ rp => exists b g r1 g' r1' bs, nb = Some b /\ r = g :: r1 /\ stack_of m' (m_active m') (g' :: r1') /\
          jumped b g g' /\ Forall2 same_frame r1 r1' /\ encode T rty v = Ret bs /\ writes m m' rp bs
      end.
  Proof.
    intros Hs Ha. destruct (step_term _ _ _ Hs Ha) as (cs & cs' & He). cbn [eval_terminator] in He.
    apply obind_ret in He as ([f m1] & H1 & He). unfold pop_frame in H1. apply obind_ret in H1 as (t & Ht & H1). apply unwrap_ret in Ht.
    destruct (t_stack t) as [|f0 r] eqn:Est; [done|]. injection H1 as -> <-. set (m1 := set_active_thread _ _) in *.
    apply obind_ret in He as (rty & Hty & He). apply unwrap_ret in Hty. apply obind_ret in He as (al & _ & He).
    apply obind_ret in He as (p & Hp & He). apply unwrap_ret in Hp. apply obind_ret in He as ([v m2] & Hl & He).
    apply obind_ret in He as ([f1 mem1] & Hd & He). apply obind_ret in He as (mem2 & Hec & He).
    exists f, r, rty, p, v. split; [by exists t|]. split; [done|]. split; [done|].
    assert (alike m m1) as A1 by done.
    pose proof (typed_load_still m1 p rty al NonAtomic) as S2. rewrite Hl in S2. destruct S2 as [S2 A2]. cbn [snd] in *.
    apply typed_load_holds in Hl. split; [by apply (alike_holds _ _ _ _ _ A1)|].
    assert (alike m m2) as A02 by (by eapply alike_trans).
    pose proof (dealloc_locals_kill T MO BL f (m_mem m2)) as Hk. rewrite Hd in Hk.
    destruct Hk as [Hk Eact]. cbn [fst snd] in *. apply kills_shrink in Hk as Hsh.
    apply dealloc_locals_md in Hd. rewrite Eact in He. pose proof (end_call_view _ _ _ Hec) as Hv. apply end_call_md in Hec.
    set (m3 := set_mem m2 mem2) in *.
    assert (keeps_all m m3) as K3. { apply grows_keeps, grows_same. unfold m3. cbn [m_mem set_mem]. rewrite Hec, Hd. apply A02. }
    assert (shrinks (mview m) (mview m3)) as V3. { intros id x. unfold m3, mview at 1. cbn [m_mem set_mem]. rewrite Hv. rewrite <-(proj1 A02). apply Hsh. }
    assert (same m1 m3) as S3 by exact S2.
    assert (m_active m3 = m_active m') as Ea by (rewrite (same_active _ _ S3); done).
    assert (Et : forall m4 t', same m3 m4 -> m_threads m4 !! m_active m' = Some t' -> Forall2 same_frame r (t_stack t')).
    { intros m4 t' S4 Ht'. destruct (same_thread m1 m4 _ _ (same_trans _ _ _ S3 S4) Ht') as (t1 & Ht1 & Hst & _).
      unfold m1, set_active_thread, set_thread in Ht1. cbn [set_threads m_threads m_active turn] in Ht1.
      rewrite list_lookup_insert in Ht1 by (by eapply lookup_lt_Some). injection Ht1 as <-. done. }
    destruct (f_action f) as [|nb ub rp].
    - apply obind_ret in He as (m4 & Hte & [= <- <-]). unfold terminate_active_thread in Hte. destruct (m_active m3 =? 0)%nat; [done|].
      apply obind_ret in Hte as (t2 & Ht2 & Hte). apply unwrap_ret in Ht2. apply obind_ret in Hte as (u & Hnil & Hte).
      destruct (t_stack t2) as [|] eqn:Es2; [|done]. injection Hte as Em4. split.
      + rewrite <-Em4. exact K3.
      + unfold stack_of. generalize Ea. pattern (m_threads m4). generalize (m_active m4). intros a' Ea'. rewrite <-Em4.
        cbn [set_active_thread set_thread set_threads set_sync m_threads m_active]. eexists. split.
        * match goal with |- List.map ?g ?l !! ?i = _ => change (List.map g l) with (g <$> l) end.
          rewrite list_lookup_fmap, <-Ea', list_lookup_insert by (by eapply lookup_lt_Some). done.
        * cbn. by case_bool_decide.
    - apply obind_ret in He as (t2 & _ & He). apply obind_ret in He as (u & _ & He). apply obind_ret in He as (m4 & Hst & He).
      destruct nb as [b|]; [|done]. apply obind_ret in He as (m5 & Hj & [= <- <-]).
      apply typed_store_writes in Hst as (bs & Hb & [S4 V4] & Hst & K4).
      pose proof (jump_alike _ _ _ Hj) as A5. unfold jump_to_block in Hj. apply obind_ret in Hj as (g4 & Hg4 & Hj).
      unfold cur_frame in Hg4. apply obind_ret in Hg4 as (t4 & Ht4 & Hg4). apply unwrap_ret in Ht4, Hg4.
      unfold set_cur_frame in Hj. apply obind_ret in Hj as (t4' & Ht4' & Hj). apply unwrap_ret in Ht4'.
      rewrite Ht4 in Ht4'. injection Ht4' as <-. destruct (t_stack t4) as [|g4' r4] eqn:Es4; [done|]. injection Hg4 as ->. injection Hj as Em5.
      assert (m_active m4 = m_active m5) as Ea4 by (rewrite (same_active _ _ S4); done).
      rewrite Ea4 in Ht4. pose proof (Et _ _ S4 Ht4) as Hr. rewrite Es4 in Hr. inversion Hr as [|g ? r1 ? Hg Hr1]; subst r.
      exists b, g, r1, (with_pc g4 b 0), r4, bs. split; [done|]. split; [done|]. split.
      { eexists. split; [rewrite <-Em5; unfold set_active_thread, set_thread; cbn [set_threads m_threads m_active]|].
        - rewrite Ea4. apply list_lookup_insert. by eapply lookup_lt_Some.
        - done. }
      split. { destruct Hg as (? & ? & ? & _). by repeat split. }
      split; [done|]. split; [done|]. split; [by apply (alike_stores _ _ _ _ A5)|].
      eapply keeps_trans.
      + eapply (keeps_mono _ _ (fun _ _ => False)); [by intros ? ? []|exact K3].
      + eapply keeps_mono; [|eapply alike_keeps; [apply alike_refl|exact A5|exact K4]].
        intros id j (i & Hp' & Hij). exists i. split; [|done]. by eapply shrinks_points.
  Qed.

  (** ** Intrinsics *)

  Lemma evals_data es : forall (m m' : Mach) vals, map_st (fun m e => eval_value T MO e m) es m = Ret (vals, m') ->
    evals T MO m es vals m' /\ still m m'.
  Proof.
    induction es as [|e es IH]; intros m m' vals E; cbn [map_st] in E.
    { injection E as <- <-. split; [constructor|apply still_refl]. }
    apply obind_ret in E as ([[v ty] m1] & H1 & E). apply obind_ret in E as ([vs m2] & H2 & [= <- <-]).
    destruct (IH _ _ _ H2) as [He Hs]. pose proof (eval_value_still e m) as S1. rewrite H1 in S1.
    split; [by econstructor|]. eapply still_trans; [exact S1|exact Hs].
  Qed.
  Lemma step_intr (m m' : Mach) op args ret nb : steps_to T MO m m' -> at_terminator m (m_active m') (TmIntrinsic op args ret nb) ->
    exists rp rty m1 vals m2 cs v m3 cs' bs, at_place ret (turn m (m_active m')) rp rty m1 /\
      evals T MO m1 args vals m2 /\ still (turn m (m_active m')) m2 /\ alike m m2 /\
      eval_intrinsic T MO m2 op vals rty cs = Ret (v, m3, cs') /\
      encode T rty v = Ret bs /\ writes m3 m' (p_thin (pl_ptr rp)) bs /\ mview m' = mview m3.
  Proof.
    intros Hs Ha. destruct (step_term _ _ _ Hs Ha) as (cs & cs' & He). cbn [eval_terminator] in He.
    apply obind_ret in He as ([[rp rty] m1] & H1 & He). apply obind_ret in He as ([vals m2] & H2 & He).
    apply obind_ret in He as ([[v m3] cs1] & H3 & He). apply obind_ret in He as (m4 & H4 & He).
    destruct nb as [b|]; [|done]. apply obind_ret in He as (m5 & Hj & [= <- <-]). apply jump_alike in Hj.
    apply place_store_writes in H4 as (Hpal & bs & Hb & [_ V4] & Hw). apply evals_data in H2 as [H2 S2].
    pose proof (eval_place_still ret (turn m (m_active m5))) as S1. rewrite H1 in S1. cbn [snd wp] in S1.
    assert (still (turn m (m_active m5)) m2) as S by (by eapply still_trans).
    exists rp, rty, m1, vals, m2, cs, v, m3, cs1, bs. do 3 (split; [done|]). split; [eapply alike_trans; [apply turn_alike|apply S]|].
    do 2 (split; [done|]). split; [eapply alike_writes; [apply alike_refl|exact Hj|exact Hw]|]. rewrite (proj1 Hj). done.
  Qed.
  Lemma writes_alike_l (m m1 m2 : Mach) p bs : alike m m1 -> writes m1 m2 p bs -> writes m m2 p bs.
  Proof. intros A Hw. eapply alike_writes; [exact A|apply alike_refl|exact Hw]. Qed.
  Lemma writes_nil (m m' : Mach) p : writes m m' p [] -> keeps_all m m'.
  Proof.
    intros [_ Hk] id j Hc _. apply Hk; [done|]. intros (i & _ & Hi). cbn in Hi. lia.
  Qed.
  Lemma unit_bytes bs : encode (P := P) T unit_ty unit_value = Ret bs -> bs = [].
  Proof. intros E. vm_compute in E. by injection E as <-. Qed.
  Lemma ensure_unit_ret ty msg u : ensure_unit ty msg = Ret u -> ty = unit_ty.
  Proof. unfold ensure_unit. by case_bool_decide. Qed.

  Lemma step_atomic_load (m m' : Mach) args ret nb : steps_to T MO m m' ->
    at_terminator m (m_active m') (TmIntrinsic InAtomicLoad args ret nb) ->
    exists rp rty m1 p pty m2 v bs, at_place ret (turn m (m_active m')) rp rty m1 /\
      evals T MO m1 args [(VPtr (mkPtr p None), pty)] m2 /\ holds T m p rty v /\
      encode T rty v = Ret bs /\ writes m m' (p_thin (pl_ptr rp)) bs.
  Proof.
    intros Hs Ha. destruct (step_intr _ _ _ _ _ _ Hs Ha) as (rp & rty & m1 & vals & m2 & cs & v & m3 & cs' & bs & H1 & H2 & _ & A & H3 & H4 & H5 & V5).
    cbn [eval_intrinsic] in H3. destruct vals as [|[[| |[p [|]]| | |] pty] [|]]; try done.
    apply obind_ret in H3 as (s & Hsz & H3). destruct (align_from_bytes s) as [al|]; [|done]. destruct (_ <? _)%N; [done|].
    apply obind_ret in H3 as ([w m4] & Hl & [= -> -> _]). pose proof (typed_load_still m2 p rty al Atomic) as S. rewrite Hl in S.
    destruct S as [_ A4]. cbn [snd] in *. apply typed_load_holds in Hl. exists rp, rty, m1, p, pty, m2, v, bs. split; [done|]. split; [done|].
    split; [by apply (alike_holds _ _ _ _ _ A)|]. split; [done|]. eapply writes_alike_l; [|exact H5]. by eapply alike_trans.
  Qed.
  Lemma step_atomic_store (m m' : Mach) args ret nb : steps_to T MO m m' ->
    at_terminator m (m_active m') (TmIntrinsic InAtomicStore args ret nb) ->
    exists rp rty m1 p pty v ty m2 bs, at_place ret (turn m (m_active m')) rp rty m1 /\
      evals T MO m1 args [(VPtr (mkPtr p None), pty); (v, ty)] m2 /\ encode T ty v = Ret bs /\ writes m m' p bs.
  Proof.
    intros Hs Ha. destruct (step_intr _ _ _ _ _ _ Hs Ha) as (rp & rty & m1 & vals & m2 & cs & v & m3 & cs' & bs & H1 & H2 & _ & A & H3 & H4 & H5 & V5).
    cbn [eval_intrinsic] in H3. destruct vals as [|[pv pty] [|[w ty] [|]]]; try done. destruct pv as [| |[p [|]]| | |]; try done.
    apply obind_ret in H3 as (l & Hl & H3). destruct l as [s ?| | |]; try done. destruct (align_from_bytes s) as [al|]; [|done]. destruct (_ <? _)%N; [done|].
    apply obind_ret in H3 as (u & Hu & H3). apply ensure_unit_ret in Hu as ->.
    apply obind_ret in H3 as (m4 & Hst & [= <- <- _]). apply typed_store_writes in Hst as (bs' & Hb & _ & Hw).
    apply unit_bytes in H4 as ->. exists rp, unit_ty, m1, p, pty, w, ty, m2, bs'. do 3 (split; [done|]).
    apply writes_alike_l with (m1 := m2); [done|]. destruct Hw as [Hw Hk]. apply writes_nil in H5 as H5'. split.
    - eapply keeps_stores; [exact V5|exact H5'|exact Hw|]. by intros ? ? _ [].
    - eapply keeps_trans; [exact Hk|]. eapply keeps_mono; [|exact H5']. by intros ? ? [].
  Qed.
  Lemma step_compare_exchange (m m' : Mach) args ret nb : steps_to T MO m m' ->
    at_terminator m (m_active m') (TmIntrinsic InAtomicCompareExchange args ret nb) ->
    exists rp it m1 p pty cur next old m2 bs mid, at_place ret (turn m (m_active m')) rp (TInt it) m1 /\
      evals T MO m1 args [(VPtr (mkPtr p None), pty); (cur, TInt it); (next, TInt it)] m2 /\
      holds T m p (TInt it) old /\
      (cur = old -> exists bs', encode T (TInt it) next = Ret bs' /\ writes m mid p bs') /\ (cur <> old -> keeps_all m mid) /\
      encode T (TInt it) old = Ret bs /\ writes mid m' (p_thin (pl_ptr rp)) bs.
  Proof.
    intros Hs Ha. destruct (step_intr _ _ _ _ _ _ Hs Ha) as (rp & rty & m1 & vals & m2 & cs & v & m3 & cs' & bs & H1 & H2 & _ & A & H3 & H4 & H5 & V5).
    cbn [eval_intrinsic] in H3. destruct vals as [|[pv pty] [|[cur cty] [|[next nty] [|]]]]; try done. destruct pv as [| |[p [|]]| | |]; try done.
    case_bool_decide as Ec; [|done]. subst cty. case_bool_decide as En; [|done]. subst nty. cbn [negb] in H3.
    destruct rty as [it| | | | | | | |]; try done. apply obind_ret in H3 as (s & Hsz & H3). apply obind_ret in H3 as (al & Hal & H3).
    destruct (_ <? _)%N; [done|]. apply obind_ret in H3 as ([old m4] & Hl & H3).
    pose proof (typed_load_still m2 p (TInt it) al Atomic) as S. rewrite Hl in S. destruct S as [_ A4]. cbn [snd] in *.
    apply typed_load_holds in Hl. assert (alike m m4) as A04 by (by eapply alike_trans).
    destruct (value_eqb cur old) eqn:Eq.
    - apply obind_ret in H3 as (m5 & Hst & [= <- <- _]). apply typed_store_writes in Hst as (bs' & Hb & _ & Hw).
      exists rp, it, m1, p, pty, cur, next, old, m2, bs, m5. do 2 (split; [done|]). split; [by apply (alike_holds _ _ _ _ _ A)|].
      split; [intros _; exists bs'; split; [done|by eapply writes_alike_l]|]. split; [|done]. intros Hn. exfalso. by apply Hn, value_eqb_eq.
    - injection H3 as <- <- _. exists rp, it, m1, p, pty, cur, next, old, m2, bs, m4. do 2 (split; [done|]). split; [by apply (alike_holds _ _ _ _ _ A)|].
      split; [|split; [intros _; by apply alike_keeps_all|done]]. intros ->. exfalso. by rewrite (proj2 (value_eqb_eq old old)) in Eq.
  Qed.
  Lemma step_fetch_op (m m' : Mach) op args ret nb : steps_to T MO m m' ->
    at_terminator m (m_active m') (TmIntrinsic (InAtomicFetchAndOp op) args ret nb) ->
    exists rp it m1 p pty x old new m2 bs bs' mid, at_place ret (turn m (m_active m')) rp (TInt it) m1 /\
      evals T MO m1 args [(VPtr (mkPtr p None), pty); (VInt x, TInt it)] m2 /\ holds T m p (TInt it) (VInt old) /\
      eval_int_bin_op op old x it = Ret new /\
      encode T (TInt it) (VInt new) = Ret bs' /\ writes m mid p bs' /\
      encode T (TInt it) (VInt old) = Ret bs /\ writes mid m' (p_thin (pl_ptr rp)) bs.
  Proof.
    intros Hs Ha. destruct (step_intr _ _ _ _ _ _ Hs Ha) as (rp & rty & m1 & vals & m2 & cs & v & m3 & cs' & bs & H1 & H2 & _ & A & H3 & H4 & H5 & V5).
    cbn [eval_intrinsic] in H3. destruct vals as [|[pv pty] [|[x xty] [|]]]; try done. destruct pv as [| |[p [|]]| | |]; try done.
    case_bool_decide as Ec; [|done]. subst xty. cbn [negb] in H3.
    destruct rty as [it| | | | | | | |]; try done. apply obind_ret in H3 as (s & Hsz & H3). apply obind_ret in H3 as (al & Hal & H3).
    destruct (_ <? _)%N; [done|]. apply obind_ret in H3 as ([old m4] & Hl & H3).
    pose proof (typed_load_still m2 p (TInt it) al Atomic) as S. rewrite Hl in S. destruct S as [_ A4]. cbn [snd] in *.
    apply typed_load_holds in Hl. assert (alike m m4) as A04 by (by eapply alike_trans).
    destruct x as [x| | | | |]; try done. destruct old as [old| | | | |]; try done. apply obind_ret in H3 as (new & Hop & H3).
    apply obind_ret in H3 as (m5 & Hst & [= <- <- _]). apply typed_store_writes in Hst as (bs' & Hb & _ & Hw).
    exists rp, it, m1, p, pty, x, old, new, m2, bs, bs', m5. do 2 (split; [done|]). split; [by apply (alike_holds _ _ _ _ _ A)|].
    split; [done|]. split; [done|]. split; [by eapply writes_alike_l|]. done.
  Qed.

  Lemma bytes_data_map (bs : list (AByte P)) d : bytes_data bs = Some d -> Forall2 (fun b x => exists o, b = Init x o) bs d.
  Proof.
    revert d. induction bs as [|b bs IH]; intros d E; cbn [bytes_data] in E; [injection E as <-; constructor|].
    destruct b as [|x o]; cbn in E; [done|]. destruct (bytes_data bs) as [d'|]; [|done]. injection E as <-. constructor; [by eexists|by apply IH].
  Qed.
  Lemma load_raw_reads (m m' : Mach) q pt d : load_raw_data MO m q pt = Ret (d, m') -> alike m m' /\
    exists mu pi s al bs, pt = PRef mu pi /\ pi_layout pi = LSized s al /\ length bs = N.to_nat s /\ stores_at m (p_thin q) bs /\
      Forall2 (fun b x => exists o, b = Init x o) bs d.
  Proof.
    unfold load_raw_data. destruct pt as [mu pi| | | |]; try done. destruct (pi_layout pi) as [s al| | |] eqn:El; try done.
    intros E. apply obind_ret in E as ([bs mem] & Hl & E). destruct (bytes_data bs) as [d'|] eqn:Ed; [|done]. injection E as <- <-.
    pose proof (cm_load_still m (p_thin q) s al NonAtomic) as S. rewrite Hl in S. apply cm_load_reads in Hl as [H1 H2].
    split; [apply S|]. exists mu, pi, s, al, bs. do 4 (split; [done|]). by apply bytes_data_map.
  Qed.
  Lemma step_raw_eq (m m' : Mach) args ret nb : steps_to T MO m m' ->
    at_terminator m (m_active m') (TmIntrinsic InRawEq args ret nb) ->
    exists rp m1 p q mu pi s al m2 bs1 d1 bs2 d2 bs, at_place ret (turn m (m_active m')) rp TBool m1 /\
      evals T MO m1 args [(VPtr p, TPtr (PRef mu pi)); (VPtr q, TPtr (PRef mu pi))] m2 /\ pi_layout pi = LSized s al /\
      length bs1 = N.to_nat s /\ stores_at m (p_thin p) bs1 /\ Forall2 (fun b x => exists o, b = Init x o) bs1 d1 /\
      length bs2 = N.to_nat s /\ stores_at m (p_thin q) bs2 /\ Forall2 (fun b x => exists o, b = Init x o) bs2 d2 /\
      encode T TBool (VBool (bool_decide (d1 = d2))) = Ret bs /\ writes m m' (p_thin (pl_ptr rp)) bs.
  Proof.
    intros Hs Ha. destruct (step_intr _ _ _ _ _ _ Hs Ha) as (rp & rty & m1 & vals & m2 & cs & v & m3 & cs' & bs & H1 & H2 & _ & A & H3 & H4 & H5 & V5).
    cbn [eval_intrinsic] in H3. destruct vals as [|[lv lty] [|[rv rt] [|]]]; try done.
    case_bool_decide as Ec; [|done]. subst rty. case_bool_decide as Ec; [|done]. subst rt. cbn [negb] in H3.
    destruct lv as [| |p| | |]; try done. destruct rv as [| |q| | |]; try done. destruct lty as [| |pt| | | | | |]; try done.
    apply obind_ret in H3 as ([d1 m4] & Hl1 & H3). apply obind_ret in H3 as ([d2 m5] & Hl2 & [= <- <- _]).
    apply load_raw_reads in Hl1 as (A4 & mu & pi & s & al & bs1 & -> & El & Hn1 & Hs1 & HF1).
    apply load_raw_reads in Hl2 as (A5 & mu' & pi' & s' & al' & bs2 & [= <- <-] & El' & Hn2 & Hs2 & HF2). rewrite El in El'. injection El' as <- <-.
    assert (alike m m4) as A04 by (by eapply alike_trans).
    exists rp, m1, p, q, mu, pi, s, al, m2, bs1, d1, bs2, d2, bs. do 4 (split; [done|]). split; [by apply (alike_stores _ _ _ _ A)|].
    do 2 (split; [done|]). split; [by apply (alike_stores _ _ _ _ A04)|]. do 2 (split; [done|]). eapply writes_alike_l; [|exact H5]. by eapply alike_trans.
  Qed.

  Lemma alike_object (m m' : Mach) p id k s al : mview m' = mview m -> object_at m' p id k s al <-> object_at m p id k s al.
  Proof.
    assert (H : forall m : Mach, object_at m p id k s al <-> exists pe, tp_prov p = Some (id, pe) /\ mview m !! id = Some (mkAV (tp_addr p) s al k true)).
    { clear. intros m. unfold object_at, mview. setoid_rewrite mv_lookup. split.
      - intros (pe & a & H1 & -> & Hl & <- & <- & <- & <-). exists pe. split; [done|]. cbn. unfold view. by rewrite Hl.
      - intros (pe & H1 & H2). destruct (_ !! id) as [a|]; [|done]. injection H2 as <- <- <- <- Hl. by eexists _, a. }
    intros E. by rewrite !H, E.
  Qed.

  Lemma step_intr_gives prog (m m' : Mach) op args ret nb : minv T prog m -> steps_to T MO m m' ->
    at_terminator m (m_active m') (TmIntrinsic op args ret nb) ->
    match op with InRawEq | InAtomicStore | InAtomicLoad | InAtomicCompareExchange | InAtomicFetchAndOp _ => False | _ => True end ->
    exists rp rty m1 vals m2 v mid bs, at_place ret (turn m (m_active m')) rp rty m1 /\
      evals T MO m1 args vals m2 /\ intr_gives T (m_active m') m mid op vals v /\ keeps_all m mid /\
      encode T rty v = Ret bs /\ writes mid m' (p_thin (pl_ptr rp)) bs.
  Proof.
    intros Hi Hs Ha Hop. destruct (step_intr _ _ _ _ _ _ Hs Ha) as (rp & rty & m1 & vals & m2 & cs & v & m3 & cs' & bs & H1 & H2 & [S A0] & A & H3 & H4 & H5 & V5).
    exists rp, rty, m1, vals, m2, v, m3, bs. do 2 (split; [done|]). assert (intr_gives T (m_active m') m m3 op vals v /\ keeps_all m m3); [|tauto].
    clear H1 H2 H4 H5 V5 Ha Hs.
    assert (Ec : ctl m2 = ctl (turn m (m_active m'))) by exact S.
    assert (Ex : m_exposed m2 = m_exposed m) by (change (c_exposed (ctl m2) = m_exposed m); by rewrite Ec).
    assert (El : m_locks m2 = m_locks m) by (change (c_locks (ctl m2) = m_locks m); by rewrite Ec).
    assert (Et : length (m_threads m2) = length (m_threads m)).
    { rewrite <-(map_length tctl (m_threads m2)), <-(map_length tctl (m_threads m)). change (length (c_threads (ctl m2)) = length (c_threads (ctl m))). by rewrite Ec. }
    assert (En : length (cm_mem (m_mem m2)) = length (cm_mem (m_mem m))).
    { pose proof (f_equal length (proj1 A)) as E. unfold mview, mv in E. by rewrite !map_length in E. }
    destruct op as [| | | | | | | | | | | | |op|[| |]| | |]; cbn [eval_intrinsic] in H3; try done.
    - destruct vals as [|[[| b| | | |] ty] [|]]; try done. apply obind_ret in H3 as (u & _ & H3). destruct b; [|done]. injection H3 as <- <- _.
      split; [constructor|]. by apply alike_keeps_all.
    - apply obind_ret in H3 as (u & _ & H3). done.
    - apply obind_ret in H3 as (u & _ & H3). apply obind_ret in H3 as (s & _ & [= <- <- _]). split; [constructor|]. by apply (alike_keeps_all _ m2).
    - apply obind_ret in H3 as (u & _ & H3). apply obind_ret in H3 as (s & _ & [= <- <- _]). split; [constructor|]. by apply (alike_keeps_all _ m2).
    - destruct vals as [|[sv ty1] [|[av ty2] [|]]]; try done. destruct sv as [n| | | | |]; try done.
      unfold size_from_bytes in H3. destruct (Z.ltb_spec n 0) as [|Hn0]; [done|]. destruct av as [x| | | | |]; try done. unfold align_from_int in H3.
      destruct (Z.ltb_spec x 0) as [|Hx0]; [done|]. destruct (align_from_bytes _) as [al|] eqn:Eal; [|done]. apply align_from_bytes_some in Eal.
      destruct rty as [| |pt| | | | | |]; try done. case_bool_decide; [done|]. apply obind_ret in H3 as ([ad cs1] & _ & H3).
      apply obind_ret in H3 as ([p mem] & Hal & [= <- <- _]). pose proof (alloc_md _ _ _ _ _ _ _ Hal) as Hd.
      apply obind_ret in Hal as ([p1 mem1] & Hal & [= <- <-]). destruct (alloc_mv T MO BL Tok _ _ _ _ _ _ _ Hal) as (Hv & _ & pe & ->).
      set (m3 := set_mem _ _). assert (Eid : length (mv (cm_mem (m_mem m2))) = length (cm_mem (m_mem m))) by (unfold mv; by rewrite map_length).
      assert (Hlk : cm_mem (m_mem m3) = mem1) by done.
      assert (exists y, mem1 !! length (cm_mem (m_mem m)) = Some y /\ view y = mkAV ad (Z.to_N n) al AHeap true /\ al_data y = list_repeat Uninit (Z.to_N n)) as (y & Hy & Hvy & Hdy).
      { pose proof (f_equal (fun l => l !! length (cm_mem (m_mem m))) Hv) as E1. pose proof (f_equal (fun l => l !! length (cm_mem (m_mem m))) Hd) as E2. cbn beta in E1, E2. cbn in E2.
        rewrite lookup_app_r, <-Eid, Nat.sub_diag in E1 by (rewrite Eid; done). rewrite lookup_app_r in E2 by (unfold md; rewrite map_length, En; done).
        unfold md in E2. rewrite map_length, En, Nat.sub_diag in E2. fold (md mem1) in E2. rewrite Eid, mv_lookup in E1. rewrite md_lookup in E2. destruct (mem1 !! _) as [y|]; [|done].
        exists y. cbn in E1, E2. split; [done|]. split; congruence. }
      unfold view in Hvy. injection Hvy as Hy1 Hy2 Hy3 Hy4 Hy5. split.
      + assert (VInt (P := P) n = VInt (Z.of_N (Z.to_N n))) as -> by (by rewrite Z2N.id). rewrite <-(Z2N.id x Hx0), <-Eal. rewrite Eid. constructor.
        * by exists pe, y.
        * rewrite <-list_repeat_std. destruct (list_repeat Uninit (Z.to_N n)) as [|b0 l0] eqn:El0; [by left|]. right. exists (length (cm_mem (m_mem m))), 0%nat. split.
          { exists pe, y. split; [done|]. split; [done|]. split; [done|]. cbn. lia. }
          intros k Hk. unfold cell. rewrite Hlk, Hy, Hdy. done.
      + eapply alike_keeps; [exact A|apply alike_refl|]. apply grows_keeps. exists [list_repeat Uninit (Z.to_N n)]. exact Hd.
    - destruct vals as [|[pv ty1] [|[sv ty2] [|[av ty3] [|]]]]; try done. destruct pv as [| |[p [|]]| | |]; try done. destruct sv as [n| | | | |]; try done.
      unfold size_from_bytes in H3. destruct (Z.ltb_spec n 0) as [|Hn0]; [done|]. destruct av as [x| | | | |]; try done. unfold align_from_int in H3.
      destruct (Z.ltb_spec x 0) as [|Hx0]; [done|]. destruct (align_from_bytes _) as [al|] eqn:Eal; [|done]. apply align_from_bytes_some in Eal.
      apply obind_ret in H3 as (u & _ & H3). apply obind_ret in H3 as (mem & Hde & [= <- <- _]). pose proof (dealloc_md _ _ _ _ _ _ Hde) as Hd.
      apply obind_ret in Hde as (mem1 & Hde & [= <-]). destruct (dealloc_mv T MO BL _ _ _ _ _ _ Hde) as (id & pe & Hp & Hv & Hv'). split.
      + rewrite <-(Z2N.id n Hn0), <-(Z2N.id x Hx0), <-Eal. apply (ig_deallocate _ _ _ _ _ _ _ id).
        * apply (alike_object m m2); [apply A|]. unfold object_at. rewrite mv_lookup in Hv. destruct (_ !! id) as [a|]; [|done]. injection Hv as H8 H9 H10 H11 H12. by exists pe, a.
        * intros (a & Ha & Hl). change (mem1 !! id = Some a) in Ha. pose proof (f_equal (fun l => l !! id) Hv') as E1. cbn beta in E1.
          rewrite list_lookup_insert in E1 by (by eapply lookup_lt_Some). rewrite mv_lookup, Ha in E1. cbn in E1. injection E1. congruence.
      + eapply alike_keeps; [exact A|apply alike_refl|]. apply grows_keeps, grows_same. exact Hd.
    - destruct vals as [|[fv fty] [|[d dty] [|]]]; try done. apply obind_ret in H3 as (func & Hf & H3). destruct dty as [| |pt| | | | | |]; try done.
      destruct rty as [it| | | | | | | |]; try done. apply obind_ret in H3 as ([[n m4] cs1] & Hsp & [= <- <- _]).
      unfold spawn in Hsp. apply obind_ret in Hsp as ([[n1 m5] cs2] & Hn & [= <- <- _]). unfold new_thread in Hn.
      apply obind_ret in Hn as ([[f m6] cs3] & Hc & [= <- <- _]).
      pose proof (create_frame_own T MO BL Tok m2 func BottomOfStack CcC unit_ty [(d, TPtr pt)] cs) as Ho. rewrite Hc in Ho.
      destruct Ho as (S6 & [ls Hls] & _).
      destruct (fn_from_ptr_prog _ _ _ Hf) as [nm Hnm]. rewrite (same_prog _ _ S) in Hnm. cbn [m_prog turn] in Hnm. rewrite (mi_prog _ _ _ Hi) in Hnm.
      pose proof (prog_fn T prog nm func (mi_wf _ _ _ Hi) Hnm) as Hok. pose proof (fo_names _ _ _ Hok) as Hnd. apply NoDup_cons in Hnd as [_ Hnd].
      destruct (create_frame_data _ _ _ _ _ _ _ _ _ _ Hc Hnd) as (K6 & HF & Hconv & Hrt & HA).
      assert (Et6 : length (m_threads m6) = length (m_threads m)).
      { rewrite <-Et. rewrite <-(map_length tctl (m_threads m6)), <-(map_length tctl (m_threads m2)). change (length (c_threads (ctl m6)) = length (c_threads (ctl m2))). by rewrite S6. }
      split.
      + unfold fctl in Hls. injection Hls as Hls1 Hls2 Hls3 Hls4 Hls5. inversion HF as [|l ? ? ? Hlh Hnil E1 E2]; subst. inversion Hnil; subst.
        rewrite Et6. apply (ig_spawn _ _ _ _ _ _ _ _ (f_func f) f l); try done.
        * apply fn_designates. rewrite <-Hf. unfold fn_from_ptr. replace (m_fnptrs m2) with (m_fnptrs m) by (change (m_fnptrs m = c_fnptrs (ctl m2)); by rewrite Ec). by rewrite (same_prog _ _ S).
        * cbn [set_sync set_threads m_threads]. rewrite lookup_app_r by lia. rewrite Et6, Nat.sub_diag. done.
        * cbn [set_sync set_threads m_threads]. rewrite app_length. cbn. lia.
      + eapply alike_keeps; [exact A|apply alike_refl|]. exact K6.
    - destruct vals as [|[[x| | | | |] ty] [|]]; try done. apply obind_ret in H3 as (u & _ & H3). apply obind_ret in H3 as (m4 & Hj & [= <- <- _]).
      split; [constructor|]. apply alike_keeps_all. eapply alike_trans; [exact A|]. unfold Step.join in Hj. destruct (list_get _ _) as [t|]; [|done].
      destruct (t_state t); try (apply obind_ret in Hj as (t1 & _ & [= <-])); try (injection Hj as <-); done.
    - destruct vals as [|[[x| | | | |] ty] [|]]; try done. apply obind_ret in H3 as (u & _ & H3). apply obind_ret in H3 as (m4 & Hj & [= <- <- _]).
      split; [constructor|]. apply alike_keeps_all. eapply alike_trans; [exact A|]. unfold lock_acquire in Hj. destruct (list_get _ _) as [[|]|]; [| |done].
      + injection Hj as <-. done.
      + apply obind_ret in Hj as (t1 & _ & [= <-]). done.
    - destruct vals as [|[[x| | | | |] ty] [|]]; try done. apply obind_ret in H3 as (u & _ & H3). apply obind_ret in H3 as ([m4 cs4] & Hj & [= <- <- _]).
      split; [constructor|]. apply alike_keeps_all. eapply alike_trans; [exact A|]. unfold lock_release in Hj. destruct (list_get _ _) as [[|o]|]; [done| |done].
      destruct (negb _); [done|]. destruct (some_thread_in _ _).
      + apply obind_ret in Hj as ([w cs5] & _ & Hj). apply obind_ret in Hj as (t1 & _ & [= <- _]). done.
      + injection Hj as <- _. done.
    - destruct vals as [|? ?]; [|done]. destruct rty as [it| | | | | | | |]; try done. injection H3 as <- <- _. rewrite El. split; [|by apply (alike_keeps_all _ m2)].
      constructor. cbn [set_locks m_locks]. by rewrite ?El.
    - destruct vals as [|[[| |[p [|]]| | |] ty] [|]]; try done. destruct (negb _); [done|]. injection H3 as <- <- _. split; [|by apply (alike_keeps_all _ m2)].
      constructor. intros q. cbn [m_exposed set_exposed]. rewrite Ex. unfold ipc_expose. destruct (tp_prov p) as [pr|]; cbn [In].
      + split; [intros [->|?]; auto|intros [?|[= ->]]; auto].
      + split; [auto|intros [?|?]; done].
    - destruct vals as [|[[x| | | | |] ty] [|]]; try done. destruct rty as [| |pt| | | | | |]; try done. case_bool_decide; [done|].
      apply obind_ret in H3 as ([pr cs1] & _ & H3). apply obind_ret in H3 as (q & Hq & [= <- <- _]). split; [|by apply alike_keeps_all].
      unfold ipc_int2ptr in Hq. destruct pr as [pr|].
      + destruct (existsb _ _) eqn:Eb; [|done]. injection Hq as <-. constructor. intros q [= <-]. apply existsb_exists in Eb as (y & Hy & Hb).
        case_bool_decide; [|done]. subst y. by rewrite Ex in Hy.
      + injection Hq as <-. by constructor.
    - destruct vals as [|? ?]; [|done]. destruct rty as [| |pt| | | | | |]; try done. case_bool_decide; [done|]. apply obind_ret in H3 as (t & Ht & H3).
      unfold active_thread in Ht. apply unwrap_ret in Ht. destruct (same_thread _ _ _ _ S Ht) as (t0 & Ht0 & _ & _ & Hpl).
      destruct (head (t_payloads t)) as [p|] eqn:Eh; [|done]. injection H3 as <- <- _. split; [|by apply alike_keeps_all].
      destruct (t_payloads t) as [|p' ps] eqn:Ep; [done|]. injection Eh as ->. apply (ig_payload _ _ _ _ t0 p ps); [|done].
      rewrite (same_active _ _ S) in Ht0. exact Ht0.
  Qed.
End Data.
