(** Stack memory and named objects in all reachable states. *)
From Verif Require Export OwnNew UnwindProofs StepAt.

Lemma concat_nodup {A} (L : list (list A)) i j a b x : NoDup (concat L) -> L !! i = Some a -> L !! j = Some b ->
  x ∈ a -> x ∈ b -> i = j.
Proof.
  revert i j. induction L as [|c L IH]; intros i j Hd Hi Hj Ha Hb; [done|]. cbn [concat] in Hd. apply NoDup_app in Hd as (_ & Hd & Hd').
  assert (Hin : forall k d, L !! k = Some d -> x ∈ d -> x ∈ concat L).
  { intros k d Hk Hx. apply elem_of_list_In, in_concat. exists d. split; [|by apply elem_of_list_In].
    apply elem_of_list_In. by eapply elem_of_list_lookup_2. }
  destruct i as [|i], j as [|j]; cbn in *.
  - done.
  - injection Hi as ->. exfalso. by eapply Hd, Hin.
  - injection Hj as ->. exfalso. by eapply Hd, Hin.
  - f_equal. by eapply IH.
Qed.
Lemma concat_nodup_one {A} (L : list (list A)) i a : NoDup (concat L) -> L !! i = Some a -> NoDup a.
Proof.
  revert i. induction L as [|c L IH]; intros i Hd Hi; [done|]. cbn [concat] in Hd. apply NoDup_app in Hd as (Hd1 & _ & Hd2).
  destruct i; cbn in Hi; [by injection Hi as ->|eauto].
Qed.
Lemma nodup_map_inj {A B} (g : A -> B) l x y : NoDup (List.map g l) -> x ∈ l -> y ∈ l -> g x = g y -> x = y.
Proof.
  intros Hd Hx Hy E. apply elem_of_list_lookup in Hx as [i Hi], Hy as [j Hj].
  assert (i = j) as ->; [|congruence]. change (List.map g l) with (g <$> l) in Hd.
  eapply (proj1 (NoDup_alt _) Hd i j (g x)); rewrite list_lookup_fmap.
  - by rewrite Hi.
  - by rewrite Hj, E.
Qed.

Section Reach.
  Context {PE AE F : Type} `{EqDecision (nat * PE)}.
  Variable T : Target.
  Notation P := (nat * PE)%type.
  Notation M := (BMem PE AE).
  Notation Mach := (Machine P F M).
  Notation V := (list AV).
  Notation FL := (Function * list (LocalName * ThinPtr P))%type.
  Variable MO : MemOps P F M.
  Hypothesis BL : bm_like T MO.
  Hypothesis Tok : target_ok T.

  (** ** What never changes *)

  Definition statics (c : Ctl P) := (c_prog c, c_globals c, c_fnptrs c, c_vtptrs c).
  Lemma jump_statics (c : Ctl P) b c' : c_jump c b c' -> statics c' = statics c.
  Proof. by intros (? & ? & ? & _ & ->). Qed.
  Lemma step_statics (m m' : Mach) : steps_to T MO m m' -> statics (ctl m') = statics (ctl m).
  Proof.
    intros [cs H]. pose proof (step_ctl T MO cs m) as Hs. rewrite H in Hs. cbn [wp] in Hs.
    destruct Hs as [a t f r block s c1 t1 f1 r1 _ _ _ _ Hst _|a t f r block c' _ _ _ _ Ht].
    - transitivity (statics c1); [done|]. by destruct Hst.
    - transitivity (statics (c_with_active (ctl m) a)); [|done]. destruct Ht; subst; try done;
        try (by eapply jump_statics);
        match goal with H : c_jump _ _ _ |- _ => rewrite (jump_statics _ _ _ H) end; try done.
      by match goal with H : c_intrinsic _ _ _ |- _ => destruct H end.
  Qed.

  (** allocations other than locals and the heap stay *)
  Lemma kill_other f (v : V) l f' v' i x : kill (PE := PE) T f v l f' v' -> v !! i = Some x -> v_kind x <> AStack -> v' !! i = Some x.
  Proof.
    intros [|fn ls v0 l0 p id pe ty s a _ _ _ _ _ Hv] Hi Hk; [done|].
    destruct (decide (i = id)) as [->|Hne]; [|by rewrite list_lookup_insert_ne].
    rewrite Hv in Hi. injection Hi as <-. done.
  Qed.
  Lemma live_other f (v : V) l f' v' i x : live (PE := PE) T f v l f' v' -> v !! i = Some x -> v_kind x <> AStack -> v' !! i = Some x.
  Proof.
    intros Hl Hi Hk. destruct Hl as [fn ls ls1 v v1 l ty s a ad pe Hkl _ _ _ _].
    apply lookup_app_l_Some. by eapply kill_other.
  Qed.
  Lemma iter_other (R : FL -> V -> LocalName -> FL -> V -> Prop) f v ls f' v' i x :
    (forall f v l f' v', R f v l f' v' -> v !! i = Some x -> v' !! i = Some x) ->
    iterl R f v ls f' v' -> v !! i = Some x -> v' !! i = Some x.
  Proof. intros HR. induction 1; eauto. Qed.
  Lemma own_step_other prog (L : list (list FL)) v a x L' v' i y : own_step T prog L v a x L' v' ->
    v !! i = Some y -> v_kind y <> AStack -> v_kind y <> AHeap -> v' !! i = Some y.
  Proof.
    intros Hs Hi Hk Hh.
    destruct Hs as [x _|l f r f' v' Ha Hk'|l f r f' v' Ha Hk'|callee conv args ret nb ub func n st f' v' Ha Hn Hit
      |tm f r f' v' Htm Ha Hit|args ret nb func n f' v' Hn Hit|args ret nb ad s al Hfr|args ret nb id ad s al Hid].
    - done.
    - by eapply kill_other.
    - by eapply live_other.
    - eapply iter_other; [|done..]. intros. by eapply live_other.
    - eapply iter_other; [|done..]. intros. by eapply kill_other.
    - eapply iter_other; [|done..]. intros. by eapply live_other.
    - by apply lookup_app_l_Some.
    - destruct (decide (i = id)) as [->|Hne]; [|by rewrite list_lookup_insert_ne].
      rewrite Hid in Hi. injection Hi as <-. done.
  Qed.

  (** ** The invariant *)

  Lemma program_wf_dead prog : program_check_wf T prog = Ret tt ->
    forall n func b blk i l, map_get (pr_functions prog) n = Some func -> map_get (fn_blocks func) b = Some blk ->
      bb_statements blk !! i = Some (SStorageDead l) -> l <> fn_ret func /\ ~ In l (fn_args func).
  Proof.
    unfold program_check_wf. intros H. apply obind_ret in H as ([] & _ & H). apply obind_ret in H as ([] & Hf & _).
    apply for_each_ret in Hf. intros n func b blk i l Hn Hb Hi. apply map_get_in in Hn, Hb.
    rewrite Forall_forall in Hf. apply elem_of_list_In in Hn. specialize (Hf _ Hn). cbn in Hf. unfold function_check_wf in Hf.
    repeat (apply obind_ret in Hf as (? & _ & Hf)). apply for_each_ret in Hf. rewrite Forall_forall in Hf.
    apply elem_of_list_In in Hb. specialize (Hf _ Hb). cbn in Hf. apply obind_ret in Hf as ([] & Hf & _).
    apply for_each_ret in Hf. rewrite Forall_lookup in Hf. specialize (Hf _ _ Hi). cbn in Hf.
    apply obind_ret in Hf as (? & _ & Hf).
    destruct (bool_decide_reflect (l = fn_ret func)); [done|]. destruct (bool_decide_reflect (l ∈ fn_args func)); [done|].
    split; [done|]. by rewrite <-elem_of_list_In.
  Qed.

  Record minv (prog : Program) (m : Mach) : Prop := {
    mi_prog : m_prog m = prog;
    mi_wf : program_check_wf T prog = Ret tt;
    mi_own : own_inv T prog (lay (ctl m)) (mview m) }.

  Lemma frame_lay (m : Mach) i t k f : m_threads m !! i = Some t -> t_stack t !! k = Some f ->
    exists s, lay (ctl m) !! i = Some s /\ s !! k = Some (f_func f, f_locals f).
  Proof.
    intros Ht Hf. exists (List.map fl (tc_stack (tctl t))). split.
    - apply (lay_lookup (ctl m)). unfold ctl. cbn [c_threads]. change (List.map tctl (m_threads m)) with (tctl <$> m_threads m).
      by rewrite list_lookup_fmap, Ht.
    - unfold tctl. cbn [tc_stack]. rewrite List.map_map. rewrite (list_lookup_fmap (fun f => fl (fctl f))), Hf. done.
  Qed.
  Lemma lay_frame (m : Mach) i s k fn ls : lay (ctl m) !! i = Some s -> s !! k = Some (fn, ls) ->
    exists f, frame_of m i k f /\ f_func f = fn /\ f_locals f = ls.
  Proof.
    intros Hs Hk. unfold lay in Hs. rewrite (list_lookup_fmap (fun t => List.map fl (tc_stack t))) in Hs.
    unfold ctl in Hs. cbn [c_threads] in Hs. change (List.map tctl (m_threads m)) with (tctl <$> m_threads m) in Hs.
    rewrite list_lookup_fmap in Hs. destruct (m_threads m !! i) as [t|] eqn:Et; [|done]. injection Hs as <-.
    rewrite List.map_map, (list_lookup_fmap (fun f => fl (fctl f))) in Hk.
    destruct (t_stack t !! k) as [f|] eqn:Ef; [|done]. injection Hk as <- <-. exists f. split; [|done]. by exists t.
  Qed.

  Lemma minv_step prog (m m' : Mach) : minv prog m -> steps_to T MO m m' -> minv prog m'.
  Proof.
    intros [Hp Hwf Ho] Hs. apply step_statics in Hs as Hst. destruct Hs as [cs Hs].
    assert (Hp' : m_prog m' = prog) by (unfold statics, ctl in Hst; cbn in Hst; congruence).
    split; [done..|]. pose proof (step_own T MO BL Tok cs m) as H. rewrite Hs in H. destruct H as (x & Hn & Hx).
    rewrite Hp in Hx. eapply own_step_inv; [exact Ho| |exact Hx]. unfold keeps_args.
    destruct x as [s|]; [|done]. destruct s as [| | | | | |l]; try done. intros f r Hl.
    destruct Hn as (t & g & r' & b & Ht & Hst' & Hb & Hl').
    assert (Hg : t_stack t !! 0%nat = Some g) by (by rewrite Hst').
    destruct (frame_lay _ _ _ _ _ Ht Hg) as (s & Hs1 & Hs2). rewrite Hl in Hs1. injection Hs1 as <-. injection Hs2 as ->.
    destruct Ho as [_ Hpr _ _]. rewrite Forall_forall in Hpr.
    destruct (Hpr (f_func g, f_locals g)) as [n Hfn].
    { apply elem_of_list_In, in_concat. eexists. split; [apply elem_of_list_In; by eapply elem_of_list_lookup_2|]. by left. }
    cbn [fst] in *. by eapply program_wf_dead.
  Qed.
  Lemma reach_minv prog (m : Mach) : reachable T MO prog m -> minv prog m.
  Proof.
    apply reach_inv; [|eauto using minv_step]. intros m0 H. pose proof (start_state T MO BL Tok _ _ H) as [_ Hi _ _ _].
    destruct H as (cs & rest & H). apply new_ctl in H as (Hwf & func & ls & _ & E). split; [|done..].
    change (c_prog (ctl m0) = prog). by rewrite E.
  Qed.

  (** ** Locals *)

  Lemma in_concat_L {A} (L : list (list A)) i s k f : L !! i = Some s -> s !! k = Some f -> f ∈ concat L.
  Proof.
    intros Hi Hk. apply elem_of_list_In, in_concat. exists s.
    split; apply elem_of_list_In; by eapply elem_of_list_lookup_2.
  Qed.
  Lemma owned_concat (L : list (list FL)) : owned (concat L) = concat (List.map owned L).
  Proof.
    induction L as [|s L IH]; [done|]. cbn [concat List.map]. rewrite <-IH. unfold owned. by rewrite map_app, concat_app.
  Qed.


  Lemma local_lay (m : Mach) i k l p : local_of m i k l p ->
    exists s f, frame_of m i k f /\ lay (ctl m) !! i = Some s /\ s !! k = Some (f_func f, f_locals f) /\
      map_get (f_locals f) l = Some p /\ (l, p) ∈ f_locals f.
  Proof.
    intros (f & (t & Ht & Hf) & Hl). destruct (frame_lay _ _ _ _ _ Ht Hf) as (s & Hs & Hk).
    exists s, f. split; [by exists t|]. split; [done|]. split; [done|]. split; [done|].
    by apply map_get_in, elem_of_list_In in Hl.
  Qed.

  Lemma locals_slot prog (m : Mach) i k l p : minv prog m -> local_of m i k l p ->
    exists f, frame_of m i k f /\ slot T (mview m) (f_func f) (l, p).
  Proof.
    intros [_ _ [Ho _ _ _]] (s & f & Hf & Hs & Hk & _ & Hin)%local_lay. exists f. split; [done|].
    destruct Ho as [Ho _ _]. rewrite Forall_forall in Ho. destruct (Ho (f_func f, f_locals f)) as [Hl _].
    { by eapply in_concat_L. }
    rewrite Forall_forall in Hl. by apply (Hl (l, p)).
  Qed.
  Lemma slot_object (m : Mach) fn l p : slot T (mview m) fn (l, p) ->
    exists id ty s al, map_get (fn_locals fn) l = Some ty /\ size_of T ty = Ret s /\ align_of T ty = Ret al /\
      object_at m p id AStack s al /\ pid p = id.
  Proof.
    intros (id & pe & ty & s & al & Hp & Hty & Hs & Ha & Hv). cbn [snd fst] in *. exists id, ty, s, al.
    split; [done|]. split; [done|]. split; [done|]. unfold mview in Hv. rewrite mv_lookup in Hv.
    destruct (cm_mem (m_mem m) !! id) as [a|] eqn:Ea; [|done]. injection Hv as V1 V2 V3 V4 V5. split; [by exists pe, a|].
    unfold pid. by rewrite Hp.
  Qed.
  Lemma object_view (m : Mach) p id k s al : object_at m p id k s al ->
    mview m !! id = Some (mkAV (tp_addr p) s al k true) /\ pid p = id.
  Proof.
    intros (pe & a & Hp & Ha & Hl & <- & <- & <- & <-). unfold mview, pid. by rewrite mv_lookup, Ha, Hp, <-Hl.
  Qed.

  Lemma reach_local prog (m : Mach) i k l p : reachable T MO prog m -> local_of m i k l p ->
    exists f id ty s al, frame_of m i k f /\ map_get (fn_locals (f_func f)) l = Some ty /\
      size_of T ty = Ret s /\ align_of T ty = Ret al /\ object_at m p id AStack s al.
  Proof.
    intros Hr Hl. apply reach_minv in Hr. destruct (locals_slot _ _ _ _ _ _ Hr Hl) as (f & Hf & Hs).
    apply slot_object in Hs as (id & ty & s & al & ? & ? & ? & ? & _). by exists f, id, ty, s, al.
  Qed.
  Lemma reach_params prog (m : Mach) i k f l : reachable T MO prog m -> frame_of m i k f ->
    l = fn_ret (f_func f) \/ In l (fn_args (f_func f)) -> exists p, local_of m i k l p.
  Proof.
    intros Hr Hf Hl. apply reach_minv in Hr as [_ _ [_ _ Hfu _]]. pose proof Hf as (t & Ht & Hk).
    destruct (frame_lay _ _ _ _ _ Ht Hk) as (s & Hs & Hsk). rewrite Forall_forall in Hfu.
    destruct (Hfu (f_func f, f_locals f) ltac:(by eapply in_concat_L) l Hl) as [p Hp]. exists p, f. done.
  Qed.

  Lemma minv_apart prog (m : Mach) i j x y : minv prog m -> mview m !! i = Some x -> mview m !! j = Some y -> i <> j ->
    v_live x = true -> v_live y = true -> v_addr x <> v_addr y /\ ranges_apart (v_addr x) (v_size x) (v_addr y) (v_size y).
  Proof. intros [_ _ [_ _ _ [_ H]]]. apply H. Qed.

  Lemma local_unique prog (m : Mach) i k l p i' k' l' p' : minv prog m -> local_of m i k l p -> local_of m i' k' l' p' ->
    pid p = pid p' -> i = i' /\ k = k' /\ l = l'.
  Proof.
    intros [_ _ [Ho _ _ _]] (s & f & Hf & Hs & Hk & _ & Hin)%local_lay (s' & f' & Hf' & Hs' & Hk' & _ & Hin')%local_lay E.
    destruct Ho as [_ Hd _]. rewrite owned_concat in Hd.
    assert (Hi : forall l p, (l, p) ∈ f_locals f -> pid p ∈ fids (f_func f, f_locals f)).
    { intros l0 p0 H. unfold fids. cbn [snd]. apply elem_of_list_In, in_map_iff. exists (l0, p0). split; [done|].
      by apply elem_of_list_In. }
    assert (Hi' : pid p' ∈ fids (f_func f', f_locals f')).
    { unfold fids. cbn [snd]. apply elem_of_list_In, in_map_iff. exists (l', p'). split; [done|].
      by apply elem_of_list_In. }
    assert (Hos : forall s k f id, s !! k = Some f -> id ∈ fids (PE := PE) f -> id ∈ owned s).
    { intros s0 k0 f0 id H1 H2. unfold owned. eapply elem_of_list_In, in_concat. exists (fids f0).
      split; [|by apply elem_of_list_In]. apply in_map. apply elem_of_list_In. by eapply elem_of_list_lookup_2. }
    assert (i = i') as <-.
    { eapply (concat_nodup (List.map owned (lay (ctl m))) i i' (owned s) (owned s') (pid p)); [done| | | |].
      - rewrite (list_lookup_fmap owned), Hs. done.
      - rewrite (list_lookup_fmap owned), Hs'. done.
      - eapply Hos; [exact Hk|]. by eapply Hi.
      - rewrite E. by eapply Hos. }
    rewrite Hs in Hs'. injection Hs' as <-.
    assert (Hd1 : NoDup (owned s)).
    { eapply concat_nodup_one; [exact Hd|]. rewrite (list_lookup_fmap owned), Hs. done. }
    assert (k = k') as <-.
    { unfold owned in Hd1. eapply (concat_nodup (List.map fids s) k k' (fids (f_func f, f_locals f)) (fids (f_func f', f_locals f')) (pid p)); [done| | | |].
      - rewrite (list_lookup_fmap fids), Hk. done.
      - rewrite (list_lookup_fmap fids), Hk'. done.
      - by eapply Hi.
      - by rewrite E. }
    rewrite Hk in Hk'. injection Hk' as Ef El. split; [done|]. split; [done|].
    assert (Hd2 : NoDup (fids (f_func f, f_locals f))).
    { eapply concat_nodup_one; [exact Hd1|]. rewrite (list_lookup_fmap fids), Hk. done. }
    unfold fids in Hd2. cbn [snd] in Hd2. rewrite <-El in Hin'.
    eapply nodup_map_inj with (x := (l, p)) (y := (l', p')) in Hd2; [|done..]. congruence.
  Qed.

  Lemma reach_no_alias prog (m : Mach) i k l p i' k' l' p' : reachable T MO prog m ->
    local_of m i k l p -> local_of m i' k' l' p' -> (i, k, l) <> (i', k', l') ->
    exists id id' s s' al al', object_at m p id AStack s al /\ object_at m p' id' AStack s' al' /\ id <> id' /\
      tp_addr p <> tp_addr p' /\ ranges_apart (tp_addr p) s (tp_addr p') s'.
  Proof.
    intros Hr%reach_minv Hl Hl' Hne.
    destruct (locals_slot _ _ _ _ _ _ Hr Hl) as (f & Hf & Hs). apply slot_object in Hs as (id & ty & s & al & _ & _ & _ & Ho & Hid).
    destruct (locals_slot _ _ _ _ _ _ Hr Hl') as (f' & Hf' & Hs'). apply slot_object in Hs' as (id' & ty' & s' & al' & _ & _ & _ & Ho' & Hid').
    assert (Hdiff : id <> id').
    { intros ->. apply Hne. rewrite <-Hid' in Hid. destruct (local_unique _ _ _ _ _ _ _ _ _ _ Hr Hl Hl' Hid) as (-> & -> & ->). done. }
    exists id, id', s, s', al, al'. split; [done|]. split; [done|]. split; [done|].
    apply object_view in Ho as [Ho _], Ho' as [Ho' _]. by apply (minv_apart _ _ _ _ _ _ Hr Ho Ho').
  Qed.

  Lemma minv_all_owned prog (m : Mach) id : minv prog m -> live_stack m id ->
    exists i k f, frame_of m i k f /\ frame_owns f id.
  Proof.
    intros Hr (a & Ha & Hl & Hk). destruct Hr as [_ _ [Ho _ _ _]]. pose proof Ho as [Hlo Hd Hall].
    specialize (Hall id (view a)). unfold mview in Hall. rewrite mv_lookup, Ha in Hall. specialize (Hall eq_refl Hl Hk).
    unfold owned in Hall. apply in_concat in Hall as (x & Hx & Hid). apply in_map_iff in Hx as ([fn ls] & <- & Hf).
    apply in_concat in Hf as (s & Hs & Hf). apply elem_of_list_In, elem_of_list_lookup in Hs as [i Hi], Hf as [k Hk'].
    destruct (lay_frame _ _ _ _ _ _ Hi Hk') as (f & Hfr & Ef & El). exists i, k, f. split; [done|].
    unfold fids in Hid. cbn [snd] in Hid. apply in_map_iff in Hid as ([l p] & Hp & Hin). cbn [snd] in Hp.
    rewrite Forall_forall in Hlo. destruct (Hlo (fn, ls)) as [Hsl Hdl]; [by eapply in_concat_L|]. cbn [snd fst] in *.
    apply elem_of_list_In in Hin as Hin'. rewrite Forall_forall in Hsl. destruct (Hsl _ Hin') as (id' & pe & ty & s0 & al & Hpr & _).
    cbn [snd] in Hpr. unfold pid in Hp. rewrite Hpr in Hp. subst id'. exists l, p, pe. split; [|done]. rewrite El.
    by apply map_get_nodup.
  Qed.

  (** ** What a step allocates and frees *)

  Lemma next_is_stmt (m : Mach) a s : next_is m a (inl s) -> at_statement m a s.
  Proof. intros (t & f & r & b & Ht & Hs & Hb & Hx). exists f, b. split; [|done]. by exists t, r. Qed.
  Lemma next_is_term (m : Mach) a tm : next_is m a (inr tm) -> at_terminator m a tm.
  Proof. intros (t & f & r & b & Ht & Hs & Hb & Hx). exists f, b. split; [|done]. by exists t, r. Qed.
  Lemma next_is_at (m : Mach) a x tm : next_is m a x -> at_terminator m a tm -> x = inr tm.
  Proof.
    intros (t & f & r & b & Ht & Hs & Hb & Hx) (f' & b' & (t' & r' & Ht' & Hs' & Hb') & Hn & Htm).
    rewrite Ht in Ht'. injection Ht' as <-. rewrite Hs in Hs'. injection Hs' as <- <-. rewrite Hb in Hb'. injection Hb' as <-.
    destruct x as [s|tm']; [|destruct Hx; congruence]. rewrite Hn in Hx. apply lookup_lt_Some in Hx. lia.
  Qed.
  Lemma next_is_at_stmt (m : Mach) a x s : next_is m a x -> at_statement m a s -> x = inl s.
  Proof.
    intros (t & f & r & b & Ht & Hs & Hb & Hx) (f' & b' & (t' & r' & Ht' & Hs' & Hb') & Hn).
    rewrite Ht in Ht'. injection Ht' as <-. rewrite Hs in Hs'. injection Hs' as <- <-. rewrite Hb in Hb'. injection Hb' as <-.
    destruct x as [s'|tm']; [congruence|]. destruct Hx as [Hx _]. rewrite Hx in Hn. apply lookup_lt_Some in Hn. lia.
  Qed.
  Lemma steps_own prog (m m' : Mach) : minv prog m -> steps_to T MO m m' -> exists x, next_is m (m_active m') x /\
    own_step T prog (lay (ctl m)) (mview m) (m_active m') x (lay (ctl m')) (mview m').
  Proof.
    intros [Hp _ _] [cs Hs]. pose proof (step_own T MO BL Tok cs m) as H. rewrite Hs, Hp in H. exact H.
  Qed.

  Definition vlive (v : V) (id : nat) : Prop := exists x, v !! id = Some x /\ v_live x = true.
  Lemma live_alloc_view (m : Mach) id : live_alloc m id <-> vlive (mview m) id.
  Proof.
    unfold live_alloc, vlive, mview. rewrite mv_lookup. split.
    - intros (a & -> & Hl). by exists (view a).
    - destruct (cm_mem (m_mem m) !! id) as [a|]; [|by intros (? & ? & _)]. intros (x & [= <-] & Hl). by exists a.
  Qed.

  Lemma kill_alive f (v : V) l f' v' id : kill (PE := PE) T f v l f' v' ->
    vlive v' id <-> vlive v id /\ forall p, map_get (snd f) l = Some p -> pid p <> id.
  Proof.
    intros [fn ls v0 l0 Hn|fn ls v0 l0 p i pe ty s a Hg _ _ _ Hp Hv]; cbn [snd].
    - rewrite Hn. split; [by split|]. by intros [? _].
    - rewrite Hg. unfold vlive. assert (Hpid : pid p = i) by (unfold pid; by rewrite Hp).
      destruct (decide (i = id)) as [->|Hne].
      + rewrite list_lookup_insert by (by eapply lookup_lt_Some). split; [by intros (x & [= <-] & ?)|].
        intros [_ H1]. by specialize (H1 _ eq_refl).
      + rewrite list_lookup_insert_ne by done. split; [|by intros [? _]]. intros H1. split; [done|]. intros p' [= <-]. congruence.
  Qed.
  Lemma kills_alive f (v : V) f' v' ls id : NoDup (List.map fst (snd f)) -> iterl (kill (PE := PE) T) f v ls f' v' ->
    vlive v' id <-> vlive v id /\ forall l p, In l ls -> map_get (snd f) l = Some p -> pid p <> id.
  Proof.
    intros Hd Hi. induction Hi as [f v|f v l f1 v1 ls f2 v2 Hk Hi IH].
    - split; [|by intros [? _]]. intros. split; [done|]. by intros l p [].
    - apply kill_fst in Hk as Hk'. destruct Hk' as [_ Es].
      assert (Hd1 : NoDup (List.map fst (snd f1))).
      { rewrite Es. clear -Hd. destruct (map_get (snd f) l) as [p|] eqn:E; [|by rewrite map_remove_none].
        pose proof (map_remove_perm _ _ _ Hd E) as Hp. apply (Permutation_map fst) in Hp. rewrite Hp in Hd.
        cbn [List.map fst] in Hd. by apply NoDup_cons in Hd as [_ ?]. }
      rewrite (IH Hd1), (kill_alive _ _ _ _ _ id Hk), Es. split.
      + intros [[H1 H2] H3]. split; [done|]. intros l' p [<-|Hin] Hp; [by apply H2|].
        destruct (decide (l' = l)) as [->|Hne]; [by apply H2|]. apply (H3 l' p Hin).
        rewrite map_remove_get, bool_decide_eq_false_2 by done. done.
      + intros [H1 H2]. split; [split; [done|]|].
        * intros p Hp. eapply H2; [by left|done].
        * intros l' p Hin. rewrite map_remove_get. destruct (bool_decide _); [done|]. intros Hp. eapply H2; [by right|done].
  Qed.

  Lemma local_of_lay (m : Mach) i k l p : local_of m i k l p <->
    exists s fn ls, lay (ctl m) !! i = Some s /\ s !! k = Some (fn, ls) /\ map_get ls l = Some p.
  Proof.
    split.
    - intros (s & f & _ & Hs & Hk & Hl & _)%local_lay. eauto 6.
    - intros (s & fn & ls & Hs & Hk & Hl). destruct (lay_frame _ _ _ _ _ _ Hs Hk) as (f & Hf & _ & <-). by exists f.
  Qed.
  Lemma frame_owns_pid prog (m : Mach) i k f id : minv prog m -> frame_of m i k f ->
    frame_owns f id <-> exists l p, map_get (f_locals f) l = Some p /\ pid p = id.
  Proof.
    intros Hm Hf. unfold frame_owns. split.
    - intros (l & p & pe & Hl & Hp). exists l, p. unfold pid. by rewrite Hp.
    - intros (l & p & Hl & <-). assert (Hlo : local_of m i k l p) by (by exists f).
      destruct (locals_slot _ _ _ _ _ _ Hm Hlo) as (f' & _ & (id' & pe & _ & _ & _ & Hp & _)). cbn [snd] in Hp.
      exists l, p, pe. unfold pid. by rewrite Hp.
  Qed.
  Lemma lay_top_frame (m : Mach) a f r : lay (ctl m) !! a = Some (f :: r) ->
    exists g, frame_of m a 0 g /\ f = (f_func g, f_locals g).
  Proof.
    destruct f as [fn ls]. intros Hs. destruct (lay_frame _ _ _ 0 fn ls Hs) as (g & Hg & <- & <-); [done|]. by exists g.
  Qed.
  Lemma minv_names prog (m : Mach) i k f : minv prog m -> frame_of m i k f -> NoDup (List.map fst (f_locals f)).
  Proof.
    intros [_ _ [[Ho _ _] _ _ _]] (t & Ht & Hk). destruct (frame_lay _ _ _ _ _ Ht Hk) as (s & Hs & Hsk).
    rewrite Forall_forall in Ho. by destruct (Ho (f_func f, f_locals f) ltac:(by eapply in_concat_L)) as [_ Hd].
  Qed.

  Lemma frame_kills prog (m : Mach) i k g v f' v' ls id : minv prog m -> frame_of m i k g ->
    iterl (kill (PE := PE) T) (f_func g, f_locals g) v ls f' v' ->
    vlive v' id <-> vlive v id /\ forall l p, In l ls -> map_get (f_locals g) l = Some p -> pid p <> id.
  Proof. intros Hm Hg Hi. apply (kills_alive (f_func g, f_locals g) v f' v' ls id); [|done]. by eapply minv_names. Qed.

  Lemma step_pop prog (m m' : Mach) tm : minv prog m -> steps_to T MO m m' -> at_terminator m (m_active m') tm ->
    tm = TmReturn \/ tm = TmResumeUnwind ->
    exists f, frame_of m (m_active m') 0 f /\
      (forall i k l p, local_of m' i k l p <-> local_of m i (if decide (i = m_active m') then S k else k) l p) /\
      (forall id, live_alloc m' id <-> live_alloc m id /\ ~ frame_owns f id).
  Proof.
    intros Hm Hs Hat Htm. destruct (steps_own _ _ _ Hm Hs) as (x & Hx & Ho). set (a := m_active m') in *.
    rewrite (next_is_at _ _ _ _ Hx Hat) in Ho. remember (inr tm) as y eqn:Ey.
    remember (lay (ctl m')) as L' eqn:EL. remember (mview m') as v' eqn:Ev.
    destruct Ho as [x' Hq| | | | tm' f r f' v' Htm' Ha Hi| | | ]; try (injection Ey as <-); try done;
      try (by destruct Htm).
    { subst x'. by destruct Htm as [->| ->]. }
    destruct (lay_top_frame _ _ _ _ Ha) as (g & Hg & ->). exists g. split; [done|]. split.
    - intros i k l p. rewrite !local_of_lay, <-EL. apply lookup_lt_Some in Ha as Hlt. destruct (decide (i = a)) as [->|Hne].
      + rewrite list_lookup_insert by done. rewrite Ha. split.
        * intros (s & fn & ls & [= <-] & Hk & Hl). eexists _, fn, ls. split; [done|]. done.
        * intros (s & fn & ls & [= <-] & Hk & Hl). eexists _, fn, ls. split; [done|]. done.
      + by rewrite list_lookup_insert_ne.
    - intros id. rewrite !live_alloc_view, <-Ev.
      rewrite (frame_kills _ _ _ _ _ _ _ _ _ id Hm Hg Hi). cbn [snd]. rewrite (frame_owns_pid _ _ _ _ _ _ Hm Hg).
      split; intros [H1 H2]; (split; [done|]).
      + intros (l & p & Hl & Hp). eapply H2; [|exact Hl|exact Hp]. by apply map_get_in, (in_map fst) in Hl.
      + intros l p _ Hl Hp. apply H2. by exists l, p.
  Qed.

  (** steps that neither allocate nor free *)
  Lemma step_no_alloc prog (m m' : Mach) x : minv prog m -> steps_to T MO m m' -> next_is m (m_active m') x -> no_alloc x ->
    lay (ctl m') = lay (ctl m) /\ mview m' = mview m.
  Proof.
    intros Hm Hs Hx Hq. destruct (steps_own _ _ _ Hm Hs) as (y & Hy & Ho).
    assert (y = x) as ->.
    { destruct x as [s|tm]; [by eapply next_is_at_stmt, next_is_stmt|by eapply next_is_at, next_is_term]. }
    destruct Ho; try done. by match goal with H : _ \/ _ |- _ => destruct H; subst end.
  Qed.

  Lemma live_kept n f (v : V) ls f' v' id : iterl (live (PE := PE) T) f v ls f' v' ->
    (forall l p, map_get (snd f) l = Some p -> (n <= pid p)%nat) -> (n <= length v)%nat -> (id < n)%nat ->
    vlive v id <-> vlive v' id.
  Proof.
    induction 1 as [f v|f v l f1 v1 ls f2 v2 Hl Hi IH]; intros Hf Hn Hid; [done|].
    destruct Hl as [fn ls0 ls1 v v1 l ty s al ad pe Hk Hty Hs Ha Hvac]. rewrite <-IH.
    - pose proof (kill_alive _ _ _ _ _ id Hk) as Hal. cbn [snd] in *. split.
      + intros H. destruct (proj2 Hal) as (x & Hx & Hlx).
        { split; [done|]. intros p Hp. apply Hf in Hp. lia. }
        exists x. split; [by apply lookup_app_l_Some|done].
      + intros (x & [Hx|[Hge _]]%lookup_app_Some & Hlx).
        * apply Hal. by exists x.
        * exfalso. clear -Hk Hge Hn Hid. assert (length v1 = length v); [|lia]. inversion Hk; [done|]. by rewrite insert_length.
    - intros l' p. cbn [snd]. rewrite map_insert_get. destruct (bool_decide _).
      + intros [= <-]. cbn. assert (length v1 = length v); [|lia]. inversion Hk; [done|]. by rewrite insert_length.
      + intros Hp. apply kill_fst in Hk as [_ Es]. cbn [snd] in *. rewrite Es, map_remove_get in Hp.
        destruct (bool_decide _); [done|]. by eapply Hf.
    - rewrite app_length. assert (length v1 = length v); [|lia]. inversion Hk; [done|]. by rewrite insert_length.
    - done.
  Qed.
  Lemma new_kept func (v : V) f' v' ls id : iterl (live (PE := PE) T) (func, []) v ls f' v' -> vlive v id -> vlive v' id.
  Proof.
    intros Hi Hv. apply (live_kept (length v) _ _ _ _ _ id Hi); [by intros l p|lia| |done].
    destruct Hv as (x & Hx & _). by eapply lookup_lt_Some.
  Qed.

  Lemma live_split f (v : V) l f' v' : live (PE := PE) T f v l f' v' -> exists f1 v1 y, kill T f v l f1 v1 /\ v' = v1 ++ [y].
  Proof. intros [fn ls0 ls1 v0 v1 l0 ty s al ad pe Hk _ _ _ _]. eauto. Qed.

  Lemma step_frees prog (m m' : Mach) id : minv prog m -> steps_to T MO m m' ->
    live_alloc m id -> ~ live_alloc m' id ->
    (exists l p pe, (at_statement m (m_active m') (SStorageDead l) \/ at_statement m (m_active m') (SStorageLive l)) /\
       local_of m (m_active m') 0 l p /\ tp_prov p = Some (id, pe)) \/
    ((at_terminator m (m_active m') TmReturn \/ at_terminator m (m_active m') TmResumeUnwind) /\
       exists f, frame_of m (m_active m') 0 f /\ frame_owns f id) \/
    (at_intrinsic m (m_active m') InDeallocate /\ exists a, cm_mem (m_mem m) !! id = Some a /\ al_kind a = AHeap).
  Proof.
    intros Hm Hs Hl Hd. destruct (steps_own _ _ _ Hm Hs) as (x & Hx & Ho). set (a := m_active m') in *.
    rewrite live_alloc_view in Hl, Hd.
    assert (Hloc : forall l g, frame_of m a 0 g -> (exists p, map_get (f_locals g) l = Some p /\ pid p = id) ->
      exists p pe, local_of m a 0 l p /\ tp_prov p = Some (id, pe)).
    { intros l g Hg (p & Hp & Hid). assert (Hlo : local_of m a 0 l p) by (by exists g).
      destruct (locals_slot _ _ _ _ _ _ Hm Hlo) as (f' & _ & (id' & pe & _ & _ & _ & Hp' & _)). cbn [snd] in Hp'.
      unfold pid in Hid. rewrite Hp' in Hid. subst id'. by exists p, pe. }
    assert (Hkill : forall l g f' v', frame_of m a 0 g -> kill T (f_func g, f_locals g) (mview m) l f' v' -> ~ vlive v' id ->
      exists p, map_get (f_locals g) l = Some p /\ pid p = id).
    { intros l g f' v' Hg Hk Hd'. rewrite (kill_alive _ _ _ _ _ id Hk) in Hd'. cbn [snd] in Hd'.
      destruct (map_get (f_locals g) l) as [p|] eqn:Ep.
      - exists p. split; [done|]. destruct (decide (pid p = id)); [done|]. exfalso. apply Hd'. split; [done|]. by intros p' [= <-].
      - exfalso. apply Hd'. split; [done|]. done. }
    remember (lay (ctl m')) as L' eqn:EL. remember (mview m') as v' eqn:Ev.
    destruct Ho as [x _|l f r f' v' Ha Hk|l f r f' v' Ha Hk|callee conv args ret nb ub func n st f' v' Ha Hn Hit
      |tm f r f' v' Htm Ha Hit|args ret nb func n f' v' Hn Hit|args ret nb ad s al Hfr|args ret nb i ad s al Hid].
    - done.
    - left. destruct (lay_top_frame _ _ _ _ Ha) as (g & Hg & ->). destruct (Hloc l g Hg) as (p & pe & H1 & H2).
      { by eapply Hkill. }
      exists l, p, pe. split; [left; by apply next_is_stmt|done].
    - left. destruct (lay_top_frame _ _ _ _ Ha) as (g & Hg & ->). destruct (Hloc l g Hg) as (p & pe & H1 & H2).
      { apply live_split in Hk as (f1 & v1 & y & Hk & E). eapply Hkill; [done|exact Hk|]. intros (z & Hz & Hlz). apply Hd. exists z.
        rewrite E. split; [by apply lookup_app_l_Some|done]. }
      exists l, p, pe. split; [right; by apply next_is_stmt|done].
    - exfalso. apply Hd. by eapply new_kept.
    - right. left. destruct (lay_top_frame _ _ _ _ Ha) as (g & Hg & ->). split.
      { apply next_is_term in Hx. by destruct Htm as [<-|<-]; [left|right]. }
      exists g. split; [done|]. rewrite (frame_kills _ _ _ _ _ _ _ _ _ id Hm Hg Hit) in Hd. cbn [snd] in Hd.
      apply (frame_owns_pid _ _ _ _ _ _ Hm Hg).
      destruct (List.find (fun kv => bool_decide (pid (snd kv) = id)) (f_locals g)) as [[l p]|] eqn:Ef.
      + apply find_some in Ef as [Hin Hp]. apply bool_decide_eq_true in Hp. exists l, p. split; [|done].
        apply map_get_nodup; [by eapply minv_names|done].
      + exfalso. apply Hd. split; [done|]. intros l p _ Hp Hid. apply map_get_in in Hp.
        eapply find_none in Ef; [|exact Hp]. by apply bool_decide_eq_false in Ef.
    - exfalso. apply Hd. by eapply new_kept.
    - exfalso. apply Hd. destruct Hl as (y & Hy & Hly). exists y. split; [by apply lookup_app_l_Some|done].
    - right. right. split; [by eexists _, _, _; apply next_is_term|].
      destruct (decide (i = id)) as [->|Hne].
      + unfold mview in Hid. rewrite mv_lookup in Hid. destruct (cm_mem (m_mem m) !! id) as [al'|]; [|done].
        exists al'. split; [done|]. by injection Hid.
      + exfalso. apply Hd. destruct Hl as (y & Hy & Hly). exists y. by rewrite list_lookup_insert_ne.
  Qed.

  Lemma minv_owned prog (m : Mach) s i k f id : minv prog m -> lay (ctl m) !! i = Some s -> s !! k = Some f ->
    In id (fids f) -> vlive (mview m) id.
  Proof.
    intros [_ _ [[Ho _ _] _ _ _]] Hs Hk Hin. rewrite Forall_forall in Ho.
    destruct (Ho f ltac:(by eapply in_concat_L)) as [Hsl _]. unfold fids in Hin. apply in_map_iff in Hin as (kv & <- & Hin).
    apply elem_of_list_In in Hin. rewrite Forall_forall in Hsl. apply Hsl, slot_id in Hin as (x & Hx & Hl & _). by exists x.
  Qed.

  Lemma live_kinds N f (v : V) ls f' v' : iterl (live (PE := PE) T) f v ls f' v' ->
    (forall j z, (N <= j)%nat -> v !! j = Some z -> v_kind z = AStack) ->
    forall j z, (N <= j)%nat -> v' !! j = Some z -> v_kind z = AStack.
  Proof.
    induction 1 as [f v|f v l f1 v1 ls f2 v2 Hl Hi IH]; intros Hv; [done|]. apply IH. intros j z Hj Hz.
    destruct Hl as [fn ls0 ls1 v v1 l ty s al ad pe Hk _ _ _ _].
    apply lookup_app_Some in Hz as [Hz|[_ Hz]].
    - inversion Hk as [|? ? ? ? p id pe' ty' s' a' H1 H2 H3 H4 H5 H6]; subst; [eauto|]. destruct (decide (id = j)) as [->|].
      + rewrite list_lookup_insert in Hz by (by eapply lookup_lt_Some). by injection Hz as <-.
      + rewrite list_lookup_insert_ne in Hz by done. eauto.
    - destruct (j - length v1)%nat as [|[|]]; cbn in Hz; try done. by injection Hz as <-.
  Qed.

  Lemma step_allocs prog (m m' : Mach) id : minv prog m -> steps_to T MO m m' ->
    ~ live_alloc m id -> live_alloc m' id -> (length (cm_mem (m_mem m)) <= id)%nat /\
    ((at_intrinsic m (m_active m') InAllocate /\ exists a, cm_mem (m_mem m') !! id = Some a /\ al_kind a = AHeap) \/
     (exists l p pe, at_statement m (m_active m') (SStorageLive l) /\ local_of m' (m_active m') 0 l p /\ tp_prov p = Some (id, pe)) \/
     ((exists callee conv args ret nb ub, at_terminator m (m_active m') (TmCall callee conv args ret nb ub)) /\
        exists f, frame_of m' (m_active m') 0 f /\ frame_owns f id) \/
     (at_intrinsic m (m_active m') InSpawn /\ exists f, frame_of m' (length (m_threads m)) 0 f /\ frame_owns f id)).
  Proof.
    intros Hm Hs Hd Hl. destruct (steps_own _ _ _ Hm Hs) as (x & Hx & Ho). pose proof (minv_step _ _ _ Hm Hs) as Hm'.
    set (a := m_active m') in *.
    rewrite live_alloc_view in Hl, Hd.
    assert (Elen : length (mview m) = length (cm_mem (m_mem m))) by (unfold mview, mv; by rewrite map_length).
    assert (Hnew : forall func ls f', iterl (live (PE := PE) T) (func, []) (mview m) ls f' (mview m') ->
      (length (cm_mem (m_mem m)) <= id)%nat /\ exists i k f, frame_of m' i k f /\ frame_owns f id).
    { intros func ls f' Hi.
      assert (Hge : (length (mview m) <= id)%nat).
      { destruct (decide (id < length (mview m))%nat) as [Hlt|]; [|lia]. exfalso. apply Hd.
        apply (live_kept (length (mview m)) _ _ _ _ _ id Hi); [by intros l p|lia|done|done]. }
      rewrite <-Elen. split; [done|]. destruct Hl as (y & Hy & Hly).
      assert (Hk : v_kind y = AStack).
      { eapply (live_kinds (length (mview m))); [exact Hi| |exact Hge|exact Hy]. intros j z Hj Hz. apply lookup_lt_Some in Hz. lia. }
      eapply minv_all_owned; [done|]. unfold mview in Hy. rewrite mv_lookup in Hy.
      destruct (cm_mem (m_mem m') !! id) as [al|] eqn:Ea; [|done]. injection Hy as <-. by exists al. }
    assert (Hold : forall i k l p pe, tp_prov p = Some (id, pe) -> ~ local_of m i k l p).
    { intros i k l p pe Hp Hlo. apply Hd. destruct (locals_slot _ _ _ _ _ _ Hm Hlo) as (f & _ & Hsl).
      apply slot_id in Hsl as (y & Hy & Hly & _). cbn [snd] in Hy. unfold pid in Hy. rewrite Hp in Hy. by exists y. }
    remember (lay (ctl m')) as L' eqn:EL. remember (mview m') as v' eqn:Ev.
    destruct Ho as [x _|l f r f' v' Ha Hk|l f r f' v' Ha Hk|callee conv args ret nb ub func n st f' v' Ha Hn Hit
      |tm f r f' v' Htm Ha Hit|args ret nb func n f' v' Hn Hit|args ret nb ad s al Hfr|args ret nb i ad s al Hid].
    - done.
    - exfalso. apply Hd. by apply (kill_alive _ _ _ _ _ id Hk) in Hl as [? _].
    - destruct Hk as [fn ls ls1 v v1 l ty s al ad pe Hk Hty Hsz Hal Hvac].
      assert (length v1 = length v) as Elv by (inversion Hk; [done|by rewrite insert_length]).
      destruct Hl as (y & [Hy|[Hge Hy]]%lookup_app_Some & Hly).
      + exfalso. apply Hd. apply (kill_alive _ _ _ _ _ id Hk). by exists y.
      + destruct (id - length v1)%nat as [|[|]] eqn:Eid; try done. assert (id = length v1) as -> by lia.
        split; [lia|]. right. left. exists l, (mkThin ad (Some (length v1, pe))), pe. split; [by apply next_is_stmt|]. split; [|done].
        apply local_of_lay. rewrite <-EL. eexists _, fn, _. rewrite list_lookup_insert by (by eapply lookup_lt_Some).
        split; [done|]. split; [done|]. by rewrite map_insert_get, bool_decide_eq_true_2.
    - destruct (Hnew _ _ _ Hit) as (Hge & i & k & g & Hg & Hown). split; [done|]. right. right. left.
      split; [do 6 eexists; by apply next_is_term|]. exists g. split; [|done].
      destruct Hown as (l & p & pe & Hlp & Hp). assert (Hlo : local_of m' i k l p) by (by exists g).
      apply local_of_lay in Hlo. rewrite <-EL in Hlo. destruct Hlo as (s & fn & ls & Hls & Hk & Hgl).
      destruct (decide (i = a)) as [->|Hne].
      + destruct k as [|k]; [done|]. exfalso. rewrite list_lookup_insert in Hls by (by eapply lookup_lt_Some).
        injection Hls as <-. apply (Hold a k l p pe Hp). apply local_of_lay. by exists st, fn, ls.
      + exfalso. rewrite list_lookup_insert_ne in Hls by done. apply (Hold i k l p pe Hp). apply local_of_lay. by exists s, fn, ls.
    - exfalso. apply Hd. destruct (lay_top_frame _ _ _ _ Ha) as (g & Hg & ->).
      by apply (frame_kills _ _ _ _ _ _ _ _ _ id Hm Hg Hit) in Hl as [? _].
    - destruct (Hnew _ _ _ Hit) as (Hge & i & k & g & Hg & Hown). split; [done|]. right. right. right.
      split; [do 3 eexists; by apply next_is_term|]. exists g. split; [|done].
      destruct Hown as (l & p & pe & Hlp & Hp). assert (Hlo : local_of m' i k l p) by (by exists g).
      apply local_of_lay in Hlo. rewrite <-EL in Hlo. destruct Hlo as (s & fn & ls & Hls & Hk & Hgl).
      assert (Hlen : length (lay (ctl m)) = length (m_threads m)) by (unfold lay, ctl; cbn [c_threads]; by rewrite !map_length).
      apply lookup_app_Some in Hls as [Hls|[Hge' Hls]].
      + exfalso. apply (Hold i k l p pe Hp). apply local_of_lay. by exists s, fn, ls.
      + destruct (i - length (lay (ctl m)))%nat as [|[|]] eqn:Ei; try done. injection Hls as <-. destruct k as [|k]; [|done].
        by replace (length (m_threads m)) with i by lia.
    - destruct Hl as (y & [Hy|[Hge Hy]]%lookup_app_Some & Hly); [exfalso; apply Hd; by exists y|].
      split; [lia|]. left. split; [do 3 eexists; by apply next_is_term|].
      assert (Hv : mview m' !! id = Some y) by (rewrite <-Ev; rewrite lookup_app_r by lia; exact Hy).
      destruct (id - length (mview m))%nat as [|[|]]; try done. injection Hy as <-.
      unfold mview in Hv. rewrite mv_lookup in Hv. destruct (cm_mem (m_mem m') !! id) as [al'|]; [|done].
      exists al'. split; [done|]. by injection Hv.
    - exfalso. apply Hd. destruct Hl as (y & Hy & Hly). destruct (decide (i = id)) as [->|Hne].
      + rewrite list_lookup_insert in Hy by (by eapply lookup_lt_Some). by injection Hy as <-.
      + rewrite list_lookup_insert_ne in Hy by done. by exists y.
  Qed.

  (** ** Named objects *)

  Notation gsa := (fun g : Global => (N.of_nat (length (g_bytes g)), g_align g)).
  Notation zsa A := (fun _ : A => (0%N, align_one)).
  Definition all_named (prog : Program) (m : Mach) : Prop :=
    named [] (mview m) AGlobal gsa (pr_globals prog) (m_globals m) /\
    named [] (mview m) AFunction (zsa Function) (pr_functions prog) (m_fnptrs m) /\
    named [] (mview m) AVTable (zsa VTable) (pr_vtables prog) (m_vtptrs m).

  Lemma named_step {A} v0 v v' k (sa : A -> Size * Align) l (ptrs : list (N * ThinPtr P)) :
    (forall i x, v !! i = Some x -> v_kind x = k -> v' !! i = Some x) -> named v0 v k sa l ptrs -> named v0 v' k sa l ptrs.
  Proof.
    intros Hv (N1 & N2 & N3). split; [done|]. split; [|done]. intros n x Hx.
    destruct (N2 _ _ Hx) as (ad & id & pe & H1 & H2 & H3). exists ad, id, pe. split; [done|]. split; [done|]. by apply Hv.
  Qed.

  Lemma reach_named prog (m : Mach) : names_unique prog -> reachable T MO prog m -> all_named prog m.
  Proof.
    intros (U1 & U2 & U3) Hr. induction Hr as [m Hst|m m' Hr IH Hs].
    - destruct (start_state T MO BL Tok _ _ Hst) as [_ _ H1 H2 H3]. split; [by apply H1|]. split; [by apply H2|by apply H3].
    - apply reach_minv in Hr as Hm. destruct (steps_own _ _ _ Hm Hs) as (x & _ & Ho). apply step_statics in Hs.
      unfold statics, ctl in Hs. cbn in Hs. injection Hs as _ E1 E2 E3. destruct IH as (I1 & I2 & I3). unfold all_named. rewrite E1, E2, E3.
      split; [|split]; (eapply named_step; [|eassumption]); intros i y Hy Hk; (eapply own_step_other; [exact Ho|exact Hy|congruence..]).
  Qed.

  Lemma named_none {A} v0 v k (sa : A -> Size * Align) l (ptrs : list (N * ThinPtr P)) n :
    named v0 v k sa l ptrs -> map_get ptrs n = None <-> map_get l n = None.
  Proof.
    intros (N1 & N2 & _). split; [|apply N1]. destruct (map_get l n) as [x|] eqn:E; [|done].
    destruct (N2 _ _ E) as (ad & id & pe & -> & _). done.
  Qed.

  Lemma named_object {A} (m : Mach) k (sa : A -> Size * Align) l (ptrs : list (N * ThinPtr P)) n x :
    named [] (mview m) k sa l ptrs -> map_get l n = Some x ->
    exists p id, map_get ptrs n = Some p /\ object_at m p id k (fst (sa x)) (snd (sa x)).
  Proof.
    intros (_ & N2 & _) Hx. destruct (N2 _ _ Hx) as (ad & id & pe & Hp & _ & Hv). eexists _, id. split; [done|].
    unfold mview in Hv. rewrite mv_lookup in Hv. destruct (cm_mem (m_mem m) !! id) as [a|] eqn:Ea; [|done].
    injection Hv as V1 V2 V3 V4 V5. by exists pe, a.
  Qed.

  Lemma reach_objects prog (m : Mach) o k s al : names_unique prog -> reachable T MO prog m ->
    obj_desc prog o = Some (k, s, al) ->
    exists p id, obj_ptr m o = Some p /\ object_at m p id k s al /\ 0 < tp_addr p /\
      tp_addr p mod Z.of_N (align_bytes al) = 0 /\ tp_addr p + Z.of_N s < 2 ^ (8 * Z.of_N (PTR_SIZE T)).
  Proof.
    intros Hu Hr Hd. pose proof (reach_named _ _ Hu Hr) as (N1 & N2 & N3).
    assert (Hx : exists p id, obj_ptr m o = Some p /\ object_at m p id k s al).
    { destruct o as [n|n|n]; cbn in *.
      - destruct (map_get (pr_globals prog) n) as [g|] eqn:E; [|done]. injection Hd as <- <- <-.
        eapply named_object in N1 as (p & id & H1 & H2); [|exact E]. by exists p, id.
      - destruct (map_get (pr_functions prog) n) as [g|] eqn:E; [|done]. injection Hd as <- <- <-.
        eapply named_object in N2 as (p & id & H1 & H2); [|exact E]. by exists p, id.
      - destruct (map_get (pr_vtables prog) n) as [g|] eqn:E; [|done]. injection Hd as <- <- <-.
        eapply named_object in N3 as (p & id & H1 & H2); [|exact E]. by exists p, id. }
    destruct Hx as (p & id & Hp & Ho). exists p, id. split; [done|]. split; [done|].
    apply object_view in Ho as [Hv _]. apply reach_minv in Hr as [_ _ [_ _ _ [Hf _]]]. apply Hf in Hv. cbn in Hv. tauto.
  Qed.
  Lemma reach_no_objects prog (m : Mach) o : names_unique prog -> reachable T MO prog m ->
    obj_desc prog o = None -> obj_ptr m o = None.
  Proof.
    intros Hu Hr Hd. pose proof (reach_named _ _ Hu Hr) as (N1 & N2 & N3). destruct o as [n|n|n]; cbn in *.
    - eapply (named_none _ _ _ _ _ _ n N1). by destruct (map_get (pr_globals prog) n).
    - eapply (named_none _ _ _ _ _ _ n N2). by destruct (map_get (pr_functions prog) n).
    - eapply (named_none _ _ _ _ _ _ n N3). by destruct (map_get (pr_vtables prog) n).
  Qed.
  Lemma reach_distinct prog (m : Mach) o o' p p' : names_unique prog -> reachable T MO prog m ->
    obj_ptr m o = Some p -> obj_ptr m o' = Some p' -> o <> o' ->
    tp_addr p <> tp_addr p' /\ option_map fst (tp_prov p) <> option_map fst (tp_prov p').
  Proof.
    intros Hu Hr Hp Hp' Hne. pose proof (reach_named _ _ Hu Hr) as (N1 & N2 & N3). apply reach_minv in Hr as Hm.
    assert (Hdesc : forall o p, obj_ptr m o = Some p -> exists k s al, obj_desc prog o = Some (k, s, al)).
    { intros o0 p0 H0. destruct (obj_desc prog o0) as [[[k s] al]|] eqn:E; [by exists k, s, al|].
      rewrite (reach_no_objects _ _ _ Hu Hr E) in H0. done. }
    destruct (Hdesc _ _ Hp) as (k & s & al & Hd), (Hdesc _ _ Hp') as (k' & s' & al' & Hd').
    destruct (reach_objects _ _ _ _ _ _ Hu Hr Hd) as (q & id & Hq & Ho & _). rewrite Hp in Hq. injection Hq as <-.
    destruct (reach_objects _ _ _ _ _ _ Hu Hr Hd') as (q & id' & Hq & Ho' & _). rewrite Hp' in Hq. injection Hq as <-.
    apply object_view in Ho as Hv, Ho' as Hv'. destruct Hv as [Hv Hid], Hv' as [Hv' Hid'].
    assert (Hii : id <> id').
    { intros E. destruct o as [n|n|n], o' as [n'|n'|n'];
        try (unfold obj_desc, option_map in Hd, Hd'; repeat (case_match; [|done]); rewrite E, Hv' in Hv; congruence).
      all: assert (Hnn : n <> n') by congruence; cbn in Hp, Hp'; rewrite <-Hid, <-Hid' in E; revert E.
      - by apply (proj2 (proj2 N1) n n').
      - by apply (proj2 (proj2 N2) n n').
      - by apply (proj2 (proj2 N3) n n'). }
    split; [by apply (minv_apart _ _ _ _ _ _ Hm Hv Hv')|].
    destruct Ho as (pe & ? & -> & _), Ho' as (pe' & ? & -> & _). cbn. congruence.
  Qed.
  Lemma start_contents prog (m : Mach) n g : names_unique prog -> starts T MO prog m ->
    map_get (pr_globals prog) n = Some g -> exists p id pe a, obj_ptr m (OGlobal n) = Some p /\
      tp_prov p = Some (id, pe) /\ cm_mem (m_mem m) !! id = Some a /\ length (al_data a) = length (g_bytes g) /\
      forall i b, al_data a !! i = Some b -> global_byte T (m_globals m) (g_bytes g) (g_relocations g) i b.
  Proof.
    intros (U1 & _) Hs Hg. destruct (start_state T MO BL Tok _ _ Hs) as [_ _ H1 _ _]. destruct (H1 U1) as [(_ & N2 & _) Hf].
    destruct (Hf _ _ Hg) as (p & a & Hp & Ha & Hl & Hb). destruct (N2 _ _ Hg) as (ad & id & pe & Hp' & _ & _).
    rewrite Hp in Hp'. injection Hp' as ->. by exists (mkThin ad (Some (id, pe))), id, pe, a.
  Qed.
  Lemma step_objects (m m' : Mach) o : steps_to T MO m m' -> obj_ptr m' o = obj_ptr m o.
  Proof.
    intros Hs%step_statics. unfold statics, ctl in Hs. cbn in Hs. injection Hs as _ E1 E2 E3.
    destruct o; cbn; congruence.
  Qed.

  (** ** Lookups *)

  Lemma reach_keys prog (m : Mach) : reachable T MO prog m ->
    NoDup (List.map fst (m_fnptrs m)) /\ NoDup (List.map fst (m_vtptrs m)).
  Proof.
    induction 1 as [m Hst|m m' Hr IH Hs]; [by destruct (start_state T MO BL Tok _ _ Hst)|].
    apply step_statics in Hs. unfold statics, ctl in Hs. cbn in Hs. by injection Hs as _ _ -> ->.
  Qed.

  Lemma find_ptr {A} v0 v k (sa : A -> Size * Align) l (ptrs : list (N * ThinPtr P)) p :
    NoDup (List.map fst ptrs) -> named v0 v k sa l ptrs ->
    match List.find (fun kv => bool_decide (snd kv = p)) ptrs with
    | Some kv => map_get ptrs (fst kv) = Some p /\ exists x, map_get l (fst kv) = Some x /\
        forall n, map_get ptrs n = Some p -> n = fst kv
    | None => forall n, map_get ptrs n <> Some p
    end.
  Proof.
    intros Hd (N1 & N2 & N3). destruct (List.find _ ptrs) as [[n q]|] eqn:E.
    - apply find_some in E as [Hin Hq]. cbn [fst snd] in *. apply bool_decide_eq_true in Hq. subst q.
      assert (Hn : map_get ptrs n = Some p) by (by apply map_get_nodup). split; [done|].
      destruct (map_get l n) as [x|] eqn:Ex; [|by rewrite N1 in Hn]. exists x. split; [done|].
      intros n' Hn'. destruct (decide (n' = n)) as [|Hne]; [done|]. by destruct (N3 _ _ _ _ Hn' Hn Hne).
    - intros n Hn. apply map_get_in in Hn. eapply find_none in E; [|exact Hn]. cbn in E. by apply bool_decide_eq_false in E.
  Qed.

  Lemma fn_lookup prog (m : Mach) v : names_unique prog -> reachable T MO prog m ->
    (forall f, fn_from_ptr m v = Ret f <-> exists n p, v = VPtr (mkPtr p None) /\ obj_ptr m (OFn n) = Some p /\
       map_get (pr_functions prog) n = Some f) /\
    ((forall n p, v = VPtr (mkPtr p None) -> obj_ptr m (OFn n) <> Some p) -> is_ub (fn_from_ptr m v)).
  Proof.
    intros Hu Hr. pose proof (reach_named _ _ Hu Hr) as (_ & N2 & _). destruct (reach_keys _ _ Hr) as [Hd _].
    apply reach_minv in Hr as [Hp _ _]. unfold fn_from_ptr. rewrite Hp.
    destruct v as [i|b|[p [mt|]]|vs|vs|d]; try (split; [split; [done|by intros (? & ? & ? & _)]|intros _; by eexists]).
    pose proof (find_ptr _ _ _ _ _ _ p Hd N2) as Hf. destruct (List.find _ _) as [[n q]|]; cbn [fst] in *.
    - destruct Hf as (Hn & x & Hx & Hun). rewrite Hx. cbn [unwrap]. split.
      + intros f. split.
        * intros [= <-]. by exists n, p.
        * intros (n' & p' & [= <-] & Hn' & Hf). cbn in Hn'. rewrite (Hun _ Hn') in Hf. congruence.
      + intros H. exfalso. by apply (H n p).
    - split; [|intros _; by eexists]. intros f. split; [done|]. intros (n & p' & [= <-] & Hn & _). by destruct (Hf n).
  Qed.
  Lemma vt_lookup prog (m : Mach) p : names_unique prog -> reachable T MO prog m ->
    (forall vt, vtable_from_ptr m p = Ret vt <-> exists n, obj_ptr m (OVTable n) = Some p /\ map_get (pr_vtables prog) n = Some vt) /\
    (forall vt, vtable_lookup m p = Ret vt <-> exists n, obj_ptr m (OVTable n) = Some p /\ map_get (pr_vtables prog) n = Some vt) /\
    ((forall n, obj_ptr m (OVTable n) <> Some p) -> is_ub (vtable_from_ptr m p)).
  Proof.
    intros Hu Hr. pose proof (reach_named _ _ Hu Hr) as (_ & _ & N3). destruct (reach_keys _ _ Hr) as [_ Hd].
    apply reach_minv in Hr as [Hp _ _]. unfold vtable_from_ptr, vtable_lookup. rewrite Hp.
    pose proof (find_ptr _ _ _ _ _ _ p Hd N3) as Hf. destruct (List.find _ _) as [[n q]|]; cbn [fst unwrap obind] in *.
    - destruct Hf as (Hn & x & Hx & Hun). rewrite Hx. cbn [unwrap].
      assert (Hi : forall vt, Ret x = Ret vt <-> exists n, obj_ptr m (OVTable n) = Some p /\ map_get (pr_vtables prog) n = Some vt).
      { intros vt. split.
        - intros [= <-]. by exists n.
        - intros (n' & Hn' & Hf). cbn in Hn'. rewrite (Hun _ Hn') in Hf. congruence. }
      split; [done|]. split; [done|]. intros H. exfalso. by apply (H n).
    - assert (Hi : forall (o : Outcome VTable) vt, o <> Ret vt -> o = Ret vt <-> exists n, obj_ptr m (OVTable n) = Some p /\ map_get (pr_vtables prog) n = Some vt).
      { intros o vt Ho. split; [done|]. intros (n & Hn & _). by destruct (Hf n). }
      split; [intros vt; by apply Hi|]. split; [intros vt; by apply Hi|]. intros _. by eexists.
  Qed.
  Lemma method_lookup prog (m : Mach) method p meta pt vt n fn q : names_unique prog -> reachable T MO prog m ->
    obj_ptr m (OVTable n) = Some p -> map_get (pr_vtables prog) n = Some vt ->
    map_get (vt_methods vt) method = Some fn -> obj_ptr m (OFn fn) = Some q ->
    eval_un_op T MO m (UVTableMethodLookup method) (VPtr (mkPtr p meta), TPtr pt) = Ret (VPtr (mkPtr q None), TPtr PFnPtr).
  Proof.
    intros Hu Hr Hn Hvt Hm Hq. cbn [eval_un_op p_thin].
    assert (E : vtable_lookup m p = Ret vt) by (apply (proj1 (proj2 (vt_lookup _ _ p Hu Hr))); by exists n).
    rewrite E. cbn [obind]. rewrite Hm. cbn [unwrap obind]. cbn [obj_ptr] in Hq. by rewrite Hq.
  Qed.


  Lemma fn_from_ptr_const (m m' : Mach) v : m_fnptrs m' = m_fnptrs m -> m_prog m' = m_prog m -> fn_from_ptr m' v = fn_from_ptr m v.
  Proof. intros E1 E2. unfold fn_from_ptr. by rewrite E1, E2. Qed.

  Lemma step_call prog (m m' : Mach) callee conv args ret nb ub : names_unique prog -> reachable T MO prog m ->
    steps_to T MO m m' -> at_terminator m (m_active m') (TmCall callee conv args ret nb ub) ->
    exists pl rty ma m1 n p ty mb f,
      eval_place T MO ret (begin_step m (m_active m')) = Ret (pl, rty, ma) /\
      prepare_for_inplace_passing T MO ma pl rty = Ret m1 /\
      eval_value T MO callee m1 = Ret (VPtr (mkPtr p None), ty, mb) /\ obj_ptr m (OFn n) = Some p /\
      frame_of m' (m_active m') 0 f /\ map_get (pr_functions prog) n = Some (f_func f).
  Proof.
    intros Hu Hr Hs Hat. pose proof (step_at _ _ _ _ Hs) as (cs & cs' & [(tm & Htm & He)|(s & ? & ? & Hst & _)]).
    2:{ exfalso. by eapply at_term_stmt. }
    rewrite (at_terminator_fun _ _ _ _ Htm Hat) in He. clear Htm. cbn [eval_terminator] in He. set (a := m_active m') in *.
    apply obind_ret in He as ([[pl rty] ma] & Hpl & He). apply obind_ret in He as (m1 & Hm1 & He).
    apply obind_ret in He as ([[v ty] mb] & Hv & He). apply obind_ret in He as (func & Hfn & He).
    pose proof (eval_place_same T MO ret (begin_step m a)) as S1. rewrite Hpl in S1.
    assert (S2 : same ma m1).
    { unfold prepare_for_inplace_passing in Hm1. apply obind_ret in Hm1 as (sz & _ & Hm1). apply obind_ret in Hm1 as (al & _ & Hm1).
      pose proof (deinit_same MO ma (p_thin (pl_ptr pl)) sz al) as S2. by rewrite Hm1 in S2. }
    pose proof (eval_value_same T MO callee m1) as S3. rewrite Hv in S3. cbn [wp snd] in S1, S3.
    assert (S : ctl mb = c_with_active (ctl m) a).
    { unfold same in *. by rewrite S3, S2, S1, begin_ctl. }
    assert (fn_from_ptr m v = Ret func) as Hfn'.
    { rewrite <-Hfn. symmetry. apply fn_from_ptr_const.
      - change (c_fnptrs (ctl mb) = m_fnptrs m). by rewrite S.
      - change (c_prog (ctl mb) = m_prog m). by rewrite S. }
    apply (proj1 (fn_lookup _ _ v Hu Hr)) in Hfn' as (n & p & -> & Hp & Hf).
    apply obind_ret in He as ([vargs mc] & _ & He). unfold eval_call in He.
    apply obind_ret in He as ([[f md] cs1] & Hcf & He). apply obind_ret in He as (t & Ht & [= <- <-]).
    pose proof (create_frame_ctl T MO mc func (BackToCaller nb ub (p_thin (pl_ptr pl))) conv rty vargs cs) as Hc.
    rewrite Hcf in Hc. destruct Hc as [_ [ls Hls]].
    exists pl, rty, ma, m1, n, p, ty, mb, f. do 4 (split; [done|]). split.
    - exists (with_stack t (f :: t_stack t)). split; [|done]. unfold active_thread in Ht. apply unwrap_ret in Ht.
      unfold set_active_thread. cbn [m_threads set_threads m_active]. apply list_lookup_insert. by eapply lookup_lt_Some.
    - assert (f_func f = func) as -> by (change (fc_func (fctl f) = func); by rewrite Hls). done.
  Qed.
End Reach.
