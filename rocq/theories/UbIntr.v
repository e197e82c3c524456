(** The basic memory model: a step is undefined behaviour exactly if it is not allowed. Intrinsics, and all terminators. *)
From Verif Require Export UbTerm.
From Verif Require Export DataSpec ExprSpec UbSpec.
Local Open Scope Z_scope.
From Coq Require Import ZifyBool ZifyN ZifyNat.

Lemma align_of_int_some x al : align_from_int x = Some al <-> x = Z.of_N (align_bytes al).
Proof.
  unfold align_from_int. destruct (x <? 0) eqn:E; [split; [done|]; lia|]. rewrite align_from_bytes_some. lia.
Qed.
Lemma list_get_nat' {A} (l : list A) i x : list_get l i = Some x <-> exists k, i = Z.of_nat k /\ l !! k = Some x.
Proof.
  unfold list_get. destruct (i <? 0) eqn:E; [split; [done|]; intros (k & ? & _); lia|]. split; [intros Hx; exists (Z.to_nat i); split; [lia|done]|].
  intros (k & -> & Hk). by rewrite Nat2Z.id.
Qed.
Lemma size_bytes_some z s : size_from_bytes z = Some s <-> z = Z.of_N s.
Proof. unfold size_from_bytes. destruct (z <? 0) eqn:E; split; intros Hx; [done|lia|injection Hx; lia|f_equal; lia]. Qed.
Lemma bytes_data_init_iff {P} (bs : list (AByte P)) : (exists d, bytes_data bs = Some d) <-> ~ In Uninit bs.
Proof.
  induction bs as [|b bs IH]; cbn; [split; [by intros _ []|intros _; by eexists]|]. destruct b as [|d o]; cbn.
  - split; [by intros [? ?]|intros Hn; exfalso; apply Hn; by left].
  - split; [intros [x Hx] [?|Hin]; [done|]|intros Hn].
    + destruct (bytes_data bs) as [ds|] eqn:E; [|done]. by apply IH; [eexists|].
    + destruct (proj2 IH ltac:(by intros ?; apply Hn; right)) as [ds ->]. by eexists.
Qed.

Section Intr.
  Context `{EqDecision (nat * unit)}.
  Variable T : Target.
  Hypothesis Tok : target_ok T.
  Notation P := (nat * unit)%type.
  Notation M := (BMem unit unit).
  Notation Mach := (Machine P unit M).
  Notation MO := (BasicOps T).
  Implicit Types m : Mach.
  Let BL := basic_like T.
  Notation wfT ty := (ty_check_wf T any_trait ty = Ret tt).
  Notation aligned p al := (tp_addr p mod Z.of_N (align_bytes al) = 0).

  Lemma j_values args : forall m m1, unique_vtables m -> still m m1 ->
    judge False (map_st (fun m e => eval_value T MO e m) args m1) (exists vals, all_mean T m args vals)
      (fun r => all_mean T m args (fst r) /\ (forall vals, all_mean T m args vals -> vals = fst r) /\ still m (snd r)).
  Proof.
    induction args as [|e args IH]; intros m m1 Hu Hst; cbn [map_st]; [split; [constructor|split; [by inversion 1|done]]|].
    eapply judge_seq; [by apply (j_value T Tok m m1 e)|intros [vals Ha]; inversion Ha; subst; by eexists _, _|].
    intros [[v ty] m2] _ (Hst2 & Hv & Hvu). cbn [fst snd] in *.
    eapply judge_seq; [by apply (IH m m2)|intros [vals Ha]; inversion Ha; subst; by eexists|].
    intros [vals m3] _ (Hvs & Hvsu & Hq). cbn [fst snd] in *. cbn. split; [by constructor|]. split; [|done].
    intros vals' Ha. inversion Ha as [|e' [v' ty'] r vs Hv' Hr]; subst. destruct (Hvu _ _ Hv') as [E1 E2]. cbn in *. subst. f_equal. by apply Hvsu.
  Qed.

  Lemma lives_app (f f' : Function * list (LocalName * ThinPtr P)) v l v' : iterl (live (PE := unit) T) f v l f' v' -> NoDup l ->
    (forall x, In x l -> map_get (snd f) x = None) -> exists new, v' = v ++ new.
  Proof.
    induction 1 as [f v|f v x f1 v1 ls f2 v2 Hl Hi IH]; intros Hnd Hno; [exists []; by rewrite app_nil_r|].
    apply NoDup_cons in Hnd as [Hx Hnd]. rewrite elem_of_list_In in Hx.
    assert (exists y, v1 = v ++ [y] /\ forall k, k <> x -> map_get (snd f1) k = map_get (snd f) k) as (y & -> & Hk).
    { destruct Hl as [fn ls0 ls1 v0 v1 l0 ty s a ad pe Hk _ _ _ _]. inversion Hk as [? ? ? Hg|? ? ? ? q id pe' ty' s' a' Hg]; subst.
      - eexists. split; [done|]. intros k Hne. cbn [snd]. rewrite map_insert_get. by rewrite bool_decide_eq_false_2 by congruence.
      - exfalso. specialize (Hno l0 ltac:(by left)). cbn in Hno. congruence. }
    destruct IH as [new ->]; [done|intros k Hin; rewrite Hk by (intros ->; done); apply Hno; by right|]. exists (y :: new). by rewrite <-app_assoc.
  Qed.

  (** memory at a known pointer does not depend on allocations made since *)
  Definition known m (p : ThinPtr P) : Prop := forall id pe, tp_prov p = Some (id, pe) -> (id < length (cm_mem (m_mem m)))%nat.
  Lemma span_new m m1 p n new : mview m1 = mview m ++ new -> known m p -> span m1 p n <-> span m p n.
  Proof.
    intros Hv Hk. assert (forall id, (id < length (cm_mem (m_mem m)))%nat -> mview m1 !! id = mview m !! id) as Hs.
    { intros id Hlt. rewrite Hv. apply lookup_app_l. unfold mview, mv. by rewrite fmap_length. }
    unfold span, points_to. split; (intros [Hz|(id & i & a & (pe & a' & Hp & Ha & Hl & Had) & Ha' & Hn & Hb)]; [by left|right]);
      specialize (Hs _ (Hk _ _ Hp)); unfold mview in Hs; rewrite !mv_lookup, Ha in Hs; cbn in Hs; rewrite Ha in Ha'; injection Ha' as <-.
    - destruct (cm_mem (m_mem m) !! id) as [b|] eqn:Eb; [|done]. cbn in Hs. injection Hs as S1 S2 S3 S4 S5.
      exists id, i, b. split; [exists pe, b; repeat split; congruence|]. split; [done|]. unfold al_size in *. split; [done|lia].
    - destruct (cm_mem (m_mem m1) !! id) as [b|] eqn:Eb; [|done]. cbn in Hs. injection Hs as S1 S2 S3 S4 S5.
      exists id, i, b. split; [exists pe, b; repeat split; congruence|]. split; [done|]. unfold al_size in *. split; [done|lia].
  Qed.

  Lemma j_print (vals : list (Value P * Ty)) : forall s,
    judge False (fold_m (fun s arg => match fst arg with VInt i => Ret (s ++ print_int i)%string | VBool b => Ret (s ++ print_bool b)%string
        | _ => throw_ub "unsupported value for printing" end) vals s)
      (forall v ty, In (v, ty) vals -> (exists i, v = VInt i) \/ exists b, v = VBool b)
      (fun _ => forall v ty, In (v, ty) vals -> (exists i, v = VInt i) \/ exists b, v = VBool b).
  Proof.
    induction vals as [|[v ty] vals IH]; intros s; cbn [fold_m]; [by intros v ty []|]. cbn [fst].
    apply (judge_bind False _ _ _ (fun _ => (exists i, v = VInt i) \/ exists b, v = VBool b)).
    - destruct v; cbn; eauto; intros Hc; destruct (Hc _ ty ltac:(by left)) as [[? ?]|[? ?]]; done.
    - intros s' _ Hv. eapply judge_weak; [apply IH|done|intros Hc v' ty' Hin; eapply Hc; by right|].
      intros ? _ Hr v' ty' [[= <- <-]|Hin]; [done|by eapply Hr].
  Qed.
  Lemma j_raw m m1 (ptr : Pointer P) mu pi s al : still m m1 -> pi_layout pi = LSized s al ->
    judge False (load_raw_data MO m1 ptr (PRef mu pi)) (aligned (p_thin ptr) al /\ initialised m (p_thin ptr) s)
      (fun r => aligned (p_thin ptr) al /\ initialised m (p_thin ptr) s /\ still m (snd r)).
  Proof.
    intros Hst Hl. unfold load_raw_data. rewrite Hl.
    pose proof (cm_load_still T MO BL m1 (p_thin ptr) s al NonAtomic) as Hq. pose proof (cm_load_reads T MO BL m1 (p_thin ptr) s al NonAtomic) as Hrd.
    eapply judge_seq; [apply (j_cm_load T m1)| |].
    { intros [Ha (bs & Hlen & Hs & _)]. split; [|done]. apply stores_span in Hs. apply (span_view m); [apply Hst|]. by rewrite Hlen, N_nat_Z in Hs. }
    intros [bs mem] El [Hsp Ha]. rewrite El in Hq. specialize (Hrd _ _ El) as [Hlen Hs]. apply (alike_stores _ _ _ _ (proj2 Hst)) in Hs.
    destruct (bytes_data bs) as [d|] eqn:Ed.
    - cbn. split; [done|]. split; [|by eapply still_trans]. exists bs. split; [done|]. split; [done|]. apply bytes_data_init_iff. by eexists.
    - cbn. intros [_ (bs' & Hlen' & Hs' & Hin)]. rewrite (stores_unique _ _ _ _ Hs' Hs) in Hin by lia. apply bytes_data_init_iff in Hin as [d Hd]. congruence.
  Qed.
  Lemma j_unit ty msg : judge False (ensure_unit ty msg) (ty = unit_ty) (fun _ => ty = unit_ty).
  Proof. unfold ensure_unit. by destruct (bool_decide_reflect (ty = unit_ty)). Qed.

  Lemma same_locks m m1 : same m m1 -> m_locks m1 = m_locks m.
  Proof. unfold same. intros E. by injection E. Qed.
  Lemma same_nthreads m m1 : same m m1 -> length (m_threads m1) = length (m_threads m).
  Proof. unfold same. intros E. injection E as _ _ E. apply (f_equal length) in E. by rewrite !map_length in E. Qed.
  Lemma same_payloads m m1 t t1 : same m m1 -> m_threads m !! m_active m = Some t -> m_threads m1 !! m_active m1 = Some t1 -> t_payloads t1 = t_payloads t.
  Proof.
    intros Hsm Ht Ht1. rewrite (same_active _ _ Hsm) in Ht1. unfold same in Hsm. injection Hsm as _ _ E. apply (f_equal (lookup (m_active m))) in E.
    change (List.map tctl (m_threads m1)) with (tctl <$> m_threads m1) in E. change (List.map tctl (m_threads m)) with (tctl <$> m_threads m) in E.
    rewrite !list_lookup_fmap, Ht, Ht1 in E. cbn in E. by injection E.
  Qed.

  Lemma readable_space m p ty v : readable T m p ty v -> has_space T m p ty.
  Proof. intros [(bs & Hb & Hsa & _) _]. eexists. split; [exact Hb|]. apply stores_span in Hsa. by rewrite nat_N_Z. Qed.

  (** memory has the same allocations, maybe also new ones; or nothing is returned *)
  Definition returns m rty (m' : Mach) : Prop := (exists new, mview m' = mview m ++ new) \/ rty = unit_ty.
  Lemma returns_view m rty m' : mview m' = mview m -> returns m rty m'.
  Proof. intros E. left. exists []. by rewrite app_nil_r. Qed.

  Ltac bad := let Hc := fresh in cbn; intros Hc; decompose [and ex] Hc; congruence.

  Ltac gone Hb := cbn; let E0 := fresh in let Ha0 := fresh in intros (? & ? & ? & E0 & Ha0 & ? & ? & ? & ? & ?); injection E0 as <- <-; rewrite Hb in Ha0; injection Ha0 as <-; congruence.

  Lemma j_spawn prog m m1 (func : Function) (d : Value P) dty cs : minv T prog m -> fn_ok T prog func -> still m m1 ->
    judge False (spawn T MO m1 func d dty cs) (accepts func CcC unit_ty [dty])
      (fun r => accepts func CcC unit_ty [dty] /\ exists new, mview (snd (fst r)) = mview m ++ new).
  Proof.
    intros Hi Hok [Hsm [Hview _]]. unfold spawn, new_thread.
    pose proof (create_frame_own T MO BL Tok m1 func BottomOfStack CcC unit_ty [(d, dty)] cs) as Hown.
    apply (judge_bind False _ _ _ (fun r => accepts func CcC unit_ty [dty] /\ exists new, mview (snd (fst r)) = mview m ++ new));
      [|intros [[id m2] cs1] _ [H1 [new H2]]; cbn; split; [done|by exists new]].
    eapply judge_seq; [eapply (j_create_frame T Tok prog m1 _ func BottomOfStack CcC unit_ty [(d, dty)])|done|].
    - done.
    - rewrite Hview. apply (oi_owns _ _ _ _ (mi_own _ _ _ Hi)).
    - intros [[f m2] cs1] Ef Hacc. rewrite Ef in Hown. destruct Hown as (_ & _ & Hl). cbn. split; [done|].
      destruct (lives_app _ _ _ _ _ Hl (fo_names _ _ _ Hok)) as [new Hnew]; [done|]. exists new. by rewrite <-Hview.
  Qed.
  Lemma j_atomic_size {A} (E : Prop) ty s al (k : Outcome A) (C : Prop) (Q : A -> Prop) msg : size_of T ty = Ret s -> align_from_bytes s = Some al ->
    (C -> exists p : ThinPtr P, atomic_at T p ty) -> ((s <= MAX_ATOMIC_SIZE T)%N -> judge E k C Q) ->
    judge E (if (MAX_ATOMIC_SIZE T <? s)%N then throw_ub msg else k) C Q.
  Proof.
    intros Hs Hal Hc Hk. destruct (MAX_ATOMIC_SIZE T <? s)%N eqn:El; [|apply Hk; lia]. cbn. intros HC. destruct (Hc HC) as (p & s' & al' & Hs' & _ & Hle & _).
    rewrite Hs in Hs'. injection Hs' as <-. lia.
  Qed.
  Lemma atomic_aligned (p : ThinPtr P) ty s al : size_of T ty = Ret s -> align_from_bytes s = Some al -> atomic_at T p ty -> aligned p al.
  Proof. intros Hs Hal (s' & al' & Hs' & _ & _ & Ha). rewrite Hs in Hs'. injection Hs' as <-. apply align_from_bytes_some in Hal as ->. done. Qed.
  Lemma atomic_intro (p : ThinPtr P) ty s al : size_of T ty = Ret s -> align_from_bytes s = Some al -> (s <= MAX_ATOMIC_SIZE T)%N -> aligned p al -> atomic_at T p ty.
  Proof. intros Hs Hal Hle Ha. apply align_from_bytes_some in Hal. exists s, al. split; [done|]. split; [done|]. split; [done|]. by rewrite Hal in Ha. Qed.

  Lemma j_intrinsic prog m m1 op vals rty cs : minv T prog m -> unique_fns m -> (forall n func, map_get (pr_functions prog) n = Some func -> fn_ok T prog func) ->
    still m m1 -> wfT rty -> sized T rty -> Forall (fun va => wfT (snd va) /\ sized T (snd va)) vals ->
    (forall o, op = InAtomicFetchAndOp o -> is_atomic_binop o = true) ->
    judge (ends op) (eval_intrinsic T MO m1 op vals rty cs) (intr_allowed T m op vals rty)
      (fun r => intr_allowed T m op vals rty /\ returns m rty (snd (fst r))).
  Proof.
    intros Hi Huf Hfns Hst Hw Hsz Hvals Hop. pose proof Hst as [Hsm [Hview _]].
    destruct op as [| | | | | | | | | | | | |bop|lk| | |]; cbn [eval_intrinsic intr_allowed].
    - by left.
    - destruct vals as [|[v vt] [|xx ll]]; [bad| |destruct v; bad]. destruct v as [|b| | | |]; try bad.
      eapply judge_seq; [apply j_unit|by intros [? _]|]. intros [] _ ->. destruct b; [|bad]. cbn. split; [split; [done|by eexists]|by right].
    - unfold cm_leak_check. cbn. unfold bm_leak_check. induction (cm_mem (m_mem m1)) as [|a l IH]; cbn [for_each]; [by right|].
      destruct (al_live a); [|exact IH]. destruct (al_kind a); try exact IH. by right.
    - eapply judge_seq; [apply j_unit|by intros [? _]|]. intros [] _ ->. unfold eval_print. eapply judge_seq; [apply j_print|by intros [_ ?]|].
      intros s _ Hp. split; [by split|by right].
    - eapply judge_seq; [apply j_unit|by intros [? _]|]. intros [] _ ->. unfold eval_print. eapply judge_seq; [apply j_print|by intros [_ ?]|].
      intros s _ Hp. split; [by split|by right].
    - destruct vals as [|[sv st] [|[av at_] [|xx ll]]]; try bad. destruct sv as [x| | | | |]; try bad.
      destruct (size_from_bytes x) as [sz|] eqn:Es; [|cbn; intros (_ & s & al & t1 & t2 & [= -> _] & _); by rewrite (proj2 (size_bytes_some _ s) eq_refl) in Es].
      apply size_bytes_some in Es as ->. destruct av as [y| | | | |]; try bad.
      destruct (align_from_int y) as [al|] eqn:Ea; [|cbn; intros (_ & s & al & t1 & t2 & [= _ _ -> _] & _); by rewrite (proj2 (align_of_int_some _ al) eq_refl) in Ea].
      apply align_of_int_some in Ea as ->. destruct rty as [| |pt| | | | | |]; try bad.
      destruct (bool_decide_reflect (ptr_meta_kind pt <> MKNone)) as [Hk|Hk]; [bad|]. apply dec_stable in Hk.
      unfold pick_addr. destruct cs as [|[ad|?|?] cs]; try done. cbn [obind]. unfold cm_allocate. cbn [mo_allocate BasicOps]. unfold bm_allocate.
      destruct (valid_size T sz) eqn:Ev; cbn [negb].
      2: { cbn. intros (_ & s & al' & t1 & t2 & [= E _ _] & Hv). assert (s = sz) as -> by lia. congruence. }
      destruct (bm_addr_ok _ _ _ _ _); [|done]. cbn. split; [split; [by exists pt|by exists sz, al, st, at_]|].
      left. unfold mview at 1. cbn. unfold mv. rewrite map_app. eexists. change (List.map view (cm_mem (m_mem m1))) with (mview m1). by rewrite Hview.
    - destruct vals as [|[pv pt] [|[sv st] [|[av at_] [|xx ll]]]]; try bad. destruct pv as [| |[p [me|]]| | |]; try bad. destruct sv as [x| | | | |]; try bad.
      destruct (size_from_bytes x) as [sz|] eqn:Es; [|cbn; intros (_ & q & s & al & t1 & t2 & t3 & id & [= -> -> -> _] & _); by rewrite (proj2 (size_bytes_some _ s) eq_refl) in Es].
      apply size_bytes_some in Es as ->. destruct av as [y| | | | |]; try bad.
      destruct (align_from_int y) as [al|] eqn:Ea; [|cbn; intros (_ & q & s & al & t1 & t2 & t3 & id & [= _ _ _ _ -> _] & _); by rewrite (proj2 (align_of_int_some _ al) eq_refl) in Ea].
      apply align_of_int_some in Ea as ->. eapply judge_seq; [apply j_unit|by intros [? _]|]. intros [] _ ->.
      assert (forall q s al' t1 t2 t3 id, [(VPtr (mkPtr p None), pt); (VInt (Z.of_N sz), st); (VInt (Z.of_N (align_bytes al)), at_)] =
        [(VPtr (mkPtr q None), t1); (VInt (Z.of_N s), t2); (VInt (Z.of_N (align_bytes al')), t3)] -> object_at m q id AHeap s al' -> object_at m p id AHeap sz al) as Hob.
      { intros q s al' t1 t2 t3 id [= <- _ E1 _ E2 _]. assert (s = sz) as -> by lia. assert (al' = al) as ->; [|done].
        enough (Some al' = Some al) by congruence. rewrite <-(proj2 (align_of_int_some _ al') eq_refl), <-(proj2 (align_of_int_some _ al) eq_refl). congruence. }
      apply (judge_seq _ _ _ (exists id, object_at m p id AHeap sz al) _ (fun _ => exists id, object_at m p id AHeap sz al)).
      + unfold cm_deallocate. apply (judge_bind False _ _ _ (fun _ => exists id, object_at m p id AHeap sz al)); [|done]. cbn. unfold bm_deallocate.
        unfold object_at. destruct (tp_prov p) as [[id pe]|] eqn:Hp; [|by intros (? & ? & ? & [=] & _)]. apply judge_drop_unwrap. intros a Ha.
        pose proof (f_equal (lookup id) Hview) as Hv. unfold mview in Hv. rewrite !mv_lookup, Ha in Hv. destruct (cm_mem (m_mem m) !! id) as [b|] eqn:Hb; [|done].
        cbn in Hv. injection Hv as V1 V2 V3 V4 V5. unfold al_size in *.
        destruct (al_live a) eqn:El; cbn [negb]; [|gone Hb].
        destruct (Z.eqb_spec (tp_addr p) (al_addr a)) as [E1|E1]; cbn [negb]; [|gone Hb].
        destruct (bool_decide_reflect (AHeap = al_kind a)) as [E2|E2]; cbn [negb]; [|gone Hb].
        destruct (N.eqb_spec sz (N.of_nat (length (al_data a)))) as [E3|E3]; cbn [negb]; [|gone Hb].
        destruct (bool_decide_reflect (al = al_align a)) as [E4|E4]; cbn [negb]; [|gone Hb].
        cbn. exists id, pe, b. repeat split; congruence.
      + intros (_ & q & s & al' & t1 & t2 & t3 & id & He & Ho). exists id. by eapply Hob.
      + intros mem _ [id Ho]. cbn. split; [|by right]. split; [done|]. by exists p, sz, al, pt, st, at_, id.
    - destruct vals as [|[fv ft] [|[d dt] [|xx ll]]]; try bad. eapply judge_seq; [by apply (j_fn m m1 fv)| |].
      { intros (_ & fv' & fty & func & d' & pt & [= -> _ _ _] & Hd & _). by eexists. }
      intros func _ [Hd Hdu]. destruct dt as [| |pt| | | | | |]; try bad. destruct rty as [it| | | | | | | |]; try bad.
      assert (fn_ok T prog func) as Hok. { destruct Hd as (n & q & _ & _ & Hg). apply (Hfns n). by rewrite <-(mi_prog _ _ _ Hi). }
      eapply judge_seq; [by apply (j_spawn prog m m1 func d (TPtr pt))| |].
      { intros (_ & fv' & fty & func' & d' & pt' & [= -> _ _ ->] & Hd' & Hacc). by rewrite (Hdu _ Hd') in Hacc. }
      intros [[id m2] cs2] _ [Hacc Hnew]. cbn. split; [|by left]. split; [by eexists|]. by exists fv, ft, func, d, pt.
    - destruct vals as [|[v vt] [|xx ll]]; [bad| |destruct v; bad]. destruct v as [x| | | | |]; try bad.
      eapply judge_seq; [apply j_unit|by intros [? _]|]. intros [] _ ->. unfold Step.join.
      destruct (list_get (m_threads m1) x) as [t|] eqn:Et.
      + apply list_get_nat' in Et as (k & -> & Ht). apply lookup_lt_Some in Ht. rewrite (same_nthreads _ _ Hsm) in Ht.
        apply (judge_bind (ends InJoin) _ _ _ (fun _ => True)); [|intros m2 _ _; cbn; split; [|by right]; split; [done|]; by exists k, vt].
        destruct (t_state t); try done; (apply judge_drop; [apply active_safe|done]).
      + cbn. intros (_ & i & ty & [= -> _] & Hlt). rewrite <-(same_nthreads _ _ Hsm) in Hlt. apply lookup_lt_is_Some in Hlt as [t Ht].
        enough (list_get (m_threads m1) (Z.of_nat i) = Some t) by congruence. apply list_get_nat'. by exists i.
    - destruct vals as [|[v vt] [|[w wt] [|xx ll]]]; try bad. destruct (bool_decide_reflect (rty = TBool)) as [->|]; [|bad]. cbn [negb].
      destruct (bool_decide_reflect (vt = wt)) as [<-|]; [|bad]. cbn [negb].
      destruct v as [| |p| | |]; try bad. destruct w as [| |q| | |]; try bad. destruct vt as [| |pt| | | | | |]; try bad.
      destruct pt as [mu pi| | | |]; try bad. destruct (pi_layout pi) as [s al| | |] eqn:El.
      2-4: unfold load_raw_data; rewrite El; bad.
      eapply judge_seq; [by apply (j_raw m m1 p mu pi s al)| |].
      { intros (_ & p' & q' & mu' & pi' & s' & al' & [= <- <- <- <- _ _] & El' & H1 & _ & H3 & _). rewrite El in El'. by injection El' as <- <-. }
      intros [d1 m2] _ (Ha1 & Hi1 & Hst2). cbn [fst snd] in *.
      eapply judge_seq; [by apply (j_raw m m2 q mu pi s al)| |].
      { intros (_ & p' & q' & mu' & pi' & s' & al' & [= <- <- <- <- _ _] & El' & _ & H2 & _ & H4). rewrite El in El'. by injection El' as <- <-. }
      intros [d2 m3] _ (Ha2 & Hi2 & Hst3). cbn. split; [|apply returns_view, Hst3]. split; [done|]. by exists p, q, mu, pi, s, al.
    - (* AtomicStore *) destruct vals as [|[pv pt] [|[v vt] [|xx ll]]]; try bad. destruct pv as [| |[p [me|]]| | |]; try bad.
      pose proof (proj2 (proj1 (Forall_cons _ _ _) Hvals)) as Hv2. apply Forall_inv in Hv2 as [Wv Sv]. cbn [snd] in *.
      pose proof (sized_tsize T _ Sv) as Hs. destruct Sv as (s & a & Hlay). rewrite Hlay. cbn [obind].
      assert (size_of T vt = Ret s) as Hs' by (unfold size_of; by rewrite Hlay). clear Hs.
      destruct (align_from_bytes s) as [al|] eqn:Ea.
      2: { cbn. intros (_ & p' & pty & v' & ty & [= <- _ <- <-] & (s' & al & E1 & E2 & _) & _). rewrite Hs' in E1. injection E1 as <-.
           symmetry in E2. apply align_from_bytes_some in E2. congruence. }
      eapply (j_atomic_size _ vt s al); [done|done|intros (_ & p' & pty & v' & ty & [= <- _ <- <-] & Hat & _); by exists p|]. intros Hle.
      eapply judge_seq; [apply j_unit|by intros [? _]|]. intros [] _ ->.
      eapply judge_seq; [by apply (j_typed_store T Tok m1 p v vt s al Atomic)| |].
      { intros (_ & p' & pty & v' & ty & [= <- _ <- <-] & Hat & Hsp). split; [by apply (view_space T m)|by eapply atomic_aligned]. }
      intros m2 _ (Hsp & Ha & _). cbn. split; [|by right]. split; [done|]. exists p, pt, v, vt. split; [done|]. split; [by eapply atomic_intro|by apply (view_space T m m1)].
    - (* AtomicLoad *) destruct vals as [|[pv pt] [|xx ll]]; [bad| |destruct pv as [| |[p [me|]]| | |]; bad]. destruct pv as [| |[p [me|]]| | |]; try bad.
      apply judge_drop; [apply size_of_safe|]. intros s Hs. destruct (align_from_bytes s) as [al|] eqn:Ea.
      2: { cbn. intros (p' & pty & v & [= <- _] & (s' & al & E1 & E2 & _) & _). rewrite Hs in E1. injection E1 as <-.
           symmetry in E2. apply align_from_bytes_some in E2. congruence. }
      eapply (j_atomic_size _ rty s al); [done|done|intros (p' & pty & v & [= <- _] & Hat & _); by exists p|]. intros Hle.
      eapply judge_seq; [by apply (j_typed_load T Tok m m1 p rty al Atomic)| |].
      { intros (p' & pty & v & [= <- _] & Hat & Hr). split; [by exists v|by eapply atomic_aligned]. }
      intros [v m2] _ (Hr & Ha & Hst2 & _). cbn. split; [|apply returns_view, Hst2]. exists p, pt, v. split; [done|]. split; [by eapply atomic_intro|done].
    - (* AtomicCompareExchange *) destruct vals as [|[pv pt] [|[v vt] [|[w wt] [|xx ll]]]]; try bad. destruct pv as [| |[p [me|]]| | |]; try bad.
      destruct (bool_decide_reflect (vt = rty)) as [->|]; [|bad]. destruct (bool_decide_reflect (wt = rty)) as [->|]; [|bad]. cbn [negb].
      destruct rty as [it| | | | | | | |]; try bad. apply judge_drop; [apply size_of_safe|]. intros s Hs. apply judge_drop_unwrap. intros al Ea.
      eapply (j_atomic_size _ (TInt it) s al); [done|done|intros (it' & p' & pty & cur & next & x & _ & [= <- _ _ _] & Hat & _); by exists p|]. intros Hle.
      eapply judge_seq; [by apply (j_typed_load T Tok m m1 p (TInt it) al Atomic)| |].
      { intros (it' & p' & pty & cur & next & x & _ & [= <- _ _ _] & Hat & Hr). split; [by exists x|by eapply atomic_aligned]. }
      intros [before m2] _ (Hr & Ha & Hst2 & _). cbn [fst snd] in *.
      assert (intr_allowed T m InAtomicCompareExchange [(VPtr (mkPtr p None), pt); (v, TInt it); (w, TInt it)] (TInt it)) as Hall.
      { exists it, p, pt, v, w, before. split; [done|]. split; [done|]. split; [by eapply atomic_intro|done]. }
      destruct (value_eqb v before); [|cbn; split; [done|apply returns_view, Hst2]].
      eapply judge_seq; [by apply (j_typed_store T Tok m2 p w (TInt it) s al Atomic)|intros _; split; [apply (view_space T m m2); [apply Hst2|by eapply readable_space]|done]|].
      intros m3 _ (_ & _ & Hq). cbn. split; [done|]. apply returns_view. destruct Hq as [_ Hq]. rewrite Hq. apply Hst2.
    - (* AtomicFetchAndOp *) destruct vals as [|[pv pt] [|[v vt] [|xx ll]]]; try bad. destruct pv as [| |[p [me|]]| | |]; try bad.
      destruct (bool_decide_reflect (vt = rty)) as [->|]; [|bad]. cbn [negb].
      destruct rty as [it| | | | | | | |]; try bad. apply judge_drop; [apply size_of_safe|]. intros s Hs. apply judge_drop_unwrap. intros al Ea.
      eapply (j_atomic_size _ (TInt it) s al); [done|done|intros (it' & p' & pty & x & old & _ & [= <- _ _] & Hat & _); by exists p|]. intros Hle.
      eapply judge_seq; [by apply (j_typed_load T Tok m m1 p (TInt it) al Atomic)| |].
      { intros (it' & p' & pty & x & old & _ & [= <- _ _] & Hat & Hr). split; [by exists (VInt old)|by eapply atomic_aligned]. }
      intros [before m2] _ (Hr & Ha & Hst2 & Hun). cbn [fst snd] in *.
      destruct v as [x| | | | |]; try done. destruct before as [old| | | | |]; try done.
      specialize (Hop bop eq_refl). apply judge_drop; [by destruct bop|]. intros new _.
      eapply judge_seq; [by apply (j_typed_store T Tok m2 p (VInt new) (TInt it) s al Atomic)|intros _; split; [apply (view_space T m m2); [apply Hst2|by eapply readable_space]|done]|].
      intros m3 _ (_ & _ & Hq). cbn. split; [|apply returns_view; destruct Hq as [_ Hq]; rewrite Hq; apply Hst2].
      exists it, p, pt, x, old. split; [done|]. split; [done|]. by split; [eapply atomic_intro|].
    - (* locks *) destruct lk.
      + destruct vals as [|[v vt] [|xx ll]]; [bad| |destruct v; bad]. destruct v as [x| | | | |]; try bad.
        eapply judge_seq; [apply j_unit|by intros [? _]|]. intros [] _ ->. unfold lock_acquire. rewrite (same_locks _ _ Hsm).
        destruct (list_get (m_locks m) x) as [[|o]|] eqn:El.
        * apply list_get_nat' in El as (k & -> & Hk). cbn. split; [|by right]. split; [done|]. exists k, vt. split; [done|]. by apply lookup_lt_Some in Hk.
        * apply list_get_nat' in El as (k & -> & Hk). apply (judge_bind _ _ _ _ (fun _ => True)); [apply judge_drop; [apply active_safe|done]|].
          intros m2 _ _. cbn. split; [|by right]. split; [done|]. exists k, vt. split; [done|]. by apply lookup_lt_Some in Hk.
        * cbn. intros (_ & i & ty & [= -> _] & Hlt). apply lookup_lt_is_Some in Hlt as [t Ht].
          enough (list_get (m_locks m) (Z.of_nat i) = Some t) by congruence. apply list_get_nat'. by exists i.
      + destruct vals as [|[v vt] [|xx ll]]; [bad| |destruct v; bad]. destruct v as [x| | | | |]; try bad.
        eapply judge_seq; [apply j_unit|by intros [? _]|]. intros [] _ ->. unfold lock_release. rewrite (same_locks _ _ Hsm).
        assert (forall st, (list_get (m_locks m) x = st -> st <> Some (LockedBy (m_active m)) ->
          ~ (unit_ty = unit_ty /\ exists i ty, [(VInt x, vt)] = [(VInt (P := P) (Z.of_nat i), ty)] /\ m_locks m !! i = Some (LockedBy (m_active m))))) as Hno.
        { intros st Est Hne (_ & i & ty & E & Hk). injection E as -> _. apply Hne. rewrite <-Est. apply list_get_nat'. by exists i. }
        destruct (list_get (m_locks m) x) as [[|o]|] eqn:El; [by apply (Hno _ eq_refl)| |by apply (Hno _ eq_refl)].
        rewrite (same_active _ _ Hsm). destruct (Nat.eqb_spec o (m_active m)) as [->|Hne]; cbn [negb]; [|apply (Hno _ eq_refl); congruence].
        apply list_get_nat' in El as (k & -> & Hk).
        apply (judge_bind _ _ _ _ (fun _ => True)); [|intros [m2 cs2] _ _; cbn; split; [|by right]; split; [done|]; by exists k, vt].
        destruct (some_thread_in _ _); [|done]. apply (judge_bind _ _ _ _ (fun _ => True)).
        { unfold pick_thread. destruct cs as [|[?|t|?] cs]; try done. by destruct (thread_in _ _ _). }
        intros [t cs2] _ _. apply judge_drop_unwrap. done.
      + destruct vals as [|xx ll]; [|bad]. destruct rty as [it| | | | | | | |]; try bad. cbn. split; [split; [by eexists|done]|]. by apply returns_view.
    - (* PointerExposeProvenance *) destruct vals as [|[v vt] [|xx ll]]; [bad| |destruct v as [| |[p [me|]]| | |]; bad]. destruct v as [| |[p [me|]]| | |]; try bad.
      destruct (bool_decide_reflect (rty = TInt (usize_ty T))) as [->|]; [|bad]. cbn. split; [split; [done|by eexists _, _]|]. by apply returns_view.
    - (* PointerWithExposedProvenance *) destruct vals as [|[v vt] [|xx ll]]; [bad| |destruct v; bad]. destruct v as [x| | | | |]; try bad.
      destruct rty as [| |pt| | | | | |]; try bad. destruct (bool_decide_reflect (ptr_meta_kind pt <> MKNone)) as [Hk|Hk]; [bad|]. apply dec_stable in Hk.
      unfold pick_prov. destruct cs as [|[?|?|pr] cs]; try done. cbn [obind]. unfold ipc_int2ptr. destruct (match pr with None => true | _ => _ end); [|done]. cbn.
      split; [split; [by exists pt|by eexists _, _]|]. by apply returns_view.
    - (* GetUnwindPayload *) destruct vals as [|xx ll]; [|bad]. destruct rty as [| |pt| | | | | |]; try bad.
      destruct (bool_decide_reflect (ptr_meta_kind pt <> MKNone)) as [Hk|Hk]; [bad|]. apply dec_stable in Hk.
      apply judge_drop; [apply active_safe|]. intros t Ht. apply active_at in Ht.
      assert (exists t0, m_threads m !! m_active m = Some t0 /\ t_payloads t = t_payloads t0) as (t0 & Ht0 & Epl).
      { assert (m_active m < length (m_threads m))%nat as Hlt.
        { rewrite <-(same_nthreads _ _ Hsm), <-(same_active _ _ Hsm). by eapply lookup_lt_Some. }
        apply lookup_lt_is_Some in Hlt as [t0 Ht0]. exists t0. split; [done|]. by eapply same_payloads. }
      destruct (t_payloads t) as [|q l] eqn:Ep; cbn.
      + intros (_ & _ & t' & Ht' & Hne). rewrite Ht0 in Ht'. injection Ht' as <-. by rewrite <-Epl in Hne.
      + split; [split; [by exists pt|]; split; [done|]; exists t0; split; [done|by rewrite <-Epl]|]. by apply returns_view.
  Qed.

  (** ** Terminators *)

  Hypothesis Std : target_std T.

  Lemma j_terminator prog func m k tm cs : minv T prog m -> unique_vtables m -> unique_fns m ->
    (forall n func, map_get (pr_functions prog) n = Some func -> fn_ok T prog func) -> fn_ok T prog func ->
    (forall f, top_frame m f -> f_func f = func) -> terminator_check_wf T prog func k tm = Ret tt ->
    (forall e, term_expr tm e -> gap_free T prog (fn_locals func) e) ->
    (forall op args ret nb pl ty m1, tm = TmIntrinsic op args ret nb -> eval_place T MO ret m = Ret (pl, ty, m1) -> known m (p_thin (pl_ptr pl))) ->
    judge (term_allowed T m tm) (eval_terminator T MO tm m cs) (term_allowed T m tm) (fun _ => term_allowed T m tm).
  Proof.
    intros Hi Hu Huf Hfns Hfn Htop Hw Hgap Hkn. pose proof (still_refl m) as Hst.
    assert (forall (E C : Prop) (o : Outcome (Mach * list (Choice P))) Q, judge False o C Q -> judge E o C Q) as Hweak.
    { intros E C o Q Hj. eapply judge_weak; [exact Hj|done|done|done]. }
    destruct tm as [b|v cases fb| |op args ret nb|callee conv args ret nb ub| |e b|b|].
    - cbn. apply judge_drop; [apply jump_safe|done].
    - cbn [eval_terminator term_allowed]. eapply judge_seq; [by apply (j_value T Tok m m v)|done|]. intros [[x ty] m1] _ (_ & Hv & _). cbn [fst snd] in *.
      destruct x; try done. apply judge_drop; [apply jump_safe|]. intros m2 _. cbn. by eexists _, _.
    - cbn. tauto.
    - cbn [terminator_check_wf] in Hw. apply obind_ret in Hw as (rty & Hret & Hw). apply obind_ret in Hw as ([] & Hsz & Hw). apply sized_of in Hsz.
      apply obind_ret in Hw as ([] & Hargs & Hw). apply for_each_ret in Hargs. apply obind_ret in Hw as ([] & Hatom & _).
      assert (forall o, op = InAtomicFetchAndOp o -> is_atomic_binop o = true) as Hop by (intros o ->; by destruct (is_atomic_binop o)).
      cbn [eval_terminator term_allowed]. specialize (Hkn op args ret nb).
      eapply judge_seq; [by apply (j_place T Tok m m ret)|intros (? & ? & ? & ? & Hp & _); by eexists _, _, _|].
      intros [[pl ty] m1] Epl (Hst1 & Hp & Hpu). cbn [fst snd] in *. specialize (Hkn _ _ _ eq_refl Epl).
      destruct (place_type T Std prog func Hfn m ret _ _ _ _ Htop Hp Hret) as [-> Hwr]; [apply Hgap; constructor|].
      eapply judge_seq; [by apply (j_values args m m1)|intros (? & ? & ? & vals & _ & Hv & _); by exists vals|].
      intros [vals m2] _ (Hvs & Hvsu & Hst2). cbn [fst snd] in *.
      assert (Forall (fun va => ty_check_wf T any_trait (snd va) = Ret tt /\ sized T (snd va)) vals) as Hvals.
      { assert (forall e, In e args -> gap_free T prog (fn_locals func) (inl e)) as Hga by (intros e He; apply Hgap; by constructor).
        clear -Hvs Hargs Hga Htop Std Hfn. induction Hvs as [|e [v ty] args vals Hv Hvs IH]; [constructor|]. apply Forall_cons in Hargs as [He Hargs].
        constructor; [|apply IH; [done|intros; apply Hga; by right]]. apply obind_ret in He as (ty' & He & Hs). apply sized_of in Hs.
        cbn [fst snd] in *. destruct (value_type T Std prog func Hfn m e v ty ty' Htop Hv He) as [-> Hw]; [apply Hga; by left|]. done. }
      set (C := exists rptr al rty0 vals0, _).
      assert (C -> intr_allowed T m op vals rty /\ (ends op \/ pl_aligned pl = true /\ has_space T m (p_thin (pl_ptr pl)) rty /\ nb <> None)) as HC1.
      { intros (rptr & al & rty0 & vals0 & H1 & H2 & H3 & H4). destruct (Hpu _ _ _ H1) as (-> & -> & ->). rewrite (Hvsu _ H2) in H3. done. }
      assert (intr_allowed T m op vals rty /\ (ends op \/ pl_aligned pl = true /\ has_space T m (p_thin (pl_ptr pl)) rty /\ nb <> None) -> C) as HC2.
      { intros [H1 H2]. by exists (pl_ptr pl), (pl_aligned pl), rty, vals. }
      clearbody C. pose proof (j_intrinsic prog m m2 op vals rty cs Hi Huf Hfns Hst2 Hwr Hsz Hvals Hop) as Hj.
      assert (ends op \/ ~ ends op) as [He|He].
      { clear. unfold ends. destruct op; try (right; by intros [?|?]); left; [by left|by right]. }
      { assert (intr_allowed T m op vals rty) as Hall by (by destruct He as [-> | ->]).
        assert (C) as HC by (apply HC2; split; [done|by left]).
        destruct (eval_intrinsic T MO m2 op vals rty cs) as [[[v m3] cs3]|t| |] eqn:Ei; try done.
        - exfalso. destruct He as [-> | ->]; cbn in Ei; [done|]. by destruct (bm_leak_check _).
        - cbn [obind judge] in *. destruct t; done. }
      apply (judge_seq _ _ _ (intr_allowed T m op vals rty) _ (fun r => intr_allowed T m op vals rty /\ returns m rty (snd (fst r)))).
      { eapply judge_weak; [exact Hj|done|done|done]. }
      { intros HC. by apply HC1. }
      intros [[v m3] cs3] _ [Hall Hret3]. cbn [fst snd] in *.
      assert (has_space T m3 (p_thin (pl_ptr pl)) rty <-> has_space T m (p_thin (pl_ptr pl)) rty) as Hspace.
      { destruct Hret3 as [[new Hnew]| ->].
        - split; intros (s & Hs & Hsp); exists s; (split; [done|]); by apply (span_new m m3 _ _ new Hnew Hkn).
        - split; intros _; exists 0%N; (split; [done|]); by left. }
      eapply judge_seq; [eapply (j_place_store T Tok m3 pl v rty); [done|by apply sized_tsize]| |].
      { intros HC. apply HC1 in HC as [_ [?|(H1 & H2 & _)]]; [done|]. split; [done|]. by apply Hspace. }
      intros m4 _ (Ha & Hsp & _). destruct nb as [b|].
      + apply judge_drop; [apply jump_safe|]. intros m5 _. cbn. apply HC2. split; [done|]. right. split; [done|]. split; [by apply Hspace|done].
      + cbn. intros HC. apply HC1 in HC as [_ [?|(_ & _ & ?)]]; done.
    - apply Hweak. by eapply j_call.
    - apply Hweak. eapply j_return; [done|done|]. intros f Hf. by rewrite (Htop _ Hf).
    - cbn [eval_terminator term_allowed]. eapply judge_seq; [by apply (j_value T Tok m m e)|done|]. intros [[x ty] m1] _ (_ & Hv & _). cbn [fst snd] in *.
      destruct x; try done. destruct ty as [| |[| |[]| |]| | | | | |]; try done. apply judge_drop; [apply active_safe|]. intros t _.
      apply judge_drop; [apply jump_safe|]. intros m2 _. cbn. by eexists _, _.
    - cbn [eval_terminator term_allowed]. apply judge_drop; [apply active_safe|]. intros t Ht. apply active_at in Ht. destruct (t_payloads t) as [|q l] eqn:Ep.
      + cbn. intros (t' & Ht' & Hne). rewrite Ht in Ht'. injection Ht' as <-. done.
      + apply judge_drop; [apply jump_safe|]. intros m2 _. cbn. exists t. by rewrite Ep.
    - apply Hweak. by eapply j_resume.
  Qed.
End Intr.
