(** The machine can go on as long as there is room in memory. *)
From Verif Require Export LiveSpec MeanProofs ActProofs SafeCall.
Local Open Scope Z_scope.
From Coq Require Import ZifyBool ZifyN ZifyNat.

(** neither a result nor a lack of behaviour *)
Definition halts {A} (o : Outcome A) : Prop := acts o /\ forall a, o <> Ret a.
Lemma halts_bind {A B} (o : Outcome A) (f : A -> Outcome B) : halts o -> halts (obind o f).
Proof. intros [H1 H2]. destruct o; [by destruct (H2 a)|split..]; done. Qed.
Lemma ac_bind_ret {A B} (o : Outcome A) (f : A -> Outcome B) : acts o -> (forall a, o = Ret a -> acts (f a)) -> acts (obind o f).
Proof. intros Ho Hf. destruct o; cbn; [by apply Hf|done..]. Qed.
Lemma acts_cases {A} (o : Outcome A) : acts o -> (exists a, o = Ret a) \/ halts o.
Proof. intros H. destruct o; [left; by eexists|right; by split..|done]. Qed.

Section Live.
  Context {PE AE F : Type} `{EqDecision (nat * PE)}.
  Variable T : Target.
  Notation P := (nat * PE)%type.
  Notation M := (BMem PE AE).
  Notation Mach := (Machine P F M).
  Variable MO : MemOps P F M.
  Hypothesis BL : bm_like T MO.
  Hypothesis AO : act_ops MO.
  Hypothesis Tok : target_ok T.
  Hypothesis Hret : forall mem f ptr pt fe lk q mem' f', mo_retag MO mem f ptr pt fe lk = Ret (q, mem', f') -> same_dest ptr q.
  Implicit Types m : Mach.
  Notation limit := (2 ^ (8 * Z.of_N (PTR_SIZE T))).

  (** all live allocations end before [top] *)
  Definition below (v : list AV) (top : Z) : Prop :=
    0 < top /\ forall i x, v !! i = Some x -> v_live x = true -> v_addr x + Z.of_N (v_size x) < top.

  (** there is room for [n] bytes past them *)
  Definition roomy (v : list AV) (n : Z) : Prop := exists top, below v top /\ top + n <= limit.

  Lemma takes_pos r : 0 < takes r.
  Proof. unfold takes. pose proof (align_bytes_pos (snd r)). lia. Qed.

  Lemma alloc_room (mem : M) k r top : below (mv mem) top -> top + takes r <= limit ->
    exists ad, acts (mo_allocate MO mem k (fst r) (snd r) ad) /\
      forall p mem', mo_allocate MO mem k (fst r) (snd r) ad = Ret (p, mem') -> below (mv mem') (top + takes r).
  Proof.
    destruct r as [s al]. cbn [fst snd]. unfold takes. cbn [fst snd]. intros [Ht Hb] Hl. pose proof (align_bytes_pos al) as Hal.
    set (b := Z.of_N (align_bytes al)) in *.
    set (ad := b * ((top + b - 1) / b)).
    assert (Had : top <= ad < top + b).
    { unfold ad. pose proof (Z.mul_div_le (top + b - 1) b). pose proof (Z.mul_succ_div_gt (top + b - 1) b). lia. }
    exists ad. split.
    - destruct (bl_alloc _ _ BL mem k s al) as (pe & ae & E). rewrite E. unfold bm_allocate.
      destruct (valid_size T s) eqn:Hv; cbn [negb]; [|done].
      assert (bm_addr_ok T mem s al ad = true) as ->; [|done].
      apply addr_ok_spec. split; [lia|]. split; [|split].
      + unfold ad. rewrite Z.mul_comm. apply Z.mod_mul. lia.
      + apply in_bounds_spec. unfold int_max, int_min, size_bits. pose proof (ptr_size_pos T Tok).
        destruct (N.eqb_spec (PTR_SIZE T) 0); [done|]. cbn. replace (Z.of_N (8 * PTR_SIZE T)) with (8 * Z.of_N (PTR_SIZE T)) by lia. lia.
      + intros i a Ha Hli. assert (al_addr a + Z.of_N (al_size a) < top).
        { refine (Hb i (view a) _ Hli). rewrite mv_lookup, Ha. done. }
        unfold ranges_apart. split; [|left]; lia.
    - intros p mem' E. apply (alloc_mv T MO BL Tok) in E as (E & _ & _). split; [lia|]. intros i x Hx Hli.
      rewrite E in Hx. apply lookup_app_Some in Hx as [Hx|[_ Hx]].
      + specialize (Hb _ _ Hx Hli). lia.
      + apply list_lookup_singleton_Some in Hx as [_ <-]. cbn [v_addr v_size]. lia.
  Qed.

  Lemma cm_alloc_room (mem : ConcMem M) k r top : below (mv (cm_mem mem)) top -> top + takes r <= limit ->
    exists ad, acts (cm_allocate MO mem k (fst r) (snd r) ad) /\
      forall p mem', cm_allocate MO mem k (fst r) (snd r) ad = Ret (p, mem') -> below (mv (cm_mem mem')) (top + takes r).
  Proof.
    intros Hb Hl. destruct (alloc_room _ k _ _ Hb Hl) as (ad & Ha & Hr). exists ad. unfold cm_allocate. split; [by ac_go|].
    intros p mem' E. apply obind_ret in E as ([q m2] & E & [= <- <-]). by eapply Hr.
  Qed.

  Lemma kill_below (g g' : Function * list (LocalName * ThinPtr P)) v l v' top : kill T g v l g' v' -> below v top -> below v' top.
  Proof.
    intros Hk [Ht Hb]. split; [done|]. destruct Hk as [|fn ls v l p id pe ty s a _ _ _ _ _ Hv]; [done|].
    intros i x Hx Hli. destruct (decide (i = id)) as [->|Hi].
    - apply lookup_lt_Some in Hv. rewrite list_lookup_insert in Hx by done. by injection Hx as <-.
    - rewrite list_lookup_insert_ne in Hx by done. by eapply Hb.
  Qed.

  Lemma live_room (f : StackFrame P F) mem l top : below (mv (cm_mem mem)) top ->
    (forall r, local_fits T (f_func f) l r -> top + takes r <= limit) ->
    exists ad, (forall cs, halts (storage_live T MO f mem l (ChAddr ad :: cs))) \/
      exists f' mem' r, (forall cs, storage_live T MO f mem l (ChAddr ad :: cs) = Ret (f', mem', cs)) /\
        f_func f' = f_func f /\ local_fits T (f_func f) l r /\ below (mv (cm_mem mem')) (top + takes r).
  Proof.
    intros Hb Hf. unfold storage_live.
    destruct (acts_cases _ (ac_storage_dead T MO AO f mem l)) as [[[f1 mem1] E]|Hh].
    2:{ exists 0. left. intros cs. by apply halts_bind. }
    pose proof (storage_dead_kill T MO BL f mem l) as Hk. rewrite E in Hk. destruct Hk as [Hk [ls Els]]. cbn [fst snd] in *.
    apply (kill_below _ _ _ _ _ _ Hk) in Hb. assert (Ef : f_func f1 = f_func f).
    { change (fc_func (fctl f1) = f_func f). by rewrite Els. }
    rewrite E. cbn [obind]. rewrite Ef.
    destruct (map_get (fn_locals (f_func f)) l) as [ty|] eqn:Ety; cbn [unwrap obind]; [|exists 0; left; by split].
    destruct (acts_cases _ (ac_size_of T ty)) as [[s Es]|Hh]; [|exists 0; left; intros cs; by apply halts_bind].
    rewrite Es. cbn [obind].
    destruct (acts_cases _ (ac_align_of T ty)) as [[al Ea]|Hh]; [|exists 0; left; intros cs; by apply halts_bind].
    rewrite Ea. cbn [obind].
    assert (Hlf : local_fits T (f_func f) l (s, al)) by (exists ty; by repeat split).
    destruct (cm_alloc_room mem1 AStack (s, al) top Hb (Hf _ Hlf)) as (ad & Ha & Hr). exists ad. cbn [pick_addr obind fst snd] in *.
    destruct (acts_cases _ Ha) as [[[p mem2] Em]|Hh]; [|left; intros cs; by apply halts_bind].
    rewrite Em. cbn [obind]. right. eexists _, _, (s, al). split; [done|]. split; [exact Ef|]. split; [done|]. by eapply Hr.
  Qed.

  Lemma takes_all_pos rs : 0 <= takes_all rs.
  Proof. induction rs as [|r rs IH]; cbn [takes_all]; [lia|]. pose proof (takes_pos r). lia. Qed.
  Lemma takes_all_app rs rs' : takes_all (rs ++ rs') = takes_all rs + takes_all rs'.
  Proof. induction rs as [|r rs IH]; cbn [takes_all app]; lia. Qed.

  Lemma lives_room ls (f : StackFrame P F) mem top : below (mv (cm_mem mem)) top ->
    Forall (fun l => exists r, local_fits T (f_func f) l r) ls ->
    (forall rs, Forall2 (local_fits T (f_func f)) ls rs -> top + takes_all rs <= limit) ->
    exists cs, acts (fold_m (fun '(f, mem, cs) l => storage_live T MO f mem l cs) ls (f, mem, cs)).
  Proof.
    revert f mem top. induction ls as [|l ls IH]; intros f mem top Hb Hall Hf; cbn [fold_m]; [by exists []|].
    apply Forall_cons in Hall as [_ Hall].
    assert (exists rs, Forall2 (local_fits T (f_func f)) ls rs) as [rs Hrs].
    { clear -Hall. induction Hall as [|l ls [r Hr] _ [rs IH]]; [by exists []|]. exists (r :: rs). by constructor. }
    destruct (live_room f mem l top Hb) as (ad & [Hh|(f' & mem' & r & E & Ef & Hr & Hb')]).
    { intros r Hr. specialize (Hf (r :: rs) ltac:(by constructor)). cbn [takes_all] in Hf. pose proof (takes_all_pos rs). lia. }
    { exists [ChAddr ad]. apply halts_bind, Hh. }
    rewrite <-Ef in Hall. destruct (IH f' mem' (top + takes r) Hb' Hall) as [cs Hcs].
    { rewrite Ef. intros rs' Hrs'. specialize (Hf (r :: rs') ltac:(by constructor)). cbn [takes_all] in Hf. lia. }
    exists (ChAddr ad :: cs). rewrite E. exact Hcs.
  Qed.

  Lemma fits_sized ty : sized T ty -> exists r, lay_as T ty r.
  Proof.
    intros (s & a & E). exists (s, a). unfold lay_as, size_of, align_of. rewrite E. done.
  Qed.
  Lemma frame_sized prog func : fn_ok T prog func -> Forall (fun l => exists r, local_fits T func l r) (fn_ret func :: fn_args func).
  Proof.
    intros Ho. eapply Forall_impl; [apply (fo_known _ _ _ Ho)|]. intros l [ty Hty].
    destruct (fits_sized ty) as [r Hr]; [by eapply (fo_locals _ _ _ Ho)|]. exists r, ty. done.
  Qed.

  Lemma ac_abi a b : acts (check_abi_compatibility a b).
  Proof.
    revert b. induction a as [it| |pt|fields head u IHf IHu|elem count IHe|elem IHe|fields chunks size align IHf
      |variants dty discr size align IHv|tn] using Ty_ind'; intros b; destruct b; cbn [check_abi_compatibility]; try done.
    - do 2 destruct (head_size_and_align _). do 2 (apply ac_bind; [apply ac_assert|intros _]). destruct (negb _); [done|].
      apply ac_bind; [|done]. apply ac_all2_m. eapply Forall_impl; [exact IHf|]. intros [o t] Ht [o' t']. cbn [fst snd] in *.
      destruct (_ =? _)%N; [apply Ht|done].
    - apply ac_bind; [apply IHe|done].
    - destruct (negb _); [done|]. apply ac_bind; [|done]. apply ac_all2_m. eapply Forall_impl; [exact IHf|]. intros [o t] Ht [o' t'].
      cbn [fst snd] in *. destruct (_ =? _)%N; [apply Ht|done].
    - destruct (negb _); [done|]. apply ac_bind; [|done]. apply ac_all_m. eapply Forall_impl; [exact IHv|]. intros [k [t tg]] Ht.
      cbn [fst snd] in *. destruct (map_get _ _); [|done]. apply ac_bind; [apply Ht|done].
  Qed.

  Lemma local_fits_fun func l r r' : local_fits T func l r -> local_fits T func l r' -> r = r'.
  Proof.
    intros (ty & E & H1 & H2) (ty' & E' & H1' & H2'). rewrite E in E'. injection E' as <-. destruct r, r'. cbn [fst snd] in *. congruence.
  Qed.
  Lemma frame_fits_fun func rs rs' : frame_fits T func rs -> frame_fits T func rs' -> rs = rs'.
  Proof.
    unfold frame_fits. intros Hf. revert rs'. induction Hf as [|l r ls rs Hl Hf IH]; intros rs' H'; inversion H'; subst; [done|].
    f_equal; [by eapply local_fits_fun|by apply IH].
  Qed.
  Lemma create_room prog m func action conv rty args : fn_ok T prog func ->
    (forall rs, frame_fits T func rs -> roomy (mview m) (takes_all rs)) ->
    exists cs, acts (create_frame T MO m func action conv rty args cs).
  Proof.
    intros Ho Hr. pose proof (frame_sized _ _ Ho) as Hall.
    assert (exists rs, frame_fits T func rs) as [rs0 Hrs0].
    { unfold frame_fits. clear -Hall. induction Hall as [|l ls [r Hr] _ [rs IH]]; [by exists []|]. exists (r :: rs). by constructor. }
    destruct (Hr _ Hrs0) as (top & Hb & Hl).
    assert (Hf : forall rs, frame_fits T func rs -> top + takes_all rs <= limit).
    { intros rs Hrs. by rewrite (frame_fits_fun _ _ _ Hrs Hrs0). }
    destruct (lives_room (fn_ret func :: fn_args func) (mkFrame func [] action (fn_start func) 0 (mo_new_call MO)) (m_mem m) top Hb Hall Hf) as [cs Hcs].
    exists cs. unfold create_frame. apply ac_bind; [exact Hcs|]. intros [[f mem] cs']. destruct (negb _); [done|].
    pose proof ac_abi. pose proof (ac_typed_store T MO AO). ac_go.
    all: try (apply ac_fold_m2; intros; ac_go).
  Qed.

  Lemma classic_fits func l : (exists r, local_fits T func l r) \/ ~ exists r, local_fits T func l r.
  Proof.
    unfold local_fits, lay_as. destruct (map_get (fn_locals func) l) as [ty|]; [|right; by intros (? & ? & ? & _)].
    destruct (size_of T ty) as [s| | |] eqn:Es; [|right; by intros (? & ? & [= <-] & E & _); rewrite Es in E..].
    destruct (align_of T ty) as [al| | |] eqn:Ea; [|right; by intros (? & ? & [= <-] & _ & E); rewrite Ea in E..].
    left. by exists (s, al), ty.
  Qed.
  Lemma intr_room prog m op args rty : m_prog m = prog -> program_check_wf T prog = Ret tt ->
    (op = InAllocate -> forall s al t1 t2, args = [(VInt (Z.of_N s), t1); (VInt (Z.of_N (align_bytes al)), t2)] -> roomy (mview m) (takes (s, al))) ->
    (op = InSpawn -> forall n func rs, map_get (pr_functions prog) n = Some func -> frame_fits T func rs -> roomy (mview m) (takes_all rs)) ->
    exists cs, acts (eval_intrinsic T MO m op args rty cs).
  Proof.
    intros Hp Hwf Hal Hsp.
    pose proof (ac_typed_store T MO AO). pose proof (ac_typed_load T MO AO).
    pose proof (ac_cm_load MO AO). pose proof (ac_cm_deallocate MO AO).
    pose proof (ac_fn_from_ptr (M := M) (F := F) (P := P)) as Hfn.
    destruct op as [| | | | | | | | | | | | |bop|lk| | |];
      lazymatch goal with
      | |- exists cs, acts (eval_intrinsic _ _ _ InAllocate _ _ _) => idtac
      | |- exists cs, acts (eval_intrinsic _ _ _ InSpawn _ _ _) => idtac
      | |- exists cs, acts (eval_intrinsic _ _ _ InPointerWithExposedProvenance _ _ _) => exists [ChProv None]; cbn; ac_go
      | |- exists cs, acts (eval_intrinsic _ _ _ InExit _ _ _) =>
          exists []; cbn; unfold cm_leak_check; rewrite (bl_leak _ _ BL); unfold bm_leak_check; ac_go
      | |- exists cs, acts (eval_intrinsic _ _ _ (InLock _) _ _ _) => idtac
      | |- _ => exists []; cbn; unfold ensure_unit, eval_print, Step.join, load_raw_data, active_thread; ac_go
      end.
    all: try (apply ac_fold_m; intros; ac_go).
    all: try done.
    - apply ac_for_each. intros x. destruct (al_live x); [|done]. by destruct (al_kind x).
    - cbn. destruct args as [|[sv t1] [|[av t2] [|]]]; try (exists []; done).
      destruct sv; try (exists []; done). unfold size_from_bytes, align_from_int. destruct (Z.ltb_spec i 0); [exists []; done|].
      destruct av; try (exists []; done). destruct (Z.ltb_spec i0 0); [exists []; done|].
      destruct (align_from_bytes (Z.to_N i0)) as [al|] eqn:Ea; [|exists []; done].
      destruct rty; try (exists []; done). case_bool_decide; [exists []; done|].
      pose proof (proj1 (align_from_bytes_some _ _) Ea) as Eb.
      assert (roomy (mview m) (takes (Z.to_N i, al))) as (top & Hb & Hl).
      { eapply Hal; [done|]. rewrite Eb, !Z2N.id by lia. done. }
      destruct (cm_alloc_room (m_mem m) AHeap (Z.to_N i, al) top Hb Hl) as (ad & Ha & _).
      exists [ChAddr ad]. cbn [pick_addr obind fst snd] in *. apply ac_bind; [exact Ha|]. intros [? ?]. done.
    - cbn. destruct args as [|[fv t1] [|[d t2] [|]]]; try (exists []; done).
      destruct (acts_cases _ (Hfn m fv)) as [[func Ef]|Hh]; [|exists []; by apply halts_bind].
      rewrite Ef. cbn [obind]. destruct t2 as [| |pt| | | | | |]; try (exists []; done). destruct rty; try (exists []; done).
      assert (exists n, map_get (pr_functions prog) n = Some func) as [n Hn].
      { unfold fn_from_ptr in Ef. repeat (case_match; try done). apply unwrap_ret in Ef. rewrite Hp in Ef. by eexists. }
      destruct (create_room prog m func BottomOfStack CcC unit_ty [(d, TPtr pt)]) as [cs Hcs];
        [by eapply prog_fn|intros rs Hrs; by eapply Hsp|].
      exists cs. unfold spawn, new_thread. apply ac_bind; [|by intros [[? ?] ?]]. apply ac_bind; [|by intros [[? ?] ?]].
      apply ac_bind; [exact Hcs|]. by intros [[? ?] ?].
    - apply ac_int_bin_op.
    - destruct lk; [exists []; cbn; unfold ensure_unit, lock_acquire, active_thread; ac_go| |exists []; cbn; ac_go].
      cbn. destruct args as [|[[x| | | | |] t1] [|]]; try (exists []; done). unfold ensure_unit. case_bool_decide; [|exists []; done]. cbn [obind].
      unfold lock_release. destruct (list_get (m_locks m) x) as [[|owner]|]; try (exists []; done).
      destruct (negb _); [exists []; done|]. destruct (some_thread_in m _) eqn:Es; [|exists []; done].
      unfold some_thread_in in Es. apply existsb_exists in Es as (t & Ht & Hst). apply elem_of_list_In, elem_of_list_lookup in Ht as [i Hi].
      exists [ChThread i]. cbn [pick_thread]. unfold thread_in at 1. rewrite Hi, Hst. cbn [obind]. rewrite Hi. done.
  Qed.

  Lemma term_room prog m tm : m_prog m = prog -> program_check_wf T prog = Ret tt ->
    (forall callee conv args ret nb ub n func rs, tm = TmCall callee conv args ret nb ub ->
       map_get (pr_functions prog) n = Some func -> frame_fits T func rs -> roomy (mview m) (takes_all rs)) ->
    (forall args ret nb n func rs, tm = TmIntrinsic InSpawn args ret nb ->
       map_get (pr_functions prog) n = Some func -> frame_fits T func rs -> roomy (mview m) (takes_all rs)) ->
    (forall e1 e2 ret nb s al ty1 ty2, tm = TmIntrinsic InAllocate [e1; e2] ret nb ->
       value_means T m e1 (VInt (Z.of_N s)) ty1 -> value_means T m e2 (VInt (Z.of_N (align_bytes al))) ty2 -> roomy (mview m) (takes (s, al))) ->
    exists cs, acts (eval_terminator T MO tm m cs).
  Proof.
    intros Hp Hwf Hcall Hspawn Halloc.
    pose proof (ac_eval_value T MO AO) as Hev. pose proof (ac_eval_place T MO AO) as Hep.
    pose proof (ac_jump (P := P) (F := F) (M := M)) as Hj.
    pose proof (ac_typed_store T MO AO) as Hts. pose proof (ac_typed_load T MO AO) as Htl.
    pose proof (ac_deinit MO AO) as Hde. pose proof (ac_cm_end MO AO) as Hce. pose proof (ac_storage_dead T MO AO) as Hsd.
    pose proof (ac_place_store T MO AO) as Hps. pose proof (ac_place_load T MO AO) as Hpl.
    assert (Hdl : forall f mem, acts (dealloc_locals T MO f mem)).
    { intros f mem. apply ac_fold_m. intros [? ?] ?. apply Hsd. }
    assert (Hpop : forall m, acts (pop_frame m)) by (intros; unfold pop_frame, active_thread; ac_go).
    assert (Hterm : forall m, acts (terminate_active_thread m)) by (intros; unfold terminate_active_thread, active_thread; ac_go).
    assert (Hact : forall m, acts (active_thread m)) by (intros; unfold active_thread; ac_go).
    destruct tm as [b|v cases fb| |op args ret nb|callee conv args ret nb ub| |e b|b|];
      lazymatch goal with
      | |- exists cs, acts (eval_terminator _ _ (TmIntrinsic _ _ _ _) _ _) => idtac
      | |- exists cs, acts (eval_terminator _ _ (TmCall _ _ _ _ _ _) _ _) => idtac
      | |- _ => exists []; cbn [eval_terminator]; ac_go
      end.
    - cbn [eval_terminator]. destruct (acts_cases _ (Hep ret m)) as [[[[rp rty] m1] E1]|Hh]; [|exists []; by apply halts_bind].
      rewrite E1. cbn [obind]. pose proof (eval_place_still T MO BL ret m) as S1. rewrite E1 in S1. cbn [wp snd] in S1.
      assert (Has : acts (map_st (fun m e => eval_value T MO e m) args m1)) by (apply ac_map_st, Forall_true; auto).
      destruct (acts_cases _ Has) as [[[vals m2] E2]|Hh]; [|exists []; by apply halts_bind]. rewrite E2. cbn [obind].
      apply (evals_data T MO BL) in E2 as [E2 S2].
      destruct (evals_mean T MO BL Tok Hret m m1 args vals m2 S1 E2) as [Hm S3].
      destruct S3 as [S3 [Emv _]]. destruct (intr_room prog m2 op vals rty) as [cs Hcs].
      + rewrite <-Hp. change (c_prog (ctl m2) = c_prog (ctl m)). by rewrite S3.
      + done.
      + rewrite Emv. intros -> s al t1 t2 ->. apply Forall2_cons_inv_r in Hm as (e1 & es & H1 & Hm & ->).
        apply Forall2_cons_inv_r in Hm as (e2 & es' & H2 & Hm & ->). apply Forall2_nil_inv_r in Hm as ->. by eapply Halloc.
      + rewrite Emv. intros -> n func rs. by eapply Hspawn.
      + exists cs. apply ac_bind; [exact Hcs|]. ac_go.
    - cbn [eval_terminator]. destruct (acts_cases _ (Hep ret m)) as [[[[rp rty] m1] E1]|Hh]; [|exists []; by apply halts_bind].
      rewrite E1. cbn [obind]. pose proof (eval_place_quiet T MO BL ret m) as Q1. rewrite E1 in Q1. cbn [wp snd] in Q1.
      assert (Hpre : forall m pl ty, acts (prepare_for_inplace_passing T MO m pl ty)) by (intros; unfold prepare_for_inplace_passing; ac_go).
      destruct (acts_cases _ (Hpre m1 rp rty)) as [[m2 E2]|Hh]; [|exists []; by apply halts_bind]. rewrite E2. cbn [obind].
      assert (quiet m1 m2) as Q2.
      { unfold prepare_for_inplace_passing in E2. apply obind_ret in E2 as (s & _ & E2). apply obind_ret in E2 as (al & _ & E2).
        pose proof (deinit_quiet T MO BL m1 (p_thin (pl_ptr rp)) s al) as Q. rewrite E2 in Q. exact Q. }
      destruct (acts_cases _ (Hev callee m2)) as [[[[cv cty] m3] E3]|Hh]; [|exists []; by apply halts_bind]. rewrite E3. cbn [obind].
      pose proof (eval_value_quiet T MO BL callee m2) as Q3. rewrite E3 in Q3. cbn [wp snd] in Q3.
      destruct (acts_cases _ (ac_fn_from_ptr m3 cv)) as [[func Ef]|Hh]; [|exists []; by apply halts_bind]. rewrite Ef. cbn [obind].
      assert (Has : acts (map_st (eval_argument T MO) args m3)).
      { apply ac_map_st, Forall_true. intros [e|p] m'; cbn; ac_go. }
      destruct (acts_cases _ Has) as [[[vals m4] E4]|Hh]; [|exists []; by apply halts_bind]. rewrite E4. cbn [obind].
      assert (quiet m3 m4) as Q4.
      { pose proof (map_st_quiet (eval_argument T MO) args m3) as Q. rewrite E4 in Q. apply Q. apply Forall_true.
        intros x m'. apply (eval_argument_quiet T MO BL). }
      assert (quiet m m3) as Q by eauto using quiet_trans.
      assert (Hp3 : m_prog m3 = prog).
      { destruct Q as [E _]. rewrite <-Hp. change (c_prog (ctl m3) = c_prog (ctl m)). by rewrite E. }
      assert (exists n, map_get (pr_functions prog) n = Some func) as [n Hn].
      { unfold fn_from_ptr in Ef. repeat (case_match; try done). apply unwrap_ret in Ef. rewrite Hp3 in Ef. by eexists. }
      assert (Hb4 : mview m4 = mview m).
      { destruct Q4 as [_ ->]. by destruct Q as [_ ->]. }
      destruct (create_room prog m4 func (BackToCaller nb ub (p_thin (pl_ptr rp))) conv rty vals) as [cs Hcs];
        [by eapply prog_fn|intros rs Hrs; rewrite Hb4; by eapply Hcall|].
      exists cs. unfold eval_call. apply ac_bind; [exact Hcs|]. intros [[f m5] cs']. ac_go.
  Qed.

  Lemma stmt_room m s : (forall l f r, s = SStorageLive l -> cur_frame m = Ret f -> local_fits T (f_func f) l r -> roomy (mview m) (takes r)) ->
    exists cs, acts (eval_statement T MO s m cs).
  Proof.
    intros Hlive.
    pose proof (ac_eval_value T MO AO) as Hev. pose proof (ac_eval_place T MO AO) as Hep.
    pose proof (ac_typed_store T MO AO) as Hts. pose proof (ac_typed_load T MO AO) as Htl.
    pose proof (ac_deinit MO AO) as Hde. pose proof (ac_storage_dead T MO AO) as Hsd. pose proof (ac_retag_val MO AO) as Hrv.
    pose proof (ac_place_store T MO AO) as Hps. pose proof (ac_place_load T MO AO) as Hpl.
    pose proof (ac_cur (P := P) (F := F) (M := M)) as Hcu. pose proof (ac_set_cur (P := P) (F := F) (M := M)) as Hsc.
    pose proof (ac_cm_store MO AO) as Hcst. pose proof (ac_offset_inbounds T MO AO) as Hoi.
    destruct s as [d e|p|d v|p fe|p|l|l]; lazymatch goal with
      | |- exists cs, acts (eval_statement _ _ (SStorageLive _) _ _) => idtac
      | |- exists cs, acts (eval_statement _ _ (SSetDiscriminant _ _) _ _) => idtac
      | |- _ => exists []; cbn [eval_statement]; ac_go
      end.
    - exists []. cbn [eval_statement]. apply ac_bind; [done|]. intros [[pl ty] m1]. destruct ty; try (by ac_go). destruct (negb _); [done|].
      apply ac_bind; [ac_go|]. intros var. apply ac_bind; [|done]. apply ac_encode_discriminant. intros. unfold store_accessor. ac_go.
    - cbn [eval_statement]. destruct (acts_cases _ (Hcu m)) as [[f Ef]|Hh]; [|exists []; by apply halts_bind]. rewrite Ef. cbn [obind].
      assert (exists ad, forall cs, acts (storage_live T MO f (m_mem m) l (ChAddr ad :: cs))) as [ad Ha].
      { destruct (classic_fits (f_func f) l) as [[r Hr]|Hno].
        - destruct (Hlive _ _ _ eq_refl Ef Hr) as (top & Hb & Hl). destruct (live_room f (m_mem m) l top Hb) as (ad & [Hh|(f' & mem' & r' & E & _)]).
          + intros r' Hr'. by rewrite (local_fits_fun _ _ _ _ Hr' Hr).
          + exists ad. intros cs. apply Hh.
          + exists ad. intros cs. by rewrite E.
        - exists 0. intros cs. unfold storage_live. apply ac_bind_ret; [apply Hsd|]. intros [f1 mem1] E1.
          pose proof (storage_dead_kill T MO BL f (m_mem m) l) as Hk. rewrite E1 in Hk. destruct Hk as [_ [ls Els]]. cbn [fst snd] in *.
          assert (Ef1 : f_func f1 = f_func f) by (change (fc_func (fctl f1) = f_func f); by rewrite Els). rewrite Ef1.
          destruct (map_get (fn_locals (f_func f)) l) as [ty|] eqn:Ety; [|done]. cbn [unwrap obind].
          apply ac_bind_ret; [apply ac_size_of|]. intros s Es. apply ac_bind_ret; [apply ac_align_of|]. intros al Ea.
          destruct Hno. exists (s, al), ty. done. }
      exists [ChAddr ad]. apply ac_bind; [apply Ha|]. intros [[? ?] ?]. ac_go.
  Qed.

  Lemma room_roomy m n : room T m n -> roomy (mview m) n.
  Proof.
    intros (top & H0 & Hn & Hl). exists top. split; [|done]. split; [done|]. intros i x Hx Hli. unfold mview in Hx. rewrite mv_lookup in Hx.
    destruct (cm_mem (m_mem m) !! i) as [o|] eqn:Eo; [|done]. injection Hx as <-. by eapply Hl.
  Qed.

  Lemma ac_races c a s acc : acts (cm_check_data_races (M := M) c a s acc).
  Proof. unfold cm_check_data_races. case_bool_decide; [done|]. apply ac_for_each. intros x. by destruct (existsb _ _). Qed.

  Lemma step_room prog m a : m_prog m = prog -> program_check_wf T prog = Ret tt -> enabled m a ->
    (forall rs, asks T m a rs -> room T m (takes_all rs)) ->
    exists cs, acts (step T MO (ChThread a :: cs) m).
  Proof.
    intros Hp Hwf Hen Hroom. unfold step. destruct (negb _); [by exists []|].
    destruct (reset_data_race_tracking m) as [[ps pa] m0] eqn:Er. cbn [pick_thread].
    assert (Hturn : set_active m0 a = turn m a).
    { rewrite turn_begin. unfold begin_step. by rewrite Er. }
    assert (Hth : m_threads m0 = m_threads m).
    { unfold reset_data_race_tracking in Er. destruct (cm_reset_accesses _). by injection Er as _ _ <-. }
    assert (thread_in m0 Enabled a = true) as ->.
    { unfold thread_in. rewrite Hth. unfold enabled, state_of in Hen. destruct (m_threads m !! a) as [t|]; [|done].
      cbn in Hen. apply bool_decide_eq_true. congruence. }
    cbn [obind]. rewrite Hturn. destruct (acts_cases _ (ac_cur (turn m a))) as [[f Ef]|Hh]; [|exists []; by apply halts_bind].
    rewrite Ef. cbn [obind]. destruct (map_get (fn_blocks (f_func f)) (f_block f)) as [b|] eqn:Eb; [|by exists []]. cbn [unwrap obind].
    assert (Hblk : in_block m a f b).
    { unfold cur_frame in Ef. apply obind_ret in Ef as (t & Ht & Ef). unfold active_thread in Ht. apply unwrap_ret in Ht.
      destruct (t_stack t) as [|g r] eqn:Es; [done|]. injection Ef as ->. exists t, r. done. }
    assert (Hfr : frame_of m a 0 f).
    { destruct Hblk as (t & r & Ht & Hs & _). exists t. split; [done|]. by rewrite Hs. }
    assert (Hmv : mview (turn m a) = mview m) by done.
    destruct (Nat.eqb_spec (f_stmt f) (length (bb_statements b))) as [Hn|Hn].
    - assert (Hat : at_terminator m a (bb_terminator b)) by (by exists f, b).
      destruct (term_room prog (turn m a) (bb_terminator b)) as [cs Hcs]; [done|done|..].
      + intros callee conv args ret nb ub n func rs E Hg Hf. rewrite Hmv. apply room_roomy, Hroom. rewrite E in Hat. eapply as_call; [done| |done]. by rewrite Hp.
      + intros args ret nb n func rs E Hg Hf. rewrite Hmv. apply room_roomy, Hroom. rewrite E in Hat. eapply as_spawn; [done| |done]. by rewrite Hp.
      + intros e1 e2 ret nb s al ty1 ty2 E H1 H2. rewrite Hmv. apply room_roomy. replace (takes (s, al)) with (takes_all [(s, al)]) by (cbn; lia).
        apply Hroom. rewrite E in Hat. by eapply as_allocate.
      + exists cs. apply ac_bind; [exact Hcs|]. intros [m1 cs1]. pose proof ac_races. ac_go.
    - destruct (bb_statements b !! f_stmt f) as [st|] eqn:Est; [|by exists []]. cbn [unwrap obind].
      assert (Hat : at_statement m a st) by (by exists f, b).
      destruct (stmt_room (turn m a) st) as [cs Hcs].
      + intros l g r E Eg Hg. rewrite Hmv. apply room_roomy. replace (takes r) with (takes_all [r]) by (cbn; lia).
        apply Hroom. rewrite E in Hat. rewrite Ef in Eg. injection Eg as <-. by eapply as_live.
      + exists cs. pose proof ac_races. pose proof (ac_cur (P := P) (F := F) (M := M)). pose proof (ac_set_cur (P := P) (F := F) (M := M)).
        apply ac_bind; [|intros [m1 cs1]; ac_go]. apply ac_bind; [exact Hcs|]. intros [m1 cs1]. ac_go.
  Qed.

  (** ** The start *)

  Lemma alloc_all_room {A} k (sa : A -> Size * Align) (l : list (N * A)) ptrs mem top :
    below (mv (cm_mem mem)) top -> top + takes_all (List.map (fun x => sa (snd x)) l) <= limit ->
    let go (cs : list (Choice P)) := fold_m (fun '(ptrs, mem, cs) entry =>
        let '(size, align) := sa (snd entry) in
        let! '(addr, cs) := pick_addr cs in
        let! '(ptr, mem) := cm_allocate MO mem k size align addr in
        Ret (map_insert ptrs (fst entry) ptr, mem, cs)) l (ptrs, mem, cs) in
    exists ads, (forall cs, halts (go (ads ++ cs))) \/
      exists ptrs' mem', (forall cs, go (ads ++ cs) = Ret (ptrs', mem', cs)) /\
        below (mv (cm_mem mem')) (top + takes_all (List.map (fun x => sa (snd x)) l)).
  Proof.
    revert ptrs mem top. induction l as [|[n x] l IH]; intros ptrs mem top Hb Hl.
    { exists []. right. exists ptrs, mem. split; [done|]. cbn. by rewrite Z.add_0_r. }
    cbn [List.map takes_all snd] in Hl. pose proof (takes_all_pos (List.map (fun x => sa (snd x)) l)) as Hpos.
    destruct (cm_alloc_room mem k (sa x) top Hb ltac:(lia)) as (ad & Ha & Hr).
    destruct (acts_cases _ Ha) as [[[p mem1] E]|Hh].
    - specialize (Hr _ _ E). destruct (IH (map_insert ptrs n p) mem1 (top + takes (sa x)) Hr ltac:(lia)) as (ads & IH').
      exists (ChAddr ad :: ads). cbn [fold_m snd fst app pick_addr obind]. destruct (sa x) as [s al] eqn:Esa. cbn [fst snd] in E. 
      cbn [fold_m snd fst app pick_addr obind]. rewrite E. cbn [obind]. destruct IH' as [IH'|(ptrs' & mem' & E' & Hb')]; [by left|right].
      exists ptrs', mem'. split; [exact E'|]. cbn [List.map takes_all snd]. rewrite Esa. by rewrite Z.add_assoc.
    - exists [ChAddr ad]. left. intros cs. cbn [fold_m snd fst app pick_addr obind]. destruct (sa x) as [s al] eqn:Esa. cbn [fst snd] in Hh.
      apply halts_bind. cbn [app pick_addr obind]. by apply halts_bind.
  Qed.

  Lemma ac_fill ptrs gs mem : acts (fill_globals T MO ptrs gs mem).
  Proof.
    apply ac_fold_m. intros mem' [n g]. apply ac_bind; [|intros bs; pose proof (ac_cm_store MO AO); ac_go].
    unfold global_bytes. apply ac_fold_m. intros bs [i r]. pose proof (ac_encode_ptr (P := P) T).
    pose proof (fun A => ac_write_subslice (A := A)). ac_go.
  Qed.
  Lemma fill_below ptrs gs mem mem' : fill_globals T MO ptrs gs mem = Ret mem' -> mv (cm_mem mem') = mv (cm_mem mem).
  Proof.
    unfold fill_globals. revert mem. induction gs as [|[n g] gs IH]; intros mem E; cbn [fold_m] in E; [by injection E as <-|].
    apply obind_ret in E as (mem1 & E1 & E). rewrite (IH _ E). apply obind_ret in E1 as (bs & _ & E1). apply obind_ret in E1 as (p & _ & E1).
    unfold expect_ok in E1. destruct (cm_store _ _ _ _ _ _) as [mem2| | |] eqn:E2; try done. injection E1 as ->.
    apply obind_ret in E2 as (mem3 & E2 & [= <-]). by apply (store_mv T MO BL) in E2.
  Qed.

  Lemma new_room prog : program_check_wf T prog = Ret tt -> start_room T prog -> exists cs, acts (machine_new T MO prog cs).
  Proof.
    intros Hwf Hr. unfold machine_new. rewrite Hwf. cbn [obind].
    destruct (map_get (pr_functions prog) (pr_start prog)) as [func|] eqn:Ef.
    2:{ exfalso. clear -Hwf Ef. unfold program_check_wf in Hwf. do 2 (apply obind_ret in Hwf as ([] & ? & Hwf)). by rewrite Ef in Hwf. }
    pose proof (prog_fn _ _ _ _ Hwf Ef) as Ho. pose proof (frame_sized _ _ Ho) as Hall.
    assert (exists rs, frame_fits T func rs) as [rs0 Hrs0].
    { unfold frame_fits. clear -Hall. induction Hall as [|l ls [r Hr] _ [rs IH]]; [by exists []|]. exists (r :: rs). by constructor. }
    specialize (Hr _ (ex_intro _ func (ex_intro _ rs0 (conj Ef (conj Hrs0 eq_refl))))). rewrite !takes_all_app in Hr.
    pose proof (takes_all_pos rs0) as P0.
    set (n1 := takes_all (List.map _ (pr_globals prog))) in Hr. pose proof (takes_all_pos (List.map (fun _ : N * Function => (0%N, mkAlign 0)) (pr_functions prog))) as P2.
    set (n2 := takes_all (List.map _ (pr_functions prog))) in *. pose proof (takes_all_pos (List.map (fun _ : N * VTable => (0%N, mkAlign 0)) (pr_vtables prog))) as P3.
    set (n3 := takes_all (List.map _ (pr_vtables prog))) in *.
    assert (Hb0 : below (mv (cm_mem (cm_new MO))) 1).
    { split; [lia|]. cbn. rewrite (bl_new _ _ BL). done. }
    destruct (alloc_all_room AGlobal (fun g => (N.of_nat (length (g_bytes g)), g_align g)) (pr_globals prog) [] _ 1 Hb0) as (ads1 & H1).
    { fold n1. lia. }
    fold n1 in H1. destruct H1 as [H1|(globals & mem1 & E1 & Hb1)].
    { exists ads1. unfold alloc_all at 1. rewrite <-(app_nil_r ads1). apply halts_bind, H1. }
    destruct (acts_cases _ (ac_fill globals (pr_globals prog) mem1)) as [[mem2 E2]|Hh].
    2:{ exists ads1. unfold alloc_all at 1. rewrite <-(app_nil_r ads1), E1. cbn [obind]. by apply halts_bind. }
    rewrite <-(fill_below _ _ _ _ E2) in Hb1.
    destruct (alloc_all_room AFunction (fun _ => (0%N, align_one)) (pr_functions prog) [] _ _ Hb1) as (ads2 & H2).
    { change (1 + n1 + n2 <= limit). lia. }
    destruct H2 as [H2|(fnptrs & mem3 & E3 & Hb3)].
    { exists (ads1 ++ ads2 ++ []). unfold alloc_all at 1. rewrite E1. cbn [obind]. rewrite E2. cbn [obind]. apply halts_bind, H2. }
    change (below (mv (cm_mem mem3)) (1 + n1 + n2)) in Hb3.
    destruct (alloc_all_room AVTable (fun _ => (0%N, align_one)) (pr_vtables prog) [] _ _ Hb3) as (ads3 & H3).
    { change (1 + n1 + n2 + n3 <= limit). lia. }
    destruct H3 as [H3|(vtptrs & mem4 & E4 & Hb4)].
    { exists (ads1 ++ ads2 ++ ads3 ++ []). unfold alloc_all at 1. rewrite E1. cbn [obind]. rewrite E2. cbn [obind].
      unfold alloc_all at 1. rewrite E3. cbn [obind]. apply halts_bind, H3. }
    change (below (mv (cm_mem mem4)) (1 + n1 + n2 + n3)) in Hb4.
    destruct (create_room prog (mkMachine prog mem4 ipc_new [] 0 [] [] globals fnptrs vtptrs EmptyString EmptyString) func BottomOfStack CcC unit_ty []) as [cs Hcs]; [done| |].
    { intros rs Hrs. rewrite (frame_fits_fun _ _ _ Hrs Hrs0). exists (1 + n1 + n2 + n3). split; [exact Hb4|lia]. }
    exists (ads1 ++ ads2 ++ ads3 ++ cs). unfold alloc_all at 1. rewrite E1. cbn [obind]. rewrite E2. cbn [obind].
    unfold alloc_all at 1. rewrite E3. cbn [obind]. unfold alloc_all at 1. rewrite E4. cbn [obind unwrap]. unfold new_thread.
    apply ac_bind; [|by intros [[? ?] ?]]. apply ac_bind; [exact Hcs|]. by intros [[? ?] ?].
  Qed.
End Live.
