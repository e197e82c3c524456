(** Terminators of accepted programs keep the safety invariant and only panic for the named causes. *)
From Verif Require Export SafeIntr.
From stdpp Require Import relations.
From Coq Require Import ZifyBool ZifyN ZifyNat.
Local Open Scope Z_scope.

(** ** Values whose pointers stay valid *)

Lemma lax_or {P} `{EqDecision P} T (X : Prop) (e1 e2 : ChkEnv P) ty v : lax T e1 ty v ->
  (forall pt p, leaf ty v pt p -> check_ptr T e1 p pt = Ret tt -> X \/ check_ptr T e2 p pt = Ret tt) -> X \/ lax T e2 ty v.
Proof.
  revert v. induction ty as [it| |pt|fields head u IHf IHu|elem count IHe|elem IHe|fields chunks size align IHf
      |variants dty discr size align IHv|tn] using Ty_ind'; intros v Hc He; inversion Hc; subst.
  - right. by constructor.
  - right. constructor.
  - destruct (He pt p) as [HX|Hp]; [constructor|done|by left|right; by constructor].
  - match goal with H : Forall2 _ _ _ |- _ => rename H into H2 end.
    destruct (Forall2_or X (fun f v => lax T e2 (snd f) v) fields vs) as [HX|Hall]; [|by left|right; by constructor].
    apply Forall2_same_length_lookup_2; [by eapply Forall2_length|]. intros i [o t] v Hf Hv. rewrite Forall_lookup in IHf.
    apply (IHf i _ Hf); [exact (Forall2_lookup_lr _ _ _ _ _ _ H2 Hf Hv)|]. intros pt p Hl. apply He. by econstructor.
  - match goal with H : Forall _ _ |- _ => rename H into H2 end.
    assert (Hall : X \/ Forall (lax T e2 elem) vs).
    { assert (Hn : forall i v, vs !! i = Some v -> X \/ lax T e2 elem v).
      { intros i v Hv. apply IHe; [by eapply Forall_lookup_1 in H2|]. intros pt p Hl. apply He. by econstructor. }
      clear -Hn. induction vs as [|v vs IH]; [right; constructor|]. destruct (Hn 0%nat v) as [HX|Hv]; [done|by left|].
      destruct IH as [HX|IH]; [intros i w Hw; by apply (Hn (S i))|by left|right; by constructor]. }
    destruct Hall as [HX|Hall]; [by left|right; by constructor].
  - right. by constructor.
  - match goal with H : map_get _ _ = Some _ |- _ => rename H into Hg end. pose proof (map_get_in _ _ _ Hg) as Hin. rewrite List.Forall_forall in IHv.
    destruct (IHv _ Hin v0) as [HX|Hv]; [done| |by left|right; by econstructor]. intros pt p Hl. apply He. by econstructor.
Qed.
Lemma check_ptr_deref {P} `{EqDecision P} T (e1 e2 : ChkEnv P) p pt :
  ce_vtable_lookup e2 = ce_vtable_lookup e1 -> ce_vtable_from_ptr e2 = ce_vtable_from_ptr e1 ->
  (forall pi s, safe_pointee pt = Some pi -> compute_size e1 (pi_layout pi) (p_meta p) = Ret s -> ce_deref e1 (p_thin p) s = Ret tt ->
     ce_deref e2 (p_thin p) s = Ret tt) -> check_ptr T e1 p pt = Ret tt -> check_ptr T e2 p pt = Ret tt.
Proof.
  destruct e1 as [d1 f1 l1], e2 as [d2 f2 l2]. cbn [ce_deref ce_vtable_lookup ce_vtable_from_ptr]. intros -> -> Hd Hc.
  unfold check_ptr in *. change (check_ptr_metadata T (mkChkEnv d2 f1 l1)) with (check_ptr_metadata T (mkChkEnv d1 f1 l1)).
  change (compute_size (mkChkEnv d2 f1 l1)) with (compute_size (mkChkEnv d1 f1 l1)).
  change (compute_align (mkChkEnv d2 f1 l1)) with (compute_align (mkChkEnv d1 f1 l1)).
  apply obind_ret in Hc as ([] & -> & Hc). cbn [obind]. apply obind_ret in Hc as ([] & -> & Hc). cbn [obind].
  destruct (safe_pointee pt) as [pi|]; [|exact Hc]. apply obind_ret in Hc as (s & Hs & Hc). pose proof (Hd pi s eq_refl Hs) as Hd'. rewrite Hs. cbn [obind].
  do 5 (apply obind_ret in Hc as (? & -> & Hc); cbn [obind]). apply obind_ret in Hc as (b & Hb & Hc). apply ensure_else_ub_ret in Hc as ->.
  cbn [ce_deref] in *. rewrite Hd'; [done|]. unfold is_ok in Hb. destruct (d1 _ _) as [[]| | |]; done.
Qed.
Lemma kills_other {PE} T (f f' : Function * list (LocalName * ThinPtr (nat * PE))) v v' ls i : iterl (kill (PE := PE) T) f v ls f' v' ->
  (forall n p pe, In (n, p) (snd f) -> tp_prov p <> Some (i, pe)) -> v' !! i = v !! i.
Proof.
  induction 1 as [f v|f v l f1 v1 ls f2 v2 Hk Hi IH]; intros Hn; [done|].
  inversion Hk as [|fn ls0 v0 l0 p id pe ty s a H1 H2 H3 H4 H5 H6]; subst.
  - by apply IH.
  - rewrite IH.
    + apply list_lookup_insert_ne. intros ->. apply map_get_in in H1. by apply (Hn _ _ pe H1).
    + intros n q pe' Hin. cbn [snd] in *. apply map_remove_in in Hin. by apply (Hn n).
Qed.

Section SafeTerm.
  Context {PE AE F : Type} `{EqDecision (nat * PE)}.
  Variable T : Target.
  Variable MO : MemOps (nat * PE) F (BMem PE AE).
  Variable SM : safe_mem T MO.
  Hypothesis Tok : target_ok T.
  Hypothesis Std : target_std T.
  Variable prog : Program.
  Hypothesis Hmeth : methods_exist prog.
  Notation P := (nat * PE)%type.
  Notation M := (BMem PE AE).
  Notation Mach := (Machine P F M).
  Notation BL := (sm_like SM).
  Notation sinv := (sinv T MO SM prog).
  Notation ext := (ext T MO SM prog).
  Notation vok := (vok T MO SM).
  Notation prov_ok := (prov_ok T MO SM).
  Notation good_ptr := (good_ptr T MO SM).
  Notation wfT ty := (ty_check_wf T any_trait ty = Ret tt).
  Notation good := (good T MO SM).
  Notation wgood := (wgood T MO SM).
  Notation place_ok := (place_ok T MO SM).
  Notation memok := (memok T MO SM).
  Notation pmono := (pmono T MO SM).
  Notation pok := (pok T MO SM).

  (** ** Leaving a function *)

  Lemma dealloc_locals_safe (f : StackFrame P F) mem L : fn_ok T prog (f_func f) -> memok (cm_mem mem) L ->
    (forall n p, In (n, p) (f_locals f) -> pok (cm_mem mem) p) ->
    (forall n p, In (n, p) (f_locals f) -> exists ty, map_get (fn_locals (f_func f)) n = Some ty) ->
    wp False (dealloc_locals T MO f mem) (fun r => memok (cm_mem (snd r)) L /\ pmono (cm_mem mem) (cm_mem (snd r)) /\
      (exists ls, fst r = with_locals f ls)).
  Proof.
    intros Hfn Hok Hl Hty. unfold dealloc_locals.
    pose proof (wp_fold_m (fun '(f, mem) local => storage_dead T MO f mem local) False
      (fun i r => memok (cm_mem (snd r)) L /\ pmono (cm_mem mem) (cm_mem (snd r)) /\
        (exists ls, fst r = with_locals f ls /\ forall n p, In (n, p) ls -> In (n, p) (f_locals f))) (List.map fst (f_locals f)) (f, mem)) as Hloop.
    eapply wp_mono; [apply Hloop; clear Hloop|].
    - split; [done|]. split; [by intros ?|]. exists (f_locals f). split; [by destruct f|done].
    - intros i x [f1 mem1] Hx (H1 & H2 & ls & H3 & H4). cbn [fst snd] in *. subst f1.
      change (List.map fst (f_locals f)) with (fst <$> f_locals f) in Hx. rewrite list_lookup_fmap in Hx.
      destruct (f_locals f !! i) as [[n p]|] eqn:Ei; [|done]. injection Hx as <-. apply elem_of_list_lookup_2, elem_of_list_In in Ei.
      destruct (Hty _ _ Ei) as [ty Et]. destruct (fo_locals _ _ _ Hfn _ _ Et) as [Wt St]. cbn [fst].
      eapply wp_mono; [eapply (storage_dead_safe T MO SM (with_locals f ls) mem1 L n ty); [done|exact Et|done|]|].
      + cbn. intros n' p' Hin. eapply pok_mono; [exact H2|]. by eapply Hl, H4.
      + intros [f2 mem2] (G1 & G2 & (ls2 & ->) & G3). cbn [fst snd] in *. split; [done|]. split; [by eapply pmono_trans|].
        exists ls2. split; [done|]. cbn in G3. intros n' p' Hin. by apply H4, G3.
    - intros [f1 mem1] (H1 & H2 & ls & H3 & _). cbn [fst snd] in *. split; [done|]. split; [done|]. by exists ls.
  Qed.

  (** a well-formed value stays well-formed when the locals of a frame are deallocated, unless it has a reference to one *)
  Definition own_ref (m : Mach) (f : StackFrame P F) (ty : Ty) (v : Value P) : Prop :=
    exists pt q pi s a id pe, leaf ty v pt q /\ safe_pointee pt = Some pi /\
      compute_size_and_align (pi_layout pi) (p_meta q) (vtable_lookup m) = Ret (s, a) /\ s <> 0%N /\
      tp_prov (p_thin q) = Some (id, pe) /\ frame_owns f id.
  Lemma kept_value (m m' : Mach) f ls f' ty v : NoDup (List.map fst (f_locals f)) ->
    iterl (kill (PE := PE) T) (f_func f, f_locals f) (mview m) ls f' (mview m') ->
    m_vtptrs m' = m_vtptrs m -> m_prog m' = m_prog m ->
    check_value T (chk_env MO m) ty v = Ret tt -> own_ref m f ty v \/ check_value T (chk_env MO m') ty v = Ret tt.
  Proof.
    intros Hnd Hk Hv Hp Hc. destruct (lax_or T (own_ref m f ty v) (chk_env MO m) (chk_env MO m') ty v) as [HX|Hl].
    - by apply check_lax.
    - intros pt p Hlf Hcp. destruct (safe_pointee pt) as [pi|] eqn:Hsp.
      2: { right. revert Hcp. apply check_ptr_deref; [| |by rewrite Hsp].
           - cbn. unfold vtable_lookup. by rewrite Hv, Hp.
           - cbn. unfold vtable_from_ptr. by rewrite Hv, Hp. }
      destruct (deref_ok T MO m pt pi p Hcp Hsp) as (a & s & Ha & _ & Hs & Hd).
      assert (Hcase : (exists id pe, s <> 0%N /\ tp_prov (p_thin p) = Some (id, pe) /\ frame_owns f id) \/ cm_deref MO (m_mem m') (p_thin p) s = Ret tt).
      { unfold cm_deref in *. rewrite !(bl_deref _ _ BL) in *. unfold bm_check_ptr in *. destruct (s =? 0)%N eqn:E0; [by right|].
        destruct (tp_prov (p_thin p)) as [[id pe]|] eqn:Epr; [|done].
        destruct (existsb (fun e : LocalName * ThinPtr P => match tp_prov (snd e) with Some (i, _) => (i =? id)%nat | None => false end) (f_locals f)) eqn:Eo.
        - left. exists id, pe. split; [lia|]. split; [done|]. apply existsb_exists in Eo as ([n q] & Hin & Hq). cbn [snd] in Hq.
          destruct (tp_prov q) as [[i pe']|] eqn:Eq; [|done]. apply Nat.eqb_eq in Hq as ->. exists n, q, pe'. split; [|done]. by apply map_get_nodup.
        - right. assert (Hsame : mview m' !! id = mview m !! id).
          { eapply kills_other; [exact Hk|]. intros n q pe' Hin Hq. cbn [snd] in Hin.
            assert (existsb (fun e : LocalName * ThinPtr P => match tp_prov (snd e) with Some (i, _) => (i =? id)%nat | None => false end) (f_locals f) = true) as Et; [|congruence].
            apply existsb_exists. exists (n, q). split; [done|]. cbn [snd]. rewrite Hq. apply Nat.eqb_refl. }
          unfold mview in Hsame. rewrite !mv_lookup in Hsame.
          destruct (cm_mem (m_mem m) !! id) as [a1|] eqn:E1; [|done]. destruct (cm_mem (m_mem m') !! id) as [a2|] eqn:E2; [|done].
          injection Hsame as S1 S2 S3 S4 S5. cbn [unwrap obind] in *. unfold al_size in *. rewrite S1, S5. rewrite S2. exact Hd. }
      destruct Hcase as [(id & pe & Hs0 & Hpr & Ho)|Hd'].
      + left. unfold compute_size, compute_align in Hs, Ha. cbn [chk_env ce_vtable_lookup] in *.
        destruct (compute_size_and_align _ _ _) as [[s' a']| | |] eqn:Ecs; try done. injection Hs as ->. injection Ha as ->.
        by exists pt, p, pi, s, a, id, pe.
      + right. revert Hcp. apply check_ptr_deref.
        * cbn. unfold vtable_lookup. by rewrite Hv, Hp.
        * cbn. unfold vtable_from_ptr. by rewrite Hv, Hp.
        * intros pi' s' Hpi Hs' _. rewrite Hsp in Hpi. injection Hpi as <-. rewrite Hs in Hs'. injection Hs' as <-. exact Hd'.
    - by left.
    - right. apply lax_check; [done|]. by eapply check_value_shape.
  Qed.

  Lemma pop_bind {A} (E : Prop) (m : Mach) t f r (k : StackFrame P F -> ConcMem M -> Outcome A) Q : sinv m ->
    m_threads m !! m_active m = Some t -> t_stack t = f :: r -> fn_ok T prog (f_func f) ->
    (forall n p, In (n, p) (f_locals f) -> exists ty, map_get (fn_locals (f_func f)) n = Some ty) ->
    (forall f' mem, f_action f' = f_action f -> sinv (set_active_thread (set_mem m mem) (with_stack t r)) -> pmono (memof m) (cm_mem mem) ->
       (exists fl', iterl (kill (PE := PE) T) (f_func f, f_locals f) (mview m) (List.map fst (f_locals f)) fl' (mv (cm_mem mem))) -> wp E (k f' mem) Q) ->
    wp E (let! '(f', mem) := dealloc_locals T MO f (m_mem m) in let! mem := cm_end_call MO mem (f_extra f') in k f' mem) Q.
  Proof.
    intros Hm Ht Hs Hfn Hty Hk. destruct (extras_put m t Ht) as (rest & E1 & E2). rewrite Hs in E1. cbn [List.map app] in E1.
    pose proof (sinv_memok T MO SM prog _ Hm) as Hok. eapply memok_perm in Hok; [|exact E1].
    apply wp_bind. apply (wp_weaken False _ _ (fun x => (memok (cm_mem (snd x)) (f_extra f :: List.map f_extra r ++ rest) /\
      pmono (memof m) (cm_mem (snd x)) /\ (exists ls, fst x = with_locals f ls)) /\
      iterl (kill T) (fl (fctl f)) (mv (cm_mem (m_mem m))) (List.map fst (f_locals f)) (fl (fctl (fst x))) (mv (cm_mem (snd x))) /\
      f_action (fst x) = f_action f)); [|done|].
    { apply (wp_given False _ _ _ (dealloc_locals_kill T MO BL f (m_mem m))). eapply wp_mono; [apply dealloc_locals_safe; [done|exact Hok| |done]|].
      - intros n p Hin. eapply frame_local; [exact Hm| |exact Hin]. by eapply cur_frame_eq.
      - intros x Hx Hx'. split; [exact Hx|exact Hx']. }
    intros [f' mem] ((H1 & H2 & ls & H3) & H4 & H5). cbn [fst snd] in *. subst f'. cbn [f_extra with_locals].
    apply wp_bind. unfold cm_end_call. apply wp_bind. apply (wp_weaken False _ _ (fun mem' => (memok mem' (List.map f_extra r ++ rest) /\ pmono (cm_mem mem) mem') /\ mo_end_call MO (cm_mem mem) (f_extra f) = Ret mem')); [|done|].
    { apply wp_eq. by apply end_ok. }
    intros mem' ((G1 & G2) & G3). cbn [wp]. apply Hk.
    - done.
    - eapply put_safe; [exact Hm|exact Ht| | |].
      + eapply memok_perm; [symmetry; apply E2|]. exact G1.
      + eapply pmono_trans; [exact H2|exact G2].
      + intros p Hp. left. destruct Hp as [(g & Hin & Hg)|Hp]; [left|by right]. exists g. split; [|done]. cbn in *. rewrite Hs. by right.
    - eapply pmono_trans; [exact H2|exact G2].
    - exists (fl (fctl (with_locals f ls))). cbn [cm_mem cm_set]. rewrite (extra_mv _ _ (bl_end _ _ BL _ _ _ G3)). exact H4.
  Qed.

  Lemma typed_load_put (m : Mach) t' p ty al at_ : typed_load T MO (set_active_thread m t') p ty al at_ =
    (let! '(v, m1) := typed_load T MO m p ty al at_ in Ret (v, set_active_thread (set_mem m (m_mem m1)) t')).
  Proof.
    unfold typed_load. cbn [m_mem set_active_thread set_thread set_threads]. destruct (size_of T ty) as [n| | |]; [|done..]. cbn [obind].
    destruct (cm_load _ _ _ _ _ _) as [[b mem]| | |]; [|done..]. cbn [obind]. destruct (decode T ty b) as [[v|]| | |]; [|done..]. cbn [obind].
    change (chk_env MO (set_mem (set_threads m (<[m_active m:=t']> (m_threads m))) mem)) with (chk_env MO (set_mem m mem)).
    by destruct (check_value _ _ _ _) as [[]| | |].
  Qed.
  Lemma typed_load_mem (m m1 : Mach) v p ty al at_ : typed_load T MO m p ty al at_ = Ret (v, m1) -> exists mem, m1 = set_mem m mem.
  Proof.
    unfold typed_load. intros H. apply obind_ret in H as (s & _ & H). apply obind_ret in H as ([b mem] & _ & H).
    apply obind_ret in H as ([w|] & _ & H); [|done]. apply obind_ret in H as ([] & _ & H). injection H as <- <-. by eexists.
  Qed.

  (** what is known about the top frame [f] of a stack, the others being [r] *)
  Record top_ok (f : StackFrame P F) (r : list (StackFrame P F)) : Prop := {
    to_fn : fn_ok T prog (f_func f);
    to_names : NoDup (List.map fst (f_locals f));
    to_typed : forall n p, In (n, p) (f_locals f) -> exists ty, map_get (fn_locals (f_func f)) n = Some ty;
    to_ret : exists p, map_get (f_locals f) (fn_ret (f_func f)) = Some p;
    to_bottom : f_action f = BottomOfStack <-> r = [];
  }.
  Notation tcause := (term_cause T MO (sm_bad SM)).

  Lemma put_top_framed (m : Mach) mem t g r : m_threads m !! m_active m = Some t -> framed (set_active_thread (set_mem m mem) (with_stack t (g :: r))).
  Proof.
    intros Ht. exists g. eapply (cur_frame_eq _ (with_stack t (g :: r))); [|done]. cbn. apply list_lookup_insert. by eapply lookup_lt_Some.
  Qed.
  Lemma jump_ret (E : Prop) (m : Mach) b (cs : list (Choice P)) : sinv m -> framed m ->
    wp E (let! m := jump_to_block m b in Ret (m, cs)) (fun r => sinv (fst r)).
  Proof.
    intros Hm [f Hf]. apply wp_bind. apply (wp_weaken False _ _ sinv); [|done|done]. by eapply jump_safe.
  Qed.

  Lemma return_safe (m : Mach) cs t f r : sinv m -> m_threads m !! m_active m = Some t -> t_stack t = f :: r -> top_ok f r ->
    wp (tcause m TmReturn) (eval_terminator T MO TmReturn m cs) (fun x => sinv (fst x)).
  Proof.
    intros Hm Ht Hs Htop. cbn [eval_terminator]. pose proof (to_fn _ _ Htop) as Hfn.
    assert (Hcf : cur_frame m = Ret f) by (by eapply cur_frame_eq).
    unfold pop_frame, active_thread. rewrite Ht. cbn [unwrap obind]. rewrite Hs. cbn [obind].
    pose proof (fo_known _ _ _ Hfn) as Hkn. inversion Hkn as [|? ? [ty Hty] _]; subst. rewrite Hty. cbn [unwrap obind].
    destruct (fo_locals _ _ _ Hfn _ _ Hty) as [Wt St]. rewrite (sized_talign _ _ St). cbn [obind].
    destruct (to_ret _ _ Htop) as [p Hp]. rewrite Hp. cbn [unwrap obind]. rewrite typed_load_put.
    pose proof (frame_local T MO SM prog m f _ p Hm Hcf (map_get_in _ _ _ Hp)) as [Hpp _].
    pose proof (typed_load_safe T MO SM Tok prog any_trait m p ty (talign T ty) NonAtomic _ Hm Wt (sized_tsize _ _ St) Hpp) as Hsafe.
    destruct (typed_load T MO m p ty (talign T ty) NonAtomic) as [[v m1]| | |] eqn:Eld; [|done..]. cbn [obind].
    destruct (typed_load_mem _ _ _ _ _ _ _ Eld) as [mem ->]. destruct Hsafe as [Hx Hv]. cbn [fst snd] in Hx, Hv.
    apply (pop_bind _ (set_mem m mem) t f r (fun f mem' => let m := set_mem (set_active_thread (set_mem m mem) (with_stack t r)) mem' in _)); [apply Hx|exact Ht|exact Hs|done|apply Htop|].
    intros f' mem' Hact Hm3 Hpm (fl' & Hkill). rewrite Hact.
    cbn zeta. change (set_mem (set_active_thread (set_mem m (m_mem (set_mem m mem))) (with_stack t r)) mem') with (set_active_thread (set_mem (set_mem m mem) mem') (with_stack t r)).
    set (m3 := set_active_thread (set_mem (set_mem m mem) mem') (with_stack t r)) in *.
    assert (Ht3 : m_threads m3 !! m_active m3 = Some (with_stack t r)) by (cbn; apply list_lookup_insert; by eapply lookup_lt_Some).
    assert (Hv3 : wgood (tcause m TmReturn) m3 ty v).
    { destruct Hv as [Hc Hin]. split; [by eapply val_in_mono; [exact Hpm|]|].
      destruct (kept_value (set_mem m mem) m3 f (List.map fst (f_locals f)) fl' ty v) as [(pt & q & pi & s & a & id & pe & R1 & R2 & R3 & R4 & R5 & R6)|Hc']; [apply Htop|exact Hkill|done|done|done| |by right].
      left. eapply tc_return; [exact Hcf|exact Hty|exact Hp|by apply sized_talign|exact Eld|exact R1|exact R2|exact R3|exact R4|exact R5|exact R6]. }
    destruct (f_action f) as [|nb ub cp] eqn:Eact.
    - assert (Hr : r = []) by (by apply (to_bottom _ _ Htop)). unfold terminate_active_thread. destruct (_ =? _)%nat; [done|].
      unfold active_thread. rewrite Ht3. cbn [unwrap obind t_stack with_stack]. rewrite Hr. cbn [assert_ obind wp fst]. eapply keep_sinv; [exact Hm3|done|done| |by intros pr Hpr; left].
      cbn [m_threads set_threads set_sync]. rewrite map_map. erewrite (map_ext _ sp); [|intros u; by case_bool_decide].
      unfold set_active_thread at 1, set_thread. cbn [m_threads set_threads]. rewrite <- Hr. by apply keep_thread.
    - unfold active_thread. rewrite Ht3. cbn [unwrap obind t_stack with_stack].
      destruct r as [|g r']; [pose proof (proj2 (to_bottom _ _ Htop) eq_refl); congruence|]. cbn [assert_ obind].
      assert (Hcp : thin_in (prov_ok m3) cp).
      { eapply thin_in_mono; [exact Hpm|]. eapply thin_in_mono; [exact (ex_prov _ _ _ _ _ _ Hx)|].
        apply (si_ptrs _ _ _ _ _ Hm). apply (hp_action _ _ (m_active m) (tctl t) 0 (fctl f) nb ub); [by rewrite ctl_thread, Ht|cbn; by rewrite Hs|done]. }
      apply wp_bind. eapply wp_mono; [eapply typed_store_wgood; [done|exact Hm3|exact Wt|exact Hv3|exact Hcp]|].
      intros m4 Hx4. destruct nb as [b|]; [|done]. apply jump_ret; [apply Hx4|]. eapply ext_framed; [exact Hx4|]. by apply put_top_framed.
  Qed.

  Lemma resume_safe (m : Mach) cs t f r : sinv m -> m_threads m !! m_active m = Some t -> t_stack t = f :: r -> top_ok f r ->
    wp (tcause m TmResumeUnwind) (eval_terminator T MO TmResumeUnwind m cs) (fun x => sinv (fst x)).
  Proof.
    intros Hm Ht Hs Htop. cbn [eval_terminator]. pose proof (to_fn _ _ Htop) as Hfn.
    unfold pop_frame, active_thread. rewrite Ht. cbn [unwrap obind]. rewrite Hs. cbn [obind].
    apply (pop_bind _ m t f r (fun f mem' => let m := set_mem (set_active_thread m (with_stack t r)) mem' in _)); [done|exact Ht|exact Hs|done|apply Htop|].
    intros f' mem' Hact Hm3 Hpm _. rewrite Hact. destruct (f_action f) as [|nb ub cp] eqn:Eact; [done|]. destruct ub as [b|]; [|done].
    apply jump_ret; [exact Hm3|]. destruct r as [|g r']; [pose proof (proj2 (to_bottom _ _ Htop) eq_refl); congruence|]. by apply (put_top_framed m mem').
  Qed.
End SafeTerm.
