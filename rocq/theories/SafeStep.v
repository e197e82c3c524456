(** Terminators and steps of accepted programs keep the safety invariant and only panic for the named causes. *)
From Verif Require Export SafeTerm UnwindProofs.
From stdpp Require Import relations.
From Coq Require Import ZifyBool ZifyN ZifyNat.
Local Open Scope Z_scope.

Lemma map_st_app {S A B} (f : S -> A -> Outcome (B * S)) l x s0 ys s1 :
  map_st f l s0 = Ret (ys, s1) -> map_st f (l ++ x) s0 = (let! '(zs, s2) := map_st f x s1 in Ret (ys ++ zs, s2)).
Proof.
  revert s0 ys. induction l as [|a l IH]; intros s0 ys H; cbn in H.
  { injection H as <- <-. cbn. by destruct (map_st f x s0) as [[]| | |]. }
  apply obind_ret in H as ([y s] & H1 & H). apply obind_ret in H as ([ys' s'] & H2 & H). injection H as <- <-.
  cbn. rewrite H1. cbn. rewrite (IH _ _ H2). by destruct (map_st f x s') as [[]| | |].
Qed.

Section SafeStep.
  Context {PE AE F : Type} `{EqDecision (nat * PE)}.
  Variable T : Target.
  Variable MO : MemOps (nat * PE) F (BMem PE AE).
  Variable SM : safe_mem T MO.
  Hypothesis Tok : target_ok T.
  Hypothesis Std : target_std T.
  Variable prog : Program.
  Hypothesis Hmeth : methods_exist prog.
  Notation P := (nat * PE)%type.
  Notation M := (BMem PE AE).
  Notation Mach := (Machine P F M).
  Notation BL := (sm_like SM).
  Notation sinv := (sinv T MO SM prog).
  Notation ext := (ext T MO SM prog).
  Notation vok := (vok T MO SM).
  Notation prov_ok := (prov_ok T MO SM).
  Notation good_ptr := (good_ptr T MO SM).
  Notation wfT ty := (ty_check_wf T any_trait ty = Ret tt).
  Notation good := (good T MO SM).
  Notation wgood := (wgood T MO SM).
  Notation place_ok := (place_ok T MO SM).
  Notation memok := (memok T MO SM).
  Notation pmono := (pmono T MO SM).
  Notation pok := (pok T MO SM).

  Section Terminator.
  Variable func : Function.
  Hypothesis Hfn : fn_ok T prog func.
  Notation locals := (fn_locals func).
  Notation gap := (gap_free T prog locals).
  Notation ecause := (expr_cause T MO (sm_bad SM)).
  Notation tcause := (term_cause T MO (sm_bad SM)).
  Notation running := (running func).
  Notation top_ok := (top_ok T prog).

  Lemma map_st_gen {A} (f : Mach -> A -> Outcome (Value P * Ty * Mach)) (C : Mach -> A -> Prop) (W : A -> Ty -> Prop) (E : Prop) es tys :
    (forall a t m, W a t -> sinv m -> running m -> wp (C m a) (f m a) (fun r =>
       snd (fst r) = t /\ good (C m a) (snd r) t (fst (fst r)) /\ ext m (snd r))) ->
    Forall2 W es tys -> forall es1 vs1 m0 m1, map_st f es1 m0 = Ret (vs1, m1) -> sinv m1 -> running m1 ->
    (forall l a r vs m2, es1 ++ es = l ++ a :: r -> map_st f l m0 = Ret (vs, m2) -> C m2 a -> E) ->
    wp E (map_st f es m1) (fun r => Forall2 (fun t v => snd v = t /\ good E (snd r) t (fst v)) tys (fst r) /\ ext m1 (snd r)).
  Proof.
    intros Hf. induction 1 as [|a t es tys Ha Htys IH]; intros es1 vs1 m0 m1 H1 Hm1 Hr1 HE.
    { cbn. split; [constructor|by apply ext_refl]. }
    assert (Hc : C m1 a -> E) by (by apply (HE es1 a es vs1)).
    cbn [map_st]. apply wp_bind. eapply wp_weaken; [by apply wp_eq, (Hf a t m1)|done|].
    intros [[v t'] m2] [(Ht & Hv & Hx) Eq]. cbn [fst snd] in *. subst t'.
    specialize (IH (es1 ++ [a]) (vs1 ++ [(v, t)]) m0 m2). rewrite <- app_assoc in IH. cbn [app] in IH.
    apply wp_bind. eapply wp_mono; [apply IH|].
    - by eapply map_st_snoc.
    - apply Hx.
    - by eapply ext_running.
    - exact HE.
    - intros [vs m3] [HF Hx']. cbn [fst snd wp] in *. split; [|by eapply ext_trans].
      constructor; [|done]. cbn. split; [done|]. eapply (ext_good_val T MO SM Tok prog E m2); [done|]. by eapply good_weaken.
  Qed.

  Lemma fn_locals_ok n ty : map_get locals n = Some ty -> wfT ty /\ sized T ty.
  Proof. apply Hfn. Qed.

  Definition arg_wf (a : ArgumentExpr) (t : Ty) : Prop := argument_check_wf T prog locals a = Ret t /\ sized T t /\ gap (arg_expr a).
  Lemma eval_argument_safe a t m : arg_wf a t -> sinv m -> running m ->
    wfT t /\ wp (ecause m (arg_expr a)) (eval_argument T MO m a) (fun r =>
       snd (fst r) = t /\ good (ecause m (arg_expr a)) (snd r) t (fst (fst r)) /\ ext m (snd r)).
  Proof.
    intros (Hw & Hs & Hg) Hm Hr. destruct a as [e|p]; cbn in Hw |- *.
    - by apply (eval_value_step T MO SM Tok Std prog Hmeth func fn_locals_ok).
    - destruct (eval_place_step T MO SM Tok Std prog Hmeth func fn_locals_ok m p t Hm Hr Hw Hg) as [Wt Hp]. split; [done|].
      apply wp_bind. eapply wp_mono; [exact Hp|]. intros [[pl t'] m1] (Ht & Hpl & Hx). cbn [fst snd] in *. subst t'. clear Hp.
      assert (Hthin : thin_in (prov_ok m1) (p_thin (pl_ptr pl))) by apply Hpl.
      apply wp_bind. eapply wp_weaken; [eapply place_load_safe; [done..|apply Hx|exact Wt|exact Hs|exact Hthin]|done|].
      intros [v m2] [Hx2 Hv]. cbn [fst snd] in *.
      apply wp_bind. eapply wp_weaken; [eapply prepare_safe; [done..|apply Hx2|exact Wt|exact Hs|]|done|].
      { eapply thin_in_mono; [exact (ex_prov _ _ _ _ _ _ Hx2)|exact Hthin]. }
      intros m3 Hx3. cbn [wp fst snd]. split; [done|]. split; [|by eapply ext_trans; [exact Hx|by eapply ext_trans]].
      apply vok_good; [done..|]. by eapply ext_value.
  Qed.

  Lemma args_wf (tys : list Ty) (es : list ArgumentExpr) m : sinv m -> running m -> Forall2 arg_wf es tys -> Forall (fun t => wfT t /\ sized T t) tys.
  Proof.
    intros Hm Hr. induction 1 as [|a t es tys Ha Hs IH]; constructor; [|done]. split; [|apply Ha].
    by apply (eval_argument_safe a t m).
  Qed.
  Lemma args_good E m (tys : list Ty) (vs : list (Value P * Ty)) : Forall (fun t => wfT t /\ sized T t) tys ->
    Forall2 (fun t v => snd v = t /\ good E m t (fst v)) tys vs -> Forall (fun a => wfT (snd a) /\ sized T (snd a) /\ good E m (snd a) (fst a)) vs.
  Proof.
    intros Hw Hf. revert Hw. induction Hf as [|t v tys vs [Ht Hv] Hf IH]; intros Hw; constructor; inversion Hw as [|? ? [] ]; subst; [done|]. by apply IH.
  Qed.
  Lemma args_typed (es : list ArgumentExpr) msg :
    for_each (fun a => let! ty := argument_check_wf T prog locals a in ensure_sized T ty msg) es = Ret tt ->
    (forall a, In a es -> gap (arg_expr a)) -> exists tys, Forall2 arg_wf es tys.
  Proof.
    intros H Hg. apply for_each_ret in H. rewrite List.Forall_forall in H. apply Forall_exists_Forall2. apply List.Forall_forall. intros a Ha.
    specialize (H a Ha). apply obind_ret in H as (t & H1 & H2). exists t. split; [done|]. split; [by eapply sized_of|by apply Hg].
  Qed.

  Definition val_wf (e : ValueExpr) (t : Ty) : Prop := value_check_wf T prog locals e = Ret t /\ sized T t /\ gap (inl e).
  Lemma eval_val_safe e t m : val_wf e t -> sinv m -> running m ->
    wp (ecause m (inl e)) (eval_value T MO e m) (fun r =>
       snd (fst r) = t /\ good (ecause m (inl e)) (snd r) t (fst (fst r)) /\ ext m (snd r)).
  Proof. intros H Hm Hr. by apply (eval_argument_safe (ByValue e) t m). Qed.
  Lemma values_wf (tys : list Ty) (es : list ValueExpr) m : sinv m -> running m -> Forall2 val_wf es tys -> Forall (fun t => wfT t /\ sized T t) tys.
  Proof.
    intros Hm Hr. induction 1 as [|e t es tys He Hs IH]; constructor; [|done]. split; [|apply He].
    by apply (eval_argument_safe (ByValue e) t m).
  Qed.
  Lemma values_typed (es : list ValueExpr) msg :
    for_each (fun a => let! ty := value_check_wf T prog locals a in ensure_sized T ty msg) es = Ret tt ->
    (forall a, In a es -> gap (inl a)) -> exists tys, Forall2 val_wf es tys.
  Proof.
    intros H Hg. apply for_each_ret in H. rewrite List.Forall_forall in H. apply Forall_exists_Forall2. apply List.Forall_forall. intros a Ha.
    specialize (H a Ha). apply obind_ret in H as (t & H1 & H2). exists t. split; [done|]. split; [by eapply sized_of|by apply Hg].
  Qed.

  Lemma payloads_safe (m : Mach) t ps : sinv m -> m_threads m !! m_active m = Some t -> (forall p, In p ps -> In p (t_payloads t) \/ pok (memof m) p) ->
    sinv (set_active_thread m (with_payloads t ps)).
  Proof.
    intros Hm Ht Hp. rewrite <- (set_mem_self m). destruct (extras_put m t Ht) as (rest & E1 & E2).
    eapply put_safe; [exact Hm|exact Ht| |by intros ?|].
    - eapply memok_perm; [|by eapply sinv_memok]. rewrite E2, E1. done.
    - intros p [(f & Hf & Hp')|Hp']; [left; left; by exists f|]. destruct (Hp p Hp') as [H1|H1]; [left; by right|by right].
  Qed.
  Lemma payloads_framed (m : Mach) t ps : framed m -> m_threads m !! m_active m = Some t -> framed (set_active_thread m (with_payloads t ps)).
  Proof.
    intros (f & Hf) Ht. exists f. unfold cur_frame, active_thread in *. cbn. rewrite Ht in Hf. cbn in Hf.
    rewrite list_lookup_insert by (by eapply lookup_lt_Some). exact Hf.
  Qed.

  Notation vstep := (eval_value_step T MO SM Tok Std prog Hmeth func fn_locals_ok).
  Notation pstep := (eval_place_step T MO SM Tok Std prog Hmeth func fn_locals_ok).

  Lemma eval_terminator_safe kind tm (m : Mach) cs t f r : sinv m -> m_threads m !! m_active m = Some t -> t_stack t = f :: r ->
    top_ok f r -> f_func f = func -> terminator_check_wf T prog func kind tm = Ret tt ->
    (forall e, term_expr tm e -> gap e) -> intrinsic_gap T prog locals tm ->
    wp (tcause m tm) (eval_terminator T MO tm m cs) (fun x => sinv (fst x)).
  Proof.
    intros Hm Ht Hs Htop Hff Hw Hg Hig.
    assert (Hr : running m) by (exists f; split; [by eapply cur_frame_eq|done]).
    pose proof (running_framed _ _ Hr) as Hf.
    destruct tm as [b|v cases fb| |op args ret nb|callee conv args ret nb ub| |v ub|nb|]; cbn [terminator_check_wf] in Hw.
    - by apply jump_ret.
    - apply obind_ret in Hw as (ty & Hty & Hw). destruct (vstep m v ty Hm Hr Hty (Hg _ (te_switch _ _ _))) as [_ Hv].
      cbn [eval_terminator]. apply wp_bind. eapply wp_weaken; [exact Hv|intros Hc; by eapply tc_expr; [constructor|]|].
      intros [[x ty'] m1] (Ety & Hgood & Hx). cbn [fst snd] in *. subst ty'. destruct ty; try done.
      destruct Hgood as [Hlax _]. inversion Hlax; subst. apply jump_ret; [done..|apply Hx|by eapply ext_framed].
    - done.
    - apply obind_ret in Hw as (rty & Hret & Hw). apply obind_ret in Hw as ([] & Hrs & Hw). apply obind_ret in Hw as ([] & Hargs & Hw).
      apply obind_ret in Hw as ([] & Hop & _). apply sized_of in Hrs.
      destruct (values_typed args _ Hargs) as (tys & Htys); [by intros e He; apply Hg; constructor|]. clear Hargs.
      pose proof (values_wf tys args m Hm Hr Htys) as Wtys.
      destruct (pstep m ret rty Hm Hr Hret (Hg _ (te_intr_ret _ _ _ _))) as [Wr Hpl].
      cbn [eval_terminator]. set (E := tcause m _). apply wp_bind. eapply wp_weaken; [by apply wp_eq|intros Hc; by eapply tc_expr; [constructor|]|].
      intros [[pl rty'] m1] [(Ety & Hok & Hx1) Epl]. cbn [fst snd] in *. subst rty'. clear Hpl.
      assert (Hr1 : running m1) by (by eapply ext_running).
      apply wp_bind. eapply wp_mono; [apply wp_eq, (map_st_gen _ (fun m e => ecause m (inl e)) val_wf E args tys) with (es1 := []) (vs1 := []) (m0 := m1)|].
      { intros a t0 m0 Ha Hm0 Hr0. by apply eval_val_safe. }
      { exact Htys. }
      { done. }
      { apply Hx1. }
      { done. }
      { intros l a rr vs m2 Hl Hrun Hc. cbn in Hl. subst args. eapply tc_expr; [|exact Hc]. by eapply tr_intr_arg. }
      intros [vs m2] [[HF Hx2] Evs]. cbn [fst snd] in *. pose proof (args_good _ _ _ _ Wtys HF) as Hargs.
      assert (Hxx : ext m m2) by (by eapply ext_trans). pose proof (ext_framed _ _ _ _ _ _ Hxx Hf) as Hf2.
      apply wp_bind. eapply wp_mono; [eapply (eval_intrinsic_safe T MO SM Tok Std prog E m2 rty); [apply Hx2|done|done|done|exact Hargs|..]|].
      { intros o ->. by destruct (is_atomic_binop o). }
      { intros it n -> Hn Hrep. eapply tc_number; [exact Epl| |exact Hrep]. rewrite <- Hn. destruct (ex_quiet _ _ _ _ _ _ Hxx) as [Hsame _].
        unfold next_number. pose proof (f_equal (fun c => length (c_threads c)) Hsame) as H1. pose proof (f_equal c_locks Hsame) as H2.
        cbn in H1, H2. rewrite !map_length in H1. by rewrite H1, H2. }
      { intros o it ptr pty other al prev m3 -> -> -> Hld Hrep. by eapply tc_fetch. }
      { destruct Hig as [Hig _]. destruct op; try done; intros pt ->; by apply Hig. }
      { destruct Hig as [_ Hig]. destruct op; try done. intros v it i Hin Hrep. apply elem_of_list_In, elem_of_list_lookup in Hin as (k & Hk).
        destruct (Forall2_lookup_r _ _ _ _ _ HF Hk) as (t0 & Ht0 & Hs0 & _). cbn in Hs0. subst t0.
        destruct (Forall2_lookup_r _ _ _ _ _ Htys Ht0) as (e & He & He' & _). eapply Hig; [|exact He'|exact Hrep]. by apply elem_of_list_In, elem_of_list_lookup; exists k. }
      intros [[v m3] cs'] (Hm3 & Hf3 & Hpm & Hv). cbn [fst snd] in *. apply wp_bind. eapply wp_mono; [eapply place_store_wgood; [done|exact Hm3|exact Wr|exact Hv|]|].
      { eapply thin_in_mono; [exact Hpm|]. eapply thin_in_mono; [exact (ex_prov _ _ _ _ _ _ Hx2)|]. apply Hok. }
      intros m4 Hx4. destruct nb as [b|]; [|done]. apply jump_ret; [done..|apply Hx4|by eapply ext_framed].
    - apply obind_ret in Hw as (cty & Hcty & Hw). apply obind_ret in Hw as ([] & _ & Hw). apply obind_ret in Hw as (rty & Hret & Hw).
      apply obind_ret in Hw as ([] & Hrs & Hw). apply obind_ret in Hw as ([] & Hargs & _). apply sized_of in Hrs.
      destruct (args_typed args _ Hargs) as (tys & Htys); [by intros a Ha; apply Hg; constructor|]. clear Hargs.
      pose proof (args_wf tys args m Hm Hr Htys) as Wtys.
      destruct (pstep m ret rty Hm Hr Hret (Hg _ (te_call_ret _ _ _ _ _ _))) as [Wr Hpl].
      cbn [eval_terminator]. set (E := tcause m _). apply wp_bind. eapply wp_weaken; [by apply wp_eq|intros Hc; by eapply tc_expr; [constructor|]|].
      intros [[pl rty'] m1] [(Ety & Hok & Hx1) Epl]. cbn [fst snd] in *. subst rty'. clear Hpl.
      apply wp_bind. eapply wp_weaken; [apply wp_eq; eapply prepare_safe; [done..|apply Hx1|exact Wr|exact Hrs|apply Hok]|done|].
      intros m2 [Hx2 Eprep]. assert (Hr2 : running m2) by (eapply ext_running; [exact Hx2|]; by eapply ext_running).
      destruct (vstep m2 callee cty (ex_inv _ _ _ _ _ _ Hx2) Hr2 Hcty (Hg _ (te_callee _ _ _ _ _ _))) as [_ Hv].
      apply wp_bind. eapply wp_weaken; [by apply wp_eq|intros Hc; by eapply tc_expr; [eapply tr_callee|]|].
      intros [[cv ct] m3] [(_ & _ & Hx3) Ecal]. cbn [fst snd] in *. clear Hv. assert (Hr3 : running m3) by (by eapply ext_running).
      apply wp_bind. eapply wp_weaken; [eapply (fn_from_ptr_safe T MO SM prog); apply Hx3|done|]. intros fn Hfok.
      apply wp_bind. eapply wp_mono; [apply (map_st_gen _ (fun m e => ecause m (arg_expr e)) arg_wf E args tys) with (es1 := []) (vs1 := []) (m0 := m3)|].
      { intros a t0 m0 Ha Hm0 Hr0. by apply eval_argument_safe. }
      { exact Htys. }
      { done. }
      { apply Hx3. }
      { done. }
      { intros l a rr vs m4 Hl Hrun Hc. cbn in Hl. subst args. eapply tc_expr; [|exact Hc]. by eapply tr_call_arg. }
      intros [vs m4] [HF Hx4]. cbn [fst snd] in *. eapply eval_call_safe; [done..|apply Hx4| |done|done|done| |].
      { eapply ext_framed; [exact Hx4|]. by eapply running_framed. }
      { eapply ext_good; [exact Hx4|]. eapply ext_good; [exact Hx3|]. eapply ext_good; [exact Hx2|]. apply Hok. }
      { by eapply args_good. }
    - by eapply return_safe.
    - apply obind_ret in Hw as (ty & Hty & Hw). apply obind_ret in Hw as ([] & Heq & _). apply ensure_wf_ret, bool_decide_eq_true in Heq. subst ty.
      destruct (vstep m v _ Hm Hr Hty (Hg _ (te_payload _ _))) as [_ Hv].
      cbn [eval_terminator]. apply wp_bind. eapply wp_weaken; [exact Hv|intros Hc; by eapply tc_expr; [constructor|]|].
      intros [[x ty'] m1] (Ety & Hgood & Hx). cbn [fst snd] in *. subst ty'.
      pose proof Hgood as [Hlax [Hin _]]. inversion Hlax as [| |? p| | | |]; subst.
      destruct (ext_framed _ _ _ _ _ _ Hx Hf) as (f1 & Hf1). destruct (cur_frame_inv _ _ Hf1) as (t1 & r1 & Ht1 & Hs1).
      unfold active_thread. rewrite Ht1. cbn [unwrap obind]. apply jump_ret; [done..| |].
      + apply payloads_safe; [apply Hx|done|]. intros q [<-|Hq]; [right|by left]. split; [apply Hin|].
        destruct p as [th me]. by eapply good_addr.
      + apply payloads_framed; [by exists f1|done].
    - cbn [eval_terminator]. unfold active_thread. rewrite Ht. cbn [unwrap obind]. destruct (t_payloads t) as [|p0 ps] eqn:Eps; [done|].
      apply jump_ret; [done..| |].
      + apply payloads_safe; [done|done|]. intros q Hq. left. rewrite Eps. by right.
      + by apply payloads_framed.
    - by eapply resume_safe.
  Qed.
  End Terminator.

  (** ** Steps *)

  Notation top_ok := (top_ok T prog).
  Hypothesis Hstrict : strict_program T prog.

  Lemma start_safe (m : Mach) a : sinv m -> sinv (starting m a).
  Proof.
    intros Hm. eapply sinv_upd; [exact Hm|done|exact (sinv_memok T MO SM prog m Hm)|by intros ?|intros p Hp; left; apply has_ptr_iff in Hp; apply has_ptr_iff; exact Hp|intros pr Hpr; left; exact Hpr].
  Qed.

  Lemma frame_top (m : Mach) a t : reachable T MO prog m -> m_threads m !! a = Some t -> t_state t = Enabled ->
    exists f r n b, t_stack t = f :: r /\ top_ok f r /\ map_get (pr_functions prog) n = Some (f_func f) /\
      map_get (fn_blocks (f_func f)) (f_block f) = Some b /\ (f_stmt f <= length (bb_statements b))%nat.
  Proof.
    intros Hr Ht Hst. pose proof (reach_minv T MO BL Tok prog m Hr) as Hi.
    assert (Hwf : program_check_wf T prog = Ret tt) by apply Hi.
    destruct (reach_stack T MO prog (program_wf_blocks T prog Hwf) (st_start _ _ Hstrict) m a t Hr Ht) as (_ & Hso & _).
    specialize (Hso ltac:(by rewrite Hst)). unfold positions in Hso. destruct (t_stack t) as [|f r] eqn:Es; [by inversion Hso|].
    cbn [List.map] in Hso. destruct (stack_ok_frame _ _ _ Hso) as ((n & Hn) & b & Hb & Hlen). cbn in Hn. unfold block_of in Hb. cbn in Hb, Hlen.
    assert (Hfo : frame_of m a 0 f) by (exists t; by rewrite Es).
    exists f, r, n, b. split_and!; try done. split.
    - by eapply prog_fn.
    - by eapply minv_names.
    - intros l p Hin. assert (Hlo : local_of m a 0 l p).
      { exists f. split; [done|]. apply map_get_nodup; [|done]. by eapply minv_names. }
      destruct (reach_local T MO BL Tok prog m a 0 l p Hr Hlo) as (f' & id & ty & s & al & (t' & Ht' & Hk) & Hty & _).
      rewrite Ht in Ht'. injection Ht' as <-. rewrite Es in Hk. injection Hk as <-. by exists ty.
    - destruct (reach_params T MO BL Tok prog m a 0 f (fn_ret (f_func f)) Hr Hfo) as (p & f' & (t' & Ht' & Hk) & Hp); [by left|].
      rewrite Ht in Ht'. injection Ht' as <-. rewrite Es in Hk. injection Hk as <-. by exists p.
    - inversion Hso as [? _ Hact|? g r' ? ? ? ? ? ? ? ? _ Hact _ _ _ _]; subst; cbn in Hact.
      + split; [|done]. intros _. by destruct r.
      + rewrite Hact. by destruct r.
  Qed.

  Notation cause m := (exists a, panic_cause T MO (sm_bad SM) m a).

  Lemma step_safe (m : Mach) cs : reachable T MO prog m -> sinv m -> wp (cause m) (step T MO cs m) sinv.
  Proof.
    intros Hr Hm. unfold step. destruct (some_thread_in m Enabled); [|done]. cbn [negb].
    destruct (reset_data_race_tracking m) as [[ps pa] m1] eqn:Ereset.
    assert (Hm1 : forall a, set_active m1 a = starting m a) by (intros a; unfold starting; by rewrite Ereset).
    assert (Hth : forall i, thread_in m1 Enabled i = thread_in m Enabled i).
    { intros i. unfold reset_data_race_tracking in Ereset. cbn in Ereset. by injection Ereset as <- <- <-. }
    destruct cs as [|[?|a|?] cs]; try done. cbn [pick_thread]. rewrite Hth. destruct (thread_in m Enabled a) eqn:Ea; [|done].
    cbn [obind]. rewrite Hm1. unfold thread_in in Ea. destruct (m_threads m !! a) as [t|] eqn:Et; [|done]. apply bool_decide_eq_true in Ea.
    destruct (frame_top m a t Hr Et Ea) as (f & r & n & b & Hs & Htop & Hn & Hb & Hlen).
    assert (Ht' : m_threads (starting m a) !! m_active (starting m a) = Some t) by done.
    pose proof (start_safe m a Hm) as Hm'. pose proof (cur_frame_eq _ _ _ _ Ht' Hs) as Hcf.
    assert (Hen : enabled m a) by (unfold enabled, state_of; by rewrite Et, Ea).
    assert (Hib : in_block m a f b) by (by exists t, r).
    assert (Hfok : fn_ok T prog (f_func f)) by apply Htop.
    rewrite Hcf. cbn [obind]. rewrite Hb. cbn [unwrap obind].
    apply wp_bind. apply (wp_weaken (cause m) _ _ (fun x => sinv (fst x))); [|done|].
    - destruct (Nat.eqb_spec (f_stmt f) (length (bb_statements b))) as [Hst|Hst].
      + eapply wp_weaken; [eapply (eval_terminator_safe (f_func f) Hfok (bb_kind b)); [exact Hm'|exact Ht'|exact Hs|exact Htop|done| | |]| |].
        * by eapply (fo_term _ _ _ Hfok).
        * intros e He. by eapply (st_term _ _ Hstrict).
        * by eapply (st_intr _ _ Hstrict).
        * intros Hc. exists a. split; [done|]. right. exists (bb_terminator b). split; [by exists f, b|done].
        * done.
      + destruct (lookup_lt_is_Some_2 (bb_statements b) (f_stmt f)) as [s Hs']; [lia|]. rewrite Hs'. cbn [unwrap obind].
        assert (Hin : In s (bb_statements b)) by (by eapply elem_of_list_In, elem_of_list_lookup_2).
        apply wp_bind. eapply wp_weaken; [eapply (eval_statement_safe T MO SM Tok Std prog (st_methods _ _ Hstrict) (f_func f)); [apply Hfok|exact Hm'|by exists f| |]| |].
        * by eapply (fo_stmt _ _ _ Hfok).
        * intros e He. by eapply (st_stmt _ _ Hstrict).
        * intros Hc. exists a. split; [done|]. left. exists s. split; [by exists f, b|done].
        * intros [m2 cs2] [Hm2 (f2 & Hf2)]. cbn [fst] in *. rewrite Hf2. cbn [obind].
          apply wp_bind. eapply wp_weaken; [by eapply pc_safe|done|]. intros m3 Hm3. done.
    - intros [m2 cs2] Hm2. cbn [fst] in *. apply wp_bind. apply (wp_weaken False _ _ (fun _ => True)); [|done|by intros _ _].
      unfold cm_check_data_races. case_bool_decide; [done|]. generalize (cm_accesses (m_mem m2)). intros l.
      induction l as [|x l IH]; [done|]. cbn [for_each]. destruct (existsb _ _); [done|]. cbn [obind]. exact IH.
  Qed.
End SafeStep.
