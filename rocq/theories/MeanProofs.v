(** What steps do, in terms of what their expressions mean. *)
From Verif Require Export ExprProofs.
Local Open Scope Z_scope.
From Coq Require Import ZifyBool ZifyN ZifyNat.

Section Mean.
  Context {PE AE F : Type} `{EqDecision (nat * PE)}.
  Variable T : Target.
  Notation P := (nat * PE)%type.
  Notation M := (BMem PE AE).
  Notation Mach := (Machine P F M).
  Variable MO : MemOps P F M.
  Hypothesis BL : bm_like T MO.
  Hypothesis Tok : target_ok T.
  Hypothesis Hret : forall mem f ptr pt fe lk q mem' f', mo_retag MO mem f ptr pt fe lk = Ret (q, mem', f') -> same_dest ptr q.
  Implicit Types m : Mach.

  Notation vmean := (value_meaning T MO BL Tok Hret).
  Notation pmean := (place_meaning T MO BL Tok Hret).

  Lemma at_place_means p m pl ty m1 : at_place T MO p m pl ty m1 -> place_means T m p (pl_ptr pl) true ty /\ still m m1.
  Proof. intros [E Ha]. rewrite <-Ha. by eapply pmean; [apply still_refl|]. Qed.
  Lemma evals_mean m m1 es vals m2 : still m m1 -> evals T MO m1 es vals m2 -> all_mean T m es vals /\ still m m2.
  Proof.
    intros Hst He. revert Hst. induction He as [m1|m1 e r v ty m2 vs m3 Hv He IH]; intros Hst; [by split; [constructor|]|].
    destruct (vmean _ _ _ _ _ _ Hst Hv) as [H1 H2]. destruct (IH H2) as [H3 H4]. split; [by constructor|done].
  Qed.
  Lemma quiet_only m m' p bs : quiet m m' -> writes m m' p bs -> only_writes m m' p bs.
  Proof.
    intros [Hs Hv] Hw. split; [done|]. split; [by apply same_same_control|]. intros. by apply alike_object.
  Qed.
  Lemma still_only m m' : still m m' -> (forall id i, cell m' id i = cell m id i) /\ same_control m m' /\
    (forall p id k s al, object_at m' p id k s al <-> object_at m p id k s al).
  Proof.
    intros [H1 H2]. split; [intros id i; by apply alike_cell|]. split; [by apply same_same_control|]. intros. by apply alike_object, H2.
  Qed.
  Lemma still_holds' m m1 p ty v : still m m1 -> holds T m1 p ty v -> holds T m p ty v.
  Proof. apply still_holds. Qed.
  Lemma still_quiet m m1 m2 p bs : still m m1 -> quiet m1 m2 -> writes m1 m2 p bs -> only_writes m m2 p bs.
  Proof.
    intros [S A] [S' V] Hw. apply quiet_only; [split; [by eapply same_trans|]|].
    - by rewrite V, (proj1 A).
    - eapply alike_writes; [exact A|apply alike_refl|exact Hw].
  Qed.
  Lemma still_designates m m1 v func : still m m1 -> fn_from_ptr m1 v = Ret func -> designates m v func.
  Proof.
    intros Hst (n & p & -> & Hin & Hg)%fn_designates. rewrite (still_fnptrs _ _ Hst) in Hin. rewrite (still_prog _ _ Hst) in Hg. by exists n, p.
  Qed.
  Lemma args_meaning m1 args vals moved m2 : args_eval T MO m1 args vals moved m2 ->
    forall m, still m m1 -> args_mean T m args vals moved.
  Proof.
    induction 1 as [m1|m1 e r v ty m2 vs mv m3 Hv He IH|m1 p r pl ty s v m2 m3 m4 vs mv m5 Hp Hl Hsz Hpr Her He IH]; intros m Hst.
    - constructor.
    - destruct (vmean _ _ _ _ _ _ Hst Hv) as [H1 H2]. constructor; [done|]. by apply IH.
    - destruct (pmean _ _ _ _ _ _ Hst Hp) as [H1 H2]. pose proof (place_load_still T MO BL m2 pl ty) as H3. rewrite Hl in H3.
      pose proof (place_load_valid T MO BL Tok m m2 _ _ _ _ H2 Hl) as Hva. apply (place_load_holds T MO BL) in Hl as [Hal Hl]. rewrite Hal in H1.
      destruct (prepare_erases T MO BL _ _ _ _ Hpr) as (s' & Hs' & Hq & Hw). assert (s' = s) as -> by congruence.
      econstructor; [exact H1|eapply still_holds; [exact H2|exact Hl]|exact Hva|exact Hsz| |apply IH, still_refl].
      eapply still_quiet; [|exact Hq|exact Hw]. by eapply still_trans.
  Qed.

  (** ** Statements *)

  Lemma mean_assign m m' d s : steps_to T MO m m' -> at_statement m (m_active m') (SAssign d s) ->
    exists ptr ty v vt bs, place_means T (turn m (m_active m')) d ptr true ty /\ value_means T (turn m (m_active m')) s v vt /\
      encode T ty v = Ret bs /\ writes m m' (p_thin ptr) bs.
  Proof.
    intros Hs Ha. destruct (step_assign T MO BL _ _ _ _ Hs Ha) as (pl & ty & m1 & v & vt & m2 & bs & Hp & Hv & Hb & Hw).
    apply at_place_means in Hp as [Hp Hst]. destruct (vmean _ _ _ _ _ _ Hst Hv) as [Hv' _]. exists (pl_ptr pl), ty, v, vt, bs. done.
  Qed.
  Lemma mean_deinit m m' p : steps_to T MO m m' -> at_statement m (m_active m') (SDeinit p) ->
    exists ptr ty s, place_means T (turn m (m_active m')) p ptr true ty /\ size_of T ty = Ret s /\ erases m m' (p_thin ptr) s.
  Proof.
    intros Hs Ha. destruct (step_deinit T MO BL _ _ _ Hs Ha) as (pl & ty & s & m1 & Hp & Hsz & Hw).
    apply at_place_means in Hp as [Hp Hst]. exists (pl_ptr pl), ty, s. done.
  Qed.
  Lemma mean_set_discr m m' p v : steps_to T MO m m' -> at_statement m (m_active m') (SSetDiscriminant p v) ->
    exists ptr variants dty d s al vty tags, place_means T (turn m (m_active m')) p ptr true (TEnum variants dty d s al) /\
      map_get variants v = Some (vty, tags) /\ keeps m m' (tag_cells m (p_thin ptr) tags) /\
      forall l1 o it x l2, tags = l1 ++ (o, (it, x)) :: l2 ->
        Forall (fun e => (o + it_size it <= fst e)%N \/ (fst e + it_size (fst (snd e)) <= o)%N) l2 ->
        exists bs, encode T (TInt it) (VInt x) = Ret bs /\ stores_at m' (past (p_thin ptr) o) bs.
  Proof.
    intros Hs Ha. destruct (step_set_discr T MO BL _ _ _ _ Hs Ha) as (pl & vs & dty & d & s & al & m1 & vty & tags & Hp & Hv & Hk & Hl).
    apply at_place_means in Hp as [Hp Hst]. exists (pl_ptr pl), vs, dty, d, s, al, vty, tags. done.
  Qed.
  Lemma mean_validate m m' p fe : steps_to T MO m m' -> at_statement m (m_active m') (SValidate p fe) ->
    exists ptr ty v w bs, place_means T (turn m (m_active m')) p ptr true ty /\ holds T m (p_thin ptr) ty v /\
      valid T (turn m (m_active m')) ty v /\ retagged v w /\
      encode T ty w = Ret bs /\ writes m m' (p_thin ptr) bs.
  Proof.
    intros Hs Ha. destruct (step_validate T MO BL Hret _ _ _ _ Hs Ha) as (pl & ty & m1 & v & w & bs & Hp & [m2 Hl] & Hv & Hrt & Hb & Hw).
    apply at_place_means in Hp as [Hp Hst]. exists (pl_ptr pl), ty, v, w, bs. split; [done|]. split; [done|]. split; [|done].
    eapply (place_load_valid T MO BL Tok); [exact Hst|exact Hl].
  Qed.

  (** ** Terminators *)

  Lemma mean_call prog m m' callee conv args ret nb ub : minv T prog m -> steps_to T MO m m' ->
    at_terminator m (m_active m') (TmCall callee conv args ret nb ub) ->
    exists rptr al rty rs m1 fv fty func vals moved f st st',
      place_means T (turn m (m_active m')) ret rptr al rty /\ size_of T rty = Ret rs /\
      only_writes (turn m (m_active m')) m1 (p_thin rptr) (repeat Uninit (N.to_nat rs)) /\
      value_means T m1 callee fv fty /\ designates m fv func /\ args_mean T m1 args vals moved /\
      stack_of m (m_active m') st /\ stack_of m' (m_active m') (f :: st') /\ Forall2 same_frame st st' /\
      f_func f = func /\ f_block f = fn_start func /\ f_stmt f = 0%nat /\ f_action f = BackToCaller nb ub (p_thin rptr) /\
      Forall2 (local_holds T m' f) (fn_args func) vals /\
      keeps m m' (fun id j => cell_in m (p_thin rptr) (N.to_nat rs) id j \/
                    exists q s, In (q, s) moved /\ cell_in m q (N.to_nat s) id j) /\
      conv = fn_conv func /\
      (exists rt, map_get (fn_locals func) (fn_ret func) = Some rt /\ check_abi_compatibility rty rt = Ret true) /\
      Forall2 (fun l arg => exists ty, map_get (fn_locals func) l = Some ty /\ check_abi_compatibility (snd arg) ty = Ret true) (fn_args func) vals.
  Proof.
    intros Hi Hs Ha. destruct (step_call_data T MO BL Tok _ _ _ _ _ _ _ _ _ Hi Hs Ha) as
      (rp & rty & rs & m1 & m2 & fv & fty & m3 & func & vals & moved & m4 & f & st & st' & Hp & Hrs & Hpr & Hv & Hf & Harg & Hrest).
    destruct (pmean _ _ _ _ _ _ (still_refl _) Hp) as [Hp' H1]. destruct (prepare_erases T MO BL _ _ _ _ Hpr) as (s' & Hs' & Hq & Hw).
    assert (s' = rs) as -> by congruence. destruct (vmean _ _ _ _ _ _ (still_refl m2) Hv) as [Hv' H3].
    exists (pl_ptr rp), (pl_aligned rp), rty, rs, m2, fv, fty, func, vals, moved, f, st, st'. split; [done|]. split; [done|].
    split; [by eapply still_quiet|]. split; [done|]. split; [|split; [by eapply args_meaning|exact Hrest]].
    destruct (still_designates _ _ _ _ H3 Hf) as (n & p & -> & Hin & Hg). exists n, p. split; [done|].
    assert (same (turn m (m_active m')) m2) as S by (eapply same_trans; [apply H1|apply Hq]).
    replace (m_fnptrs m2) with (m_fnptrs m) in Hin by (symmetry; exact (f_equal c_fnptrs S)).
    replace (m_prog m2) with (m_prog m) in Hg by (symmetry; exact (f_equal c_prog S)). done.
  Qed.
  Lemma mean_switch m m' v cases fb : steps_to T MO m m' -> at_terminator m (m_active m') (TmSwitch v cases fb) ->
    exists i ty b, value_means T (turn m (m_active m')) v (VInt i) ty /\ selects cases fb i b /\
      top_moves m m' (m_active m') (jumped b) (fun x y => y = x).
  Proof.
    intros Hs Ha. destruct (step_switch T MO BL _ _ _ _ _ Hs Ha) as (i & ty & m1 & b & Hv & Hsel & Ht).
    destruct (vmean _ _ _ _ _ _ (still_refl _) Hv) as [Hv' _]. by exists i, ty, b.
  Qed.
  Lemma mean_start_unwind m m' v b : steps_to T MO m m' -> at_terminator m (m_active m') (TmStartUnwind v b) ->
    exists p, value_means T (turn m (m_active m')) v (VPtr p) (TPtr (PRaw MKNone)) /\
      top_moves m m' (m_active m') (jumped b) (fun x y => y = p_thin p :: x).
  Proof.
    intros Hs Ha. destruct (step_start_unwind T MO BL _ _ _ _ Hs Ha) as (p & m1 & Hv & Ht).
    destruct (vmean _ _ _ _ _ _ (still_refl _) Hv) as [Hv' _]. by exists p.
  Qed.

  (** ** Intrinsics *)

  Lemma mean_intr_gives prog m m' op args ret nb : minv T prog m -> steps_to T MO m m' ->
    at_terminator m (m_active m') (TmIntrinsic op args ret nb) ->
    match op with InRawEq | InAtomicStore | InAtomicLoad | InAtomicCompareExchange | InAtomicFetchAndOp _ => False | _ => True end ->
    exists rptr rty vals v mid bs, place_means T (turn m (m_active m')) ret rptr true rty /\
      all_mean T (turn m (m_active m')) args vals /\ intr_gives T (m_active m') m mid op vals v /\ keeps_all m mid /\
      encode T rty v = Ret bs /\ writes mid m' (p_thin rptr) bs.
  Proof.
    intros Hi Hs Ha Hop. destruct (step_intr_gives T MO BL Tok Hret _ _ _ _ _ _ _ Hi Hs Ha Hop) as (rp & rty & m1 & vals & m2 & v & mid & bs & Hp & Hv & Hrest).
    apply at_place_means in Hp as [Hp Hst]. destruct (evals_mean _ _ _ _ _ Hst Hv) as [Hv' _]. exists (pl_ptr rp), rty, vals, v, mid, bs. done.
  Qed.
  Lemma all_mean_inv1 m es x : all_mean T m es [x] -> exists e, es = [e] /\ value_means T m e (fst x) (snd x).
  Proof. intros HF. inversion HF as [|e ? es' ? He Hn]; subst. inversion Hn; subst. by exists e. Qed.
  Lemma mean_atomic_load m m' args ret nb : steps_to T MO m m' -> at_terminator m (m_active m') (TmIntrinsic InAtomicLoad args ret nb) ->
    exists rptr rty p pty v bs, place_means T (turn m (m_active m')) ret rptr true rty /\
      all_mean T (turn m (m_active m')) args [(VPtr (mkPtr p None), pty)] /\ holds T m p rty v /\
      encode T rty v = Ret bs /\ writes m m' (p_thin rptr) bs.
  Proof.
    intros Hs Ha. destruct (step_atomic_load T MO BL _ _ _ _ _ Hs Ha) as (rp & rty & m1 & p & pty & m2 & v & bs & Hp & Hv & Hrest).
    apply at_place_means in Hp as [Hp Hst]. destruct (evals_mean _ _ _ _ _ Hst Hv) as [Hv' _]. exists (pl_ptr rp), rty, p, pty, v, bs. done.
  Qed.
  Lemma mean_atomic_store m m' args ret nb : steps_to T MO m m' -> at_terminator m (m_active m') (TmIntrinsic InAtomicStore args ret nb) ->
    exists rptr rty p pty v ty bs, place_means T (turn m (m_active m')) ret rptr true rty /\
      all_mean T (turn m (m_active m')) args [(VPtr (mkPtr p None), pty); (v, ty)] /\ encode T ty v = Ret bs /\ writes m m' p bs.
  Proof.
    intros Hs Ha. destruct (step_atomic_store T MO BL _ _ _ _ _ Hs Ha) as (rp & rty & m1 & p & pty & v & ty & m2 & bs & Hp & Hv & Hrest).
    apply at_place_means in Hp as [Hp Hst]. destruct (evals_mean _ _ _ _ _ Hst Hv) as [Hv' _]. exists (pl_ptr rp), rty, p, pty, v, ty, bs. done.
  Qed.
  Lemma mean_compare_exchange m m' args ret nb : steps_to T MO m m' ->
    at_terminator m (m_active m') (TmIntrinsic InAtomicCompareExchange args ret nb) ->
    exists rptr it p pty cur next old bs mid, place_means T (turn m (m_active m')) ret rptr true (TInt it) /\
      all_mean T (turn m (m_active m')) args [(VPtr (mkPtr p None), pty); (cur, TInt it); (next, TInt it)] /\
      holds T m p (TInt it) old /\
      (cur = old -> exists bs', encode T (TInt it) next = Ret bs' /\ writes m mid p bs') /\ (cur <> old -> keeps_all m mid) /\
      encode T (TInt it) old = Ret bs /\ writes mid m' (p_thin rptr) bs.
  Proof.
    intros Hs Ha. destruct (step_compare_exchange T MO BL _ _ _ _ _ Hs Ha) as (rp & it & m1 & p & pty & cur & next & old & m2 & bs & mid & Hp & Hv & Hrest).
    apply at_place_means in Hp as [Hp Hst]. destruct (evals_mean _ _ _ _ _ Hst Hv) as [Hv' _]. exists (pl_ptr rp), it, p, pty, cur, next, old, bs, mid. done.
  Qed.
  Lemma mean_fetch_op m m' op args ret nb : steps_to T MO m m' ->
    at_terminator m (m_active m') (TmIntrinsic (InAtomicFetchAndOp op) args ret nb) ->
    exists rptr it p pty x old new bs bs' mid, place_means T (turn m (m_active m')) ret rptr true (TInt it) /\
      all_mean T (turn m (m_active m')) args [(VPtr (mkPtr p None), pty); (VInt x, TInt it)] /\ holds T m p (TInt it) (VInt old) /\
      eval_int_bin_op op old x it = Ret new /\
      encode T (TInt it) (VInt new) = Ret bs' /\ writes m mid p bs' /\
      encode T (TInt it) (VInt old) = Ret bs /\ writes mid m' (p_thin rptr) bs.
  Proof.
    intros Hs Ha. destruct (step_fetch_op T MO BL _ _ _ _ _ _ Hs Ha) as (rp & it & m1 & p & pty & x & old & new & m2 & bs & bs' & mid & Hp & Hv & Hrest).
    apply at_place_means in Hp as [Hp Hst]. destruct (evals_mean _ _ _ _ _ Hst Hv) as [Hv' _]. exists (pl_ptr rp), it, p, pty, x, old, new, bs, bs', mid. done.
  Qed.
  Lemma mean_raw_eq m m' args ret nb : steps_to T MO m m' -> at_terminator m (m_active m') (TmIntrinsic InRawEq args ret nb) ->
    exists rptr p q mu pi s al bs1 d1 bs2 d2 bs, place_means T (turn m (m_active m')) ret rptr true TBool /\
      all_mean T (turn m (m_active m')) args [(VPtr p, TPtr (PRef mu pi)); (VPtr q, TPtr (PRef mu pi))] /\ pi_layout pi = LSized s al /\
      length bs1 = N.to_nat s /\ stores_at m (p_thin p) bs1 /\ Forall2 (fun b x => exists o, b = Init x o) bs1 d1 /\
      length bs2 = N.to_nat s /\ stores_at m (p_thin q) bs2 /\ Forall2 (fun b x => exists o, b = Init x o) bs2 d2 /\
      encode T TBool (VBool (bool_decide (d1 = d2))) = Ret bs /\ writes m m' (p_thin rptr) bs.
  Proof.
    intros Hs Ha. destruct (step_raw_eq T MO BL _ _ _ _ _ Hs Ha) as (rp & m1 & p & q & mu & pi & s & al & m2 & bs1 & d1 & bs2 & d2 & bs & Hp & Hv & Hrest).
    apply at_place_means in Hp as [Hp Hst]. destruct (evals_mean _ _ _ _ _ Hst Hv) as [Hv' _]. exists (pl_ptr rp), p, q, mu, pi, s, al, bs1, d1, bs2, d2, bs. done.
  Qed.
End Mean.
