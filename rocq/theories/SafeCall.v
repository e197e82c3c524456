(** New frames of accepted programs keep the safety invariant: the arguments always fit their locals. *)
From Verif Require Export SafeStmt.
From stdpp Require Import relations.
From Coq Require Import ZifyBool ZifyN ZifyNat.
Local Open Scope Z_scope.

(** ** What the check asks of a function *)

Lemma args_nodup (locals : list (LocalName * Ty)) l live r :
  fold_m (fun live arg =>
    let! _ := ensure_wf (map_contains locals arg) "Function: argument local does not exist" in
    if bool_decide (arg ∈ live) then throw_ill_formed "Function: two arguments refer to the same local"
    else Ret (arg :: live)) l live = Ret r -> NoDup live ->
  NoDup r /\ (forall x, x ∈ r <-> x ∈ l \/ x ∈ live) /\ Forall (fun x => map_contains locals x = true) l /\ NoDup l.
Proof.
  revert live. induction l as [|x l IH]; intros live H Hn; cbn [fold_m] in H.
  - injection H as <-. split; [done|]. split; [|split; constructor]. intros x. rewrite elem_of_nil. tauto.
  - apply obind_ret in H as (live1 & H1 & H). apply obind_ret in H1 as ([] & Hc & H1). apply ensure_wf_ret in Hc.
    case_bool_decide as Hx; [done|]. injection H1 as <-. destruct (IH _ H) as (Hr & Hi & HF & Hl); [by constructor|].
    split; [done|]. split; [|split; [by constructor|]].
    + intros y. rewrite Hi, !elem_of_cons. tauto.
    + constructor; [|done]. intros Hin.
      (* every name of [l] is new when it is added *)
      clear IH Hi HF Hr Hl Hn. revert Hx Hin H. clear. intros Hx Hin H.
      assert (Hl : x ∈ x :: live) by (by left). revert Hl H. generalize (x :: live). clear Hx. induction l as [|y l IH]; intros lv Hl H; [by apply elem_of_nil in Hin|].
      cbn [fold_m] in H. apply obind_ret in H as (lv1 & H1 & H). apply obind_ret in H1 as ([] & _ & H1).
      case_bool_decide as Hy; [done|]. injection H1 as <-. apply elem_of_cons in Hin as [->|Hin]; [done|].
      eapply IH; [done| |exact H]. by right.
Qed.

Record fn_ok (T : Target) (prog : Program) (func : Function) : Prop := {
  fo_locals : forall n ty, map_get (fn_locals func) n = Some ty -> ty_check_wf T any_trait ty = Ret tt /\ sized T ty;
  fo_names : NoDup (fn_ret func :: fn_args func);
  fo_known : Forall (fun n => exists ty, map_get (fn_locals func) n = Some ty) (fn_ret func :: fn_args func);
  fo_stmt : forall b blk s, map_get (fn_blocks func) b = Some blk -> In s (bb_statements blk) -> statement_check_wf T prog func s = Ret tt;
  fo_term : forall b blk, map_get (fn_blocks func) b = Some blk -> terminator_check_wf T prog func (bb_kind blk) (bb_terminator blk) = Ret tt;
}.
Lemma fn_check T prog func : function_check_wf T prog func = Ret tt -> fn_ok T prog func.
Proof.
  unfold function_check_wf. intros H. apply obind_ret in H as ([] & H1 & H). apply obind_ret in H as (live & H2 & H).
  apply obind_ret in H as ([] & H3 & H). apply obind_ret in H as ([] & H4 & H). apply ensure_wf_ret in H3. case_bool_decide as Hr; [done|].
  apply for_each_ret in H1, H. rewrite List.Forall_forall in H1, H.
  destruct (args_nodup _ _ _ _ H2) as (_ & Hi & HF & Hn); [constructor|].
  assert (Hc : forall n, map_contains (fn_locals func) n = true -> exists ty, map_get (fn_locals func) n = Some ty).
  { intros n. unfold map_contains. destruct (map_get _ _); [by eexists|done]. }
  split.
  - intros n ty Hg. apply map_get_in in Hg. pose proof (H1 _ Hg) as Hl. apply obind_ret in Hl as ([] & Hs & Hw). split; [by eapply to_any|by eapply sized_of].
  - constructor; [|done]. intros Hin. apply Hr. apply Hi. by left.
  - constructor; [by apply Hc|]. eapply Forall_impl; [exact HF|]. intros n. apply Hc.
  - intros b blk s Hb Hs. apply map_get_in in Hb. pose proof (H _ Hb) as Hw. apply obind_ret in Hw as ([] & Hw & _).
    apply for_each_ret in Hw. rewrite List.Forall_forall in Hw. by apply Hw.
  - intros b blk Hb. apply map_get_in in Hb. pose proof (H _ Hb) as Hw. by apply obind_ret in Hw as ([] & _ & Hw).
Qed.
Lemma prog_fn T prog n func : program_check_wf T prog = Ret tt -> map_get (pr_functions prog) n = Some func -> fn_ok T prog func.
Proof.
  unfold program_check_wf. intros H Hg. apply obind_ret in H as ([] & _ & H). apply obind_ret in H as ([] & H & _).
  apply for_each_ret in H. rewrite List.Forall_forall in H. apply fn_check. by apply (H _ (map_get_in _ _ _ Hg)).
Qed.

Section SafeCall.
  Context {PE AE F : Type} `{EqDecision (nat * PE)}.
  Variable T : Target.
  Variable MO : MemOps (nat * PE) F (BMem PE AE).
  Variable SM : safe_mem T MO.
  Hypothesis Tok : target_ok T.
  Hypothesis Std : target_std T.
  Variable prog : Program.
  Notation P := (nat * PE)%type.
  Notation M := (BMem PE AE).
  Notation Mach := (Machine P F M).
  Notation BL := (sm_like SM).
  Notation sinv := (sinv T MO SM prog).
  Notation ext := (ext T MO SM prog).
  Notation vok := (vok T MO SM).
  Notation prov_ok := (prov_ok T MO SM).
  Notation good_ptr := (good_ptr T MO SM).
  Notation wfT ty := (ty_check_wf T any_trait ty = Ret tt).
  Notation good := (good T MO SM).
  Notation memok := (memok T MO SM).
  Notation pmono := (pmono T MO SM).
  Notation pok := (pok T MO SM).

  (** replacing the memory *)
  Lemma sinv_mem (m : Mach) mem : sinv m -> memok (cm_mem mem) (extras m) -> pmono (memof m) (cm_mem mem) -> sinv (set_mem m mem).
  Proof.
    intros Hm Hok Hp. eapply sinv_upd; [exact Hm|done|exact Hok|exact Hp| |]; intros x Hx; by left.
  Qed.
  Lemma good_grows E (m m' : Mach) ty v : grows m m' -> m_vtptrs m' = m_vtptrs m -> m_prog m' = m_prog m ->
    pmono (memof m) (memof m') -> good E m ty v -> good E m' ty v.
  Proof.
    intros Hg Hv Hp Hpm (H1 & H2 & H3). split; [|split; [|done]].
    - eapply lax_mono; [|exact H1]. intros p pt Hc. exact (grows_value T MO SM Tok _ _ (TPtr pt) (VPtr p) Hg Hv Hp Hc).
    - eapply val_in_mono; [exact Hpm|done].
  Qed.

  Section Frame.
    Variable func : Function.
    Hypothesis Hfn : fn_ok T prog func.
    Notation locals := (fn_locals func).
    Notation names := (fn_ret func :: fn_args func).

    (** the local is fresh memory of the size and alignment of its type *)
    Definition slotok (mem : M) (e : LocalName * ThinPtr P) : Prop :=
      exists ty id pe, map_get locals (fst e) = Some ty /\ tp_prov (snd e) = Some (id, pe) /\ sm_root SM mem id pe /\
        mv mem !! id = Some (mkAV (tp_addr (snd e)) (tsize T ty) (talign T ty) AStack true).

    Lemma live_all m action cs : sinv m ->
      wp False (fold_m (fun '(f, mem, cs) local => storage_live T MO f mem local cs) names
          (mkFrame func [] action (fn_start func) 0 (mo_new_call MO), m_mem m, cs))
        (fun r => let '(f, mem, _) := r in
          memok (cm_mem mem) (extras m) /\ pmono (memof m) (cm_mem mem) /\ (exists tl, mv (cm_mem mem) = mview m ++ tl) /\
          exists ls, f = mkFrame func ls action (fn_start func) 0 (mo_new_call MO) /\ List.map fst ls = names /\
            Forall (fun e => slotok (cm_mem mem) e /\ pok (cm_mem mem) (snd e)) ls).
    Proof.
      intros Hm.
      pose proof (wp_fold_m (fun '(f, mem, cs) local => storage_live T MO f mem local cs) False
        (fun i r => let '(f, mem, _) := r in
          memok (cm_mem mem) (extras m) /\ pmono (memof m) (cm_mem mem) /\ (exists tl, mv (cm_mem mem) = mview m ++ tl) /\
          exists ls, f = mkFrame func ls action (fn_start func) 0 (mo_new_call MO) /\ List.map fst ls = take i names /\
            Forall (fun e => slotok (cm_mem mem) e /\ pok (cm_mem mem) (snd e)) ls) names
        (mkFrame func [] action (fn_start func) 0 (mo_new_call MO), m_mem m, cs)) as Hloop.
      eapply wp_mono; [apply Hloop; clear Hloop|].
      - split; [by eapply sinv_memok|]. split; [by intros ?|]. split; [exists []; by rewrite app_nil_r|]. exists []. split; [done|]. split; [done|constructor].
      - intros i x [[f mem] cs1] Hx (H1 & H2 & (tl & H3) & ls & -> & H4 & H5). unfold storage_live, storage_dead. cbn [f_func f_locals].
        pose proof (fo_known _ _ _ Hfn) as Hk. rewrite Forall_lookup in Hk. destruct (Hk _ _ Hx) as [ty Hty]. destruct (fo_locals _ _ _ Hfn _ _ Hty) as [Wt St].
        rewrite Hty. cbn [unwrap obind]. rewrite (sized_tsize _ _ St). cbn [obind]. rewrite (sized_talign _ _ St). cbn [obind].
        assert (Hno : map_get ls x = None).
        { destruct (map_get ls x) as [p|] eqn:E; [|done]. exfalso. apply map_get_in in E. apply (in_map fst) in E. rewrite H4 in E. cbn [fst] in E.
          apply elem_of_list_In, elem_of_list_lookup in E as [j Hj]. apply lookup_take_Some in Hj as [Hj Hlt].
          pose proof (NoDup_lookup _ _ _ _ (fo_names _ _ _ Hfn) Hx Hj). lia. }
        rewrite Hno. cbn [obind f_func]. rewrite Hty. cbn [unwrap obind]. rewrite (sized_tsize _ _ St). cbn [obind]. rewrite (sized_talign _ _ St). cbn [obind].
        apply wp_bind. apply wp_safe; [by destruct cs1 as [|[]]|]. intros [ad cs2] _. apply wp_bind. unfold cm_allocate. apply wp_bind.
        eapply wp_mono; [by apply alloc_ok|]. intros [p mem'] (M1 & M2 & M3 & M4 & (pe & M5 & M6) & M7). cbn [wp cm_mem cm_set].
        split; [done|]. split; [by eapply pmono_trans|]. split; [exists (tl ++ [mkAV (tp_addr p) (tsize T ty) (talign T ty) AStack true]); by rewrite M4, H3, app_assoc|].
        exists (ls ++ [(x, p)]). unfold with_locals. cbn [f_func f_locals f_action f_block f_stmt f_extra]. rewrite (map_insert_none _ _ _ Hno). split; [done|].
        split; [rewrite map_app, H4; symmetry; by apply take_S_r|]. apply Forall_app. split.
        + eapply Forall_impl; [exact H5|]. intros [n q] [(ty' & id & pe' & E1 & E2 & E3 & E4) Hq]. split; [|by eapply pok_mono].
          exists ty', id, pe'. split_and!; try done; [by apply M7|]. rewrite M4. by apply lookup_app_l_Some.
        + constructor; [|constructor]. split; [|done]. exists ty, (length (cm_mem mem)), pe. split_and!; try done.
          rewrite M4. assert (El : length (mv (cm_mem mem)) = length (cm_mem mem)) by apply map_length. rewrite lookup_app_r, El, Nat.sub_diag by lia. done.
      - intros [[f mem] cs1] (H1 & H2 & H3 & ls & H4 & H5 & H6). split; [done|]. split; [done|]. split; [done|]. exists ls. rewrite firstn_all in H5. done.
    Qed.

    (** a store of a well-formed value to a fresh local succeeds *)
    Lemma fresh_store (m : Mach) e ty sty v : sinv m -> slotok (memof m) e -> thin_in (prov_ok m) (snd e) -> map_get locals (fst e) = Some ty ->
      wfT sty -> layout T sty = layout T ty -> sized T sty -> vok m sty v ->
      exists m', typed_store T MO m (snd e) v sty (talign T sty) NonAtomic = Ret m' /\ ext m m' /\ (exists mem, m' = set_mem m mem) /\
        forall e', slotok (memof m) e' -> slotok (memof m') e'.
    Proof.
      intros Hm (ty' & id & pe & E1 & E2 & E3 & E4) Hp Ety Wt Hlay St Hv. rewrite Ety in E1. injection E1 as <-.
      pose proof (typed_store_safe T MO SM Tok prog any_trait m (snd e) v sty (talign T sty) NonAtomic Hm Wt Hv Hp) as Hsafe.
      unfold typed_store in *. destruct Hv as [Hc Hin]. rewrite Hc in *. cbn [is_ok obind assert_] in *.
      destruct (encode_total T Tok any_trait sty v Wt (check_value_shape T _ _ _ Hc)) as (b & Hb & _). rewrite Hb in *. cbn [obind] in *.
      pose proof (encode_length T Tok any_trait sty v b Wt (check_value_shape T _ _ _ Hc) Hb) as Hlen.
      assert (Hts : tsize T ty = tsize T sty) by (unfold tsize, size_of; by rewrite Hlay).
      assert (Hta : talign T ty = talign T sty) by (unfold talign, align_of; by rewrite Hlay).
      assert (Hal : is_aligned (talign T sty) (tp_addr (snd e)) = true).
      { destruct (si_fit _ _ _ _ _ Hm) as [Hf _]. destruct (Hf _ _ E4) as (_ & Hmod & _). cbn [v_addr v_align] in Hmod. rewrite Hta in Hmod.
        unfold is_aligned. by apply Z.eqb_eq. }
      rewrite mv_lookup in E4. destruct (memof m !! id) as [a|] eqn:Ha; [|done]. cbn [option_map] in E4. unfold view in E4.
      injection E4 as Ea Es Eal Ek El.
      unfold cm_store in *. cbn [cm_push cm_mem] in *. destruct (snd e) as [ad pr] eqn:Ee. cbn [tp_addr tp_prov] in *. subst pr.
      destruct (sm_root_store _ _ SM (memof m) (extras m) id pe a ad b (talign T sty)) as (mem' & Hst & Hroots).
      - apply Hm.
      - done.
      - done.
      - done.
      - done.
      - done.
      - rewrite Es, Hts. lia.
      - unfold memof in Hst. rewrite Hst in *. cbn [obind] in *. eexists. split; [done|]. split; [exact Hsafe|]. split; [by eexists|].
        intros e' (ty' & id' & pe' & F1 & F2 & F3 & F4). exists ty', id', pe'. split_and!; try done; [by apply Hroots|].
        pose proof (ex_quiet _ _ _ _ _ _ Hsafe) as [_ Hmv]. unfold mview in Hmv. unfold memof in *. by rewrite Hmv.
    Qed.

    Lemma map_get_names ls n : List.map fst ls = names -> n ∈ names -> exists p, map_get (V := ThinPtr P) ls n = Some p.
    Proof.
      intros Hls Hn. destruct (map_get ls n) as [p|] eqn:E; [by exists p|]. exfalso. apply map_get_none_in in E. apply E. rewrite Hls. by apply elem_of_list_In.
    Qed.

    (** the arguments are stored in their locals *)
    Lemma fill_args (E : Prop) (m : Mach) ls as_ : List.map fst ls = names -> forall args, length as_ = length args ->
      (forall n, n ∈ as_ -> n ∈ names) -> Forall (fun n => exists ty, map_get locals n = Some ty) as_ -> forall m1 : Mach, sinv m1 ->
      Forall (fun a => wfT (snd a) /\ sized T (snd a) /\ good E m1 (snd a) (fst a)) args -> pmono (memof m) (memof m1) ->
      (exists mem, m1 = set_mem m mem) -> Forall (fun e => slotok (memof m1) e /\ pok (memof m1) (snd e)) ls ->
      wp E (fold_m2 (fun m callee_local arg =>
          let! ty := unwrap (map_get locals callee_local) in
          let! ok := check_abi_compatibility (snd arg) ty in
          if negb ok then throw_ub "call ABI violation: argument types are not compatible" else
          let! align := align_of T (snd arg) in
          let! ptr := unwrap (map_get ls callee_local) in
          expect_ok (typed_store T MO m ptr (fst arg) (snd arg) align NonAtomic)) as_ args m1)
        (fun m' => sinv m' /\ (exists mem, m' = set_mem m mem) /\ pmono (memof m) (memof m') /\
          forall n p, In (n, p) ls -> pok (memof m') p).
    Proof.
      intros H4. induction as_ as [|x as_ IH]; intros args Elen Hns Hk' m1 Hm1 Hargs1 Hp0 Hx0 H5; destruct args as [|[v sty] args]; try done.
      - cbn. split; [done|]. split; [done|]. split; [done|]. intros n p Hin. rewrite List.Forall_forall in H5. apply (H5 _ Hin).
      - inversion Hk' as [|? ? [ty Hty] Hk'']; subst. inversion Hargs1 as [|? ? (Ws & Ss & Hg) Hargs2]; subst. cbn [fst snd] in *.
        cbn [fold_m2]. apply wp_bind. rewrite Hty. cbn [unwrap obind fst snd]. destruct (fo_locals _ _ _ Hfn _ _ Hty) as [Wt St].
        destruct (abi_check T any_trait sty ty) as (ok' & -> & Hlay); [done..|]. cbn [obind]. destruct ok'; [|done]. cbn [negb].
        rewrite (sized_talign _ _ Ss). cbn [obind]. destruct (map_get_names ls x H4) as [p Hp]; [apply Hns; by left|]. rewrite Hp. cbn [unwrap obind].
        pose proof H5 as H5'. rewrite List.Forall_forall in H5'. destruct (H5' _ (map_get_in _ _ _ Hp)) as [Hslot [Hthin _]]. cbn [snd] in Hthin.
        assert (Hv : vok m1 sty v \/ (E /\ forall m', typed_store T MO m1 p v sty (talign T sty) NonAtomic <> Ret m')).
        { destruct (check_value T (chk_env MO m1) sty v) as [[]| | |] eqn:Ec; [left; split; [done|apply Hg]|right..];
            (split; [destruct (good_vok T MO SM E m1 sty v Hg) as [?|[Hc _]]; [done|by rewrite Ec in Hc]|]);
            intros m' Hst; unfold typed_store in Hst; by rewrite Ec in Hst. }
        destruct Hv as [Hv|[HE Hno]].
        + destruct (fresh_store m1 (x, p) ty sty v) as (m2 & Hst & Hx & (mem & ->) & Hslots); [done..|by apply Hlay|done|done|]. cbn [snd] in Hst. rewrite Hst. cbn [expect_ok wp].
          apply IH; [cbn in Elen; lia|intros n Hn; apply Hns; by right|done|apply Hx| |..].
          * eapply Forall_impl; [exact Hargs2|]. intros a (A1 & A2 & A3). split; [done|]. split; [done|]. by eapply ext_good_val.
          * eapply pmono_trans; [exact Hp0|]. exact (ex_prov _ _ _ _ _ _ Hx).
          * destruct Hx0 as [mem0 ->]. by exists mem.
          * eapply Forall_impl; [exact H5|]. intros e [He1 He2]. split; [by apply Hslots|]. eapply pok_mono; [|exact He2]. exact (ex_prov _ _ _ _ _ _ Hx).
        + destruct (typed_store _ _ _ _ _ _ _ _) as [m'| | |]; try done. by destruct (Hno m').
    Qed.

    Definition newframe ls action : StackFrame P F := mkFrame func ls action (fn_start func) 0 (mo_new_call MO).
    Lemma create_frame_safe E (m : Mach) action conv rty args cs : sinv m -> wfT rty -> sized T rty ->
      Forall (fun a => wfT (snd a) /\ sized T (snd a) /\ good E m (snd a) (fst a)) args ->
      wp E (create_frame T MO m func action conv rty args cs) (fun r => let '(f, m', _) := r in
        sinv m' /\ (exists mem, m' = set_mem m mem) /\ pmono (memof m) (memof m') /\ exists ls, f = newframe ls action /\
        forall n p, In (n, p) ls -> pok (memof m') p).
    Proof.
      intros Hm Wr Sr Hargs. unfold create_frame. apply wp_bind.
      eapply wp_weaken; [by apply live_all|done|]. intros [[f mem] cs1] (H1 & H2 & (tl & H3) & ls & -> & H4 & H5). cbn [f_locals].
      destruct (negb _); [done|].
      pose proof (fo_known _ _ _ Hfn) as Hk. inversion Hk as [|? ? [retty Hrt] Hk']; subst. rewrite Hrt. cbn [unwrap obind].
      destruct (fo_locals _ _ _ Hfn _ _ Hrt) as [Wrt Srt].
      destruct (abi_check T any_trait rty retty) as (ok & -> & _); [done..|]. cbn [obind]. destruct (negb ok); [done|].
      destruct (negb _) eqn:Elen; [done|]. apply negb_false_iff, Nat.eqb_eq in Elen.
      assert (Hm1 : sinv (set_mem m mem)) by (by apply sinv_mem).
      assert (Hargs1 : Forall (fun a => wfT (snd a) /\ sized T (snd a) /\ good E (set_mem m mem) (snd a) (fst a)) args).
      { eapply Forall_impl; [exact Hargs|]. intros a (A1 & A2 & A3). split; [done|]. split; [done|]. apply (good_grows _ m); [|done|done|exact H2|exact A3].
        intros i x Hx Hlv. exists x. split; [|done]. unfold mview in *. cbn [m_mem set_mem]. rewrite H3. by apply lookup_app_l_Some. }
      assert (Hp0 : pmono (memof m) (memof (set_mem m mem))) by exact H2.
      assert (Hx0 : exists mem', set_mem m mem = set_mem m mem') by (by exists mem).
      assert (Hns : forall n, n ∈ fn_args func -> n ∈ names) by (intros n Hn; by right).
      apply wp_bind. eapply wp_mono; [by apply (fill_args E m)|]. intros m' (F1 & F2 & F3 & F4). cbn. split; [done|]. split; [done|]. split; [done|]. by exists ls.
    Qed.
  End Frame.

  (** ** Stacks *)

  Lemma extras_put (m : Mach) t : m_threads m !! m_active m = Some t -> exists rest, extras m ≡ₚ List.map f_extra (t_stack t) ++ rest /\
    forall mem t', extras (set_active_thread (set_mem m mem) t') ≡ₚ List.map f_extra (t_stack t') ++ rest.
  Proof.
    intros Ht. unfold extras. cbn. set (g := fun t : Thread P F => List.map f_extra (t_stack t)).
    exists (concat (List.map g (take (m_active m) (m_threads m))) ++ concat (List.map g (drop (S (m_active m)) (m_threads m)))).
    assert (Hall : forall l i t0 t', l !! i = Some t0 -> concat (List.map g (<[i := t']> l)) ≡ₚ g t' ++ concat (List.map g (take i l)) ++ concat (List.map g (drop (S i) l))).
    { intros l i t0 t' Hi. rewrite insert_take_drop by (by eapply lookup_lt_Some). rewrite map_app, concat_app. cbn [List.map concat].
      rewrite !app_assoc. apply Permutation_app_tail. apply Permutation_app_comm. }
    split; [|intros mem t'; by eapply Hall]. rewrite <- (list_insert_id _ _ _ Ht) at 1. by eapply Hall.
  Qed.

  (** pushes a frame *)
  Lemma push_safe (m : Mach) t mem ls action func : sinv (set_mem m mem) -> m_threads m !! m_active m = Some t ->
    pmono (memof m) (cm_mem mem) -> (forall n p, In (n, p) ls -> pok (cm_mem mem) p) ->
    (forall nb ub p, action = BackToCaller nb ub p -> pok (cm_mem mem) p) ->
    sinv (set_active_thread (set_mem m mem) (with_stack t (newframe func ls action :: t_stack t))).
  Proof.
    intros Hm Ht Hp Hl Ha. rewrite <- (set_mem_self (set_mem m mem)). apply (put_safe T MO SM prog _ t); [done|done| |by intros ?|].
    - destruct (extras_put (set_mem m mem) t Ht) as (rest & E1 & E2). eapply memok_perm; [symmetry; apply E2|]. cbn [t_stack with_stack List.map f_extra newframe app].
      destruct (sinv_memok T MO SM prog _ Hm) as (I1 & I2 & I3). split_and!; [|done|done]. apply sm_call. eapply sm_perm; [exact E1|done].
    - intros p [(g & Hin & Hq)|Hq]; [|left; by right]. cbn in Hin. destruct Hin as [<-|Hin].
      + right. destruct Hq as [[n Hn]|(nb & ub & E)]; [by eapply Hl|by eapply Ha].
      + left. left. exists g. done.
  Qed.
  (** adds a thread *)
  Lemma new_thread_sinv (m : Mach) ls func : sinv m -> (forall n p, In (n, p) ls -> pok (memof m) p) ->
    sinv (set_threads m (m_threads m ++ [mkThread [newframe func ls BottomOfStack] Enabled []])).
  Proof.
    intros Hm Hl. eapply sinv_upd; [exact Hm|done| |by intros ?| |by intros pr Hpr; left].
    - destruct (sinv_memok T MO SM prog _ Hm) as (I1 & I2 & I3). split_and!; [|done|done]. cbn [memof m_mem set_threads].
      apply sm_perm with (L := mo_new_call MO :: extras m); [|by apply sm_call].
      unfold extras. cbn. rewrite map_app, concat_app. cbn. apply Permutation_cons_append.
    - apply threads_ptrs; [done|]. intros t p Hin Hp. cbn in Hin. rewrite map_app in Hin. apply in_app_or in Hin as [Hin|[<-|[]]].
      + left. by exists t.
      + right. destruct Hp as [(g & [<-|[]] & Hq)|[]]. destruct Hq as [[n Hn]|(nb & ub & E)]; [by eapply Hl|done].
  Qed.

  Lemma eval_call_safe E (m : Mach) callee conv args pl rty nb ub cs : sinv m -> framed m -> fn_ok T prog callee -> wfT rty -> sized T rty ->
    good_ptr m (p_thin (pl_ptr pl)) ->
    Forall (fun a => wfT (snd a) /\ sized T (snd a) /\ good E m (snd a) (fst a)) args ->
    wp E (eval_call T MO m callee conv args pl rty nb ub cs) (fun r => sinv (fst r)).
  Proof.
    intros Hm [f Hf] Hfn Wr Sr Hpl Hargs. unfold eval_call. apply wp_bind. eapply wp_mono; [by apply create_frame_safe|].
    intros [[f' m'] cs'] (H1 & (mem & ->) & H2 & ls & -> & H3). destruct (cur_frame_inv _ _ Hf) as (t & r & Ht & Hs).
    unfold active_thread. cbn [m_threads m_active set_mem]. rewrite Ht. cbn [unwrap obind wp fst]. apply push_safe; try done.
    intros nb' ub' p [= _ _ <-]. eapply pok_mono; [exact H2|exact Hpl].
  Qed.
  Lemma new_thread_safe E (m : Mach) callee args cs : sinv m -> fn_ok T prog callee ->
    Forall (fun a => wfT (snd a) /\ sized T (snd a) /\ good E m (snd a) (fst a)) args ->
    wp E (new_thread T MO m callee args cs) (fun r => let '(id, m', _) := r in
      sinv m' /\ id = length (m_threads m) /\ pmono (memof m) (memof m') /\
      exists mem f, m' = set_threads (set_mem m mem) (m_threads m ++ [mkThread [f] Enabled []])).
  Proof.
    intros Hm Hfn Hargs. unfold new_thread. apply wp_bind. eapply wp_mono; [apply create_frame_safe; [done|done| | |exact Hargs]|].
    - apply (ts_unit _ Std).
    - by eexists _, _.
    - intros [[f' m'] cs'] (H1 & (mem & ->) & H2 & ls & -> & H3). cbn [wp m_threads set_mem]. split; [by apply (new_thread_sinv (set_mem m mem))|]. split; [done|]. split; [exact H2|]. by eexists _, _.
  Qed.
End SafeCall.
