(** Initial states of accepted programs satisfy the safety invariant, so all reachable states do. *)
From Verif Require Export SafeStep.
From stdpp Require Import relations.
From Coq Require Import ZifyBool ZifyN ZifyNat.
Local Open Scope Z_scope.

Section SafeStart.
  Context {PE AE F : Type} `{EqDecision (nat * PE)}.
  Variable T : Target.
  Variable MO : MemOps (nat * PE) F (BMem PE AE).
  Variable SM : safe_mem T MO.
  Hypothesis Tok : target_ok T.
  Hypothesis Std : target_std T.
  Notation P := (nat * PE)%type.
  Notation M := (BMem PE AE).
  Notation Mach := (Machine P F M).
  Notation BL := (sm_like SM).
  Notation memok := (memok T MO SM).
  Notation pmono := (pmono T MO SM).
  Notation pok := (pok T MO SM).

  Definition rooted (mem : M) (p : ThinPtr P) : Prop :=
    pok mem p /\ exists id pe, tp_prov p = Some (id, pe) /\ sm_root SM mem id pe.

  Lemma alloc_all_safe {A} k (sa : A -> N * Align) mem cs (l : list (N * A)) L : memok (cm_mem mem) L ->
    wp False (alloc_all MO k sa mem cs l) (fun '(ptrs, mem', _) =>
      memok (cm_mem mem') L /\ pmono (cm_mem mem) (cm_mem mem') /\ (exists tl, mv (cm_mem mem') = mv (cm_mem mem) ++ tl) /\
      (forall n p, In (n, p) ptrs -> rooted (cm_mem mem') p) /\
      (forall id pe, sm_root SM (cm_mem mem) id pe -> sm_root SM (cm_mem mem') id pe) /\
      (NoDup (List.map fst l) -> named (mv (cm_mem mem)) (mv (cm_mem mem')) k sa l ptrs) /\ NoDup (List.map fst ptrs)).
  Proof.
    intros Hok. apply (wp_given _ _ _ _ (alloc_all_own T MO BL Tok k sa mem cs l)). unfold alloc_all. eapply wp_mono.
    - apply (wp_fold_m _ False (fun i '(ptrs, mem', _) =>
        memok (cm_mem mem') L /\ pmono (cm_mem mem) (cm_mem mem') /\ (exists tl, mv (cm_mem mem') = mv (cm_mem mem) ++ tl) /\
        (forall n p, In (n, p) ptrs -> rooted (cm_mem mem') p) /\
        (forall id pe, sm_root SM (cm_mem mem) id pe -> sm_root SM (cm_mem mem') id pe))).
      + split; [done|]. split; [by intros ?|]. split; [exists []; by rewrite app_nil_r|]. done.
      + intros i [n x] [[ptrs mem1] cs1] Hi (H1 & H2 & (tl & H3) & H4 & H5). destruct (sa (snd (n, x))) as [s al] eqn:Esa.
        apply wp_bind. destruct cs1 as [|[ad| |] cs1]; try done. cbn [pick_addr wp].
        apply wp_bind. unfold cm_allocate. apply wp_bind. eapply wp_mono; [by eapply (alloc_ok T MO SM Tok)|].
        intros [p mem2] (A1 & A2 & A3 & A4 & (pe & A5 & A6) & A7). cbn [wp cm_set cm_mem fst snd].
        split; [done|]. split; [by eapply pmono_trans|]. split; [eexists; by rewrite A4, H3, <-app_assoc|]. split.
        * intros n' p' Hin. apply map_insert_in in Hin as [Hin|[= -> ->]].
          -- destruct (H4 _ _ Hin) as (B1 & id & pe' & B2 & B3). split; [by eapply pok_mono|]. exists id, pe'. split; [done|by apply A7].
          -- split; [done|]. by eexists _, _.
        * intros id pe' Hr. by apply A7, H5.
    - intros [[ptrs mem'] cs'] (H1 & H2 & H3 & H4 & H5) (news & _ & _ & _ & H6 & H7). done.
  Qed.

  Lemma init_bytes_in (Q : P -> Prop) (l : list (option byte)) :
    Forall (byte_in Q) (List.map (fun b => match b with Some x => Init x None | None => Uninit end) l).
  Proof. apply List.Forall_map, Forall_true. intros [x|]; done. Qed.

  Lemma write_in (Q : P -> Prop) l o b r : write_subslice l o b = Ret r -> Forall (byte_in Q) l -> Forall (byte_in Q) b -> Forall (byte_in Q) r.
  Proof.
    intros H Hl Hb. apply write_subslice_ret in H as [_ ->]. apply Forall_app. split; [by apply Forall_take|].
    apply Forall_app. split; [done|by apply Forall_drop].
  Qed.

  Lemma global_bytes_safe mem ptrs g : (forall n p, In (n, p) ptrs -> pok mem p) ->
    Forall (fun r => (fst r + PTR_SIZE T <= N.of_nat (length (g_bytes g)))%N /\ exists p, map_get ptrs (r_name (snd r)) = Some p) (g_relocations g) ->
    wp False (global_bytes T ptrs g) (fun b => length b = length (g_bytes g) /\ Forall (byte_in (sm_prov SM mem)) b).
  Proof.
    intros Hp Hr. unfold global_bytes. eapply wp_mono.
    - apply (wp_fold_m _ False (fun i b => length b = length (g_bytes g) /\ Forall (byte_in (sm_prov SM mem)) b)).
      + split; [by rewrite map_length|]. apply init_bytes_in.
      + intros i [o r] b Hi [Hl Hb]. rewrite Forall_lookup in Hr. destruct (Hr _ _ Hi) as (Hlen & p & Hget). cbn [fst snd] in *.
        rewrite Hget. cbn [unwrap obind]. destruct (encode_ptr_total T (wrapping_offset T p (Z.of_N (r_offset r)))) as (eb & Ee & El).
        { apply bring_in_bounds_in. }
        rewrite Ee. cbn [obind]. destruct (write_subslice_total b o eb) as (b' & Eb'); [lia|]. rewrite Eb'. cbn [wp].
        split; [by rewrite (write_subslice_length _ _ _ _ Eb')|]. eapply write_in; [exact Eb'|done|].
        eapply encode_ptr_in; [exact Ee|]. apply (Hp (r_name r) p). by apply map_get_in.
    - done.
  Qed.

  Notation gsa := (fun g : Global => (N.of_nat (length (g_bytes g)), g_align g)).

  Lemma fill_globals_safe ptrs (l : list (N * Global)) mem : NoDup (List.map fst l) ->
    memok (cm_mem mem) [] -> named [] (mv (cm_mem mem)) AGlobal gsa l ptrs ->
    (forall n p, In (n, p) ptrs -> rooted (cm_mem mem) p) ->
    Forall (fun e => Forall (fun r => (fst r + PTR_SIZE T <= N.of_nat (length (g_bytes (snd e))))%N /\
      exists p, map_get ptrs (r_name (snd r)) = Some p) (g_relocations (snd e))) l ->
    wp False (fill_globals T MO ptrs l mem) (fun mem' => memok (cm_mem mem') [] /\ pmono (cm_mem mem) (cm_mem mem') /\
      mv (cm_mem mem') = mv (cm_mem mem) /\ forall n p, In (n, p) ptrs -> rooted (cm_mem mem') p).
  Proof.
    intros Hd Hok (_ & N2 & _) Hroot Hrel. unfold fill_globals. eapply wp_mono.
    - apply (wp_fold_m _ False (fun i mem' => memok (cm_mem mem') [] /\ pmono (cm_mem mem) (cm_mem mem') /\
        mv (cm_mem mem') = mv (cm_mem mem) /\ forall n p, In (n, p) ptrs -> rooted (cm_mem mem') p)).
      + split_and!; [apply Hok..|by intros ?|done|done].
      + intros i [n g] mem1 Hi (H1 & H2 & H3 & H4). rewrite Forall_lookup in Hrel. specialize (Hrel _ _ Hi). cbn [snd] in Hrel.
        apply wp_bind. eapply wp_mono; [apply (global_bytes_safe (cm_mem mem1)); [|exact Hrel]|].
        { intros n' p Hin. by apply (H4 n'). }
        intros b [Hlen Hb]. pose proof (map_get_lookup _ _ _ _ Hd Hi) as Hg. destruct (N2 _ _ Hg) as (ad & id & pe & Hp & _ & Hv).
        rewrite Hp. cbn [unwrap obind]. destruct (H4 n _ (map_get_in _ _ _ Hp)) as (Hpk & id' & pe' & Hpr & Hrt). cbn in Hpr. injection Hpr as <- <-.
        rewrite <- H3 in Hv. pose proof Hv as Hv'. rewrite mv_lookup in Hv'. destruct (cm_mem mem1 !! id) as [a|] eqn:Ea; [|done].
        injection Hv' as Va Vs Val _ Vl. destruct H1 as (I1 & I2 & I3). apply I3 in Hv as (Va1 & Va2 & _). cbn [v_addr v_align fst snd] in *.
        destruct (sm_root_store _ _ SM (cm_mem mem1) [] id pe a ad b (g_align g)) as (mem2 & Es & Hr2); [done|done|done|done|done| |lia|].
        { unfold is_aligned. lia. }
        unfold cm_store. cbv zeta. cbn [cm_push cm_mem]. rewrite Es. cbn [obind]. unfold expect_ok. cbn [obind wp cm_mem cm_set]. assert (Hok1 : memok (cm_mem mem1) []) by done.
        pose proof (store_ok T MO SM (cm_mem mem1) [] _ b (g_align g) Hok1 (proj1 Hpk) Hb) as Hst. rewrite Es in Hst. destruct Hst as [J1 J2].
        split; [done|]. split; [by eapply pmono_trans|]. split; [rewrite (store_mv T MO BL _ _ _ _ _ Es); exact H3|].
        intros n' p' Hin. destruct (H4 _ _ Hin) as (B1 & i2 & pe2 & B2 & B3). split; [by eapply pok_mono|]. exists i2, pe2. split; [done|by apply Hr2].
    - done.
  Qed.

  Section New.
  Variable prog : Program.
  Hypothesis Hwf : program_check_wf T prog = Ret tt.
  Hypothesis Hu : names_unique prog.

  Lemma wf_relocs : Forall (fun e => Forall (fun r => (fst r + PTR_SIZE T <= N.of_nat (length (g_bytes (snd e))))%N /\
    exists g, map_get (pr_globals prog) (r_name (snd r)) = Some g) (g_relocations (snd e))) (pr_globals prog).
  Proof.
    pose proof (program_wf_relocs T prog Hwf) as Hr. pose proof Hwf as Hw. unfold program_check_wf in Hw.
    apply obind_ret in Hw as ([] & _ & Hw). apply obind_ret in Hw as ([] & _ & Hw). destruct (map_get _ _) as [st|]; [|done].
    apply obind_ret in Hw as ([] & _ & Hw). apply obind_ret in Hw as (? & _ & Hw). apply obind_ret in Hw as (? & _ & Hw).
    apply obind_ret in Hw as ([] & _ & Hw). apply obind_ret in Hw as ([] & _ & Hw). apply for_each_ret in Hw.
    rewrite List.Forall_forall in *. intros e He. specialize (Hw e He). specialize (Hr e He). apply for_each_ret in Hw. rewrite List.Forall_forall in *.
    intros r Hin. specialize (Hw r Hin). destruct (Hr r Hin) as (g & Hg & _). apply obind_ret in Hw as ([] & Hw & _). apply ensure_wf_ret in Hw.
    split; [lia|by exists g].
  Qed.

  Lemma machine_new_safe cs : wp False (machine_new T MO prog cs) (fun r => sinv T MO SM prog (fst r)).
  Proof.
    destruct Hu as (U1 & U2 & U3). unfold machine_new. rewrite Hwf. cbn [obind].
    assert (H0 : memok (cm_mem (cm_new MO)) []).
    { cbn. unfold SafeFrame.memok. split_and!; [apply (sm_new _ _ SM)|rewrite (bl_new _ _ BL); by intros ?|rewrite (bl_new _ _ BL); apply vfit_nil]. }
    apply wp_bind. eapply wp_mono; [by apply alloc_all_safe|]. intros [[globals mem1] cs1] (A1 & A2 & (tlA & A3) & A4 & A5 & A6 & A7). specialize (A6 U1).
    apply wp_bind. eapply wp_mono; [apply fill_globals_safe; [done|exact A1| |exact A4|]|].
    { cbn in A6. rewrite (bl_new _ _ BL) in A6. exact A6. }
    { pose proof wf_relocs as Hr. apply (Forall_impl _ _ _ Hr). intros e He. apply (Forall_impl _ _ _ He). intros r [R1 (g & R2)]. split; [done|].
      destruct A6 as (_ & N2 & _). destruct (N2 _ _ R2) as (ad & id & pe & Hp & _). by eexists. }
    intros mem2 (B1 & B2 & B3 & B4).
    apply wp_bind. eapply wp_mono; [by apply alloc_all_safe|]. intros [[fnptrs mem3] cs3] (C1 & C2 & (tlC & C3) & C4 & C5 & C6 & C7). specialize (C6 U2).
    apply wp_bind. eapply wp_mono; [by apply alloc_all_safe|]. intros [[vtptrs mem4] cs4] (D1 & D2 & (tlD & D3) & D4 & D5 & D6 & D7). specialize (D6 U3).
    set (m := mkMachine prog mem4 ipc_new [] 0 [] [] globals fnptrs vtptrs EmptyString EmptyString).
    assert (Hm : sinv T MO SM prog m).
    { constructor.
      - done.
      - exact Hwf.
      - constructor; cbn.
        + intros n g Hg. destruct A6 as (_ & N2 & _). destruct (N2 _ _ Hg) as (ad & id & pe & Hp & _). by eexists.
        + intros n g Hg. destruct C6 as (_ & N2 & _). destruct (N2 _ _ Hg) as (ad & id & pe & Hp & _). by eexists.
        + intros n g Hg. pose proof D6 as (_ & N2 & _). destruct (N2 _ _ Hg) as (ad & id & pe & Hp & _). eexists. split; [exact Hp|].
          pose proof (find_ptr _ _ _ _ _ _ (mkThin ad (Some (id, pe))) D7 D6) as Hf.
          destruct (List.find _ vtptrs) as [[n' p']|] eqn:Ef; [|by destruct (Hf n)]. destruct Hf as (F1 & x & F2 & F3). cbn [fst] in *.
          apply find_some in Ef as [_ Ef]. apply bool_decide_eq_true in Ef. cbn in Ef. subst p'. f_equal. f_equal. symmetry. by apply F3.
        + intros n p Hin. destruct C6 as (N1 & _). destruct (map_get (pr_functions prog) n) as [f|] eqn:Ef; [by exists f|].
          apply N1, map_get_none_in in Ef. destruct Ef. by apply (in_map fst) in Hin.
        + intros n p Hin. destruct D6 as (N1 & _). destruct (map_get (pr_vtables prog) n) as [f|] eqn:Ef; [by exists f|].
          apply N1, map_get_none_in in Ef. destruct Ef. by apply (in_map fst) in Hin.
      - apply D1.
      - apply D1.
      - apply D1.
      - intros p Hp. change (pok (cm_mem mem4) p). destruct Hp as [? ? ? ? ? Hx|? ? ? ? ? ? Hx|? ? Hx|n Hn|n Hn|n Hn]; try (cbn in Hx; by rewrite lookup_nil in Hx).
        + eapply pok_mono; [exact D2|]. eapply pok_mono; [exact C2|]. by eapply B4.
        + eapply pok_mono; [exact D2|]. by eapply C4.
        + by eapply D4.
      - constructor. }
    pose proof Hwf as Hw. unfold program_check_wf in Hw. apply obind_ret in Hw as ([] & _ & Hw). apply obind_ret in Hw as ([] & _ & Hw).
    destruct (map_get (pr_functions prog) (pr_start prog)) as [st|] eqn:Est; [|done]. cbn [unwrap obind].
    apply wp_bind. eapply wp_mono; [eapply (new_thread_safe T MO SM Tok Std prog False m st []); [exact Hm|by eapply prog_fn|constructor]|].
    intros [[id m'] cs'] (Hm' & _). exact Hm'.
  Qed.

  Hypothesis Hstrict : strict_program T prog.
  Lemma reach_sinv (m : Mach) : reachable T MO prog m -> sinv T MO SM prog m.
  Proof.
    induction 1 as [m (cs & rest & Hs)|m m' Hr IH (cs & Hs)].
    - pose proof (machine_new_safe cs) as Hn. by rewrite Hs in Hn.
    - pose proof (step_safe T MO SM Tok Std prog (st_methods _ _ Hstrict) Hstrict m cs Hr IH) as Hn. by rewrite Hs in Hn.
  Qed.
  End New.
End SafeStart.
