(** The initial state: named objects and the contents of globals. *)
From Verif Require Export OwnInv OwnSpec ReprMore.

Section New.
  Context {PE AE F : Type} `{EqDecision (nat * PE)}.
  Variable T : Target.
  Notation P := (nat * PE)%type.
  Notation M := (BMem PE AE).
  Notation Mach := (Machine P F M).
  Notation V := (list AV).
  Variable MO : MemOps P F M.
  Hypothesis BL : bm_like T MO.
  Hypothesis Tok : target_ok T.

  Lemma alloc_app mem k s al ad p mem' : mo_allocate MO mem k s al ad = Ret (p, mem') ->
    exists a, mem' = mem ++ [a] /\ view a = mkAV ad s al k true.
  Proof.
    destruct (bl_alloc _ _ BL mem k s al) as (pe & ae & Ea). rewrite Ea.
    intros (Hv & Hok & -> & ->)%bm_allocate_ret. eexists. split; [done|].
    unfold view, al_size. cbn. rewrite list_repeat_length. f_equal. lia.
  Qed.

  (** ** Lists of named objects *)

  Definition named {A} (v0 v : V) (k : AllocKind) (sa : A -> Size * Align) (l : list (N * A))
      (ptrs : list (N * ThinPtr P)) : Prop :=
    (forall n, map_get l n = None -> map_get ptrs n = None) /\
    (forall n x, map_get l n = Some x -> exists ad id pe, map_get ptrs n = Some (mkThin ad (Some (id, pe))) /\
       (length v0 <= id)%nat /\ v !! id = Some (mkAV ad (fst (sa x)) (snd (sa x)) k true)) /\
    (forall n n' p p', map_get ptrs n = Some p -> map_get ptrs n' = Some p' -> n <> n' -> pid p <> pid p').

  Lemma map_get_snoc {K A} `{EqDecision K} (l : list (K * A)) k x n :
    map_get (l ++ [(k, x)]) n = match map_get l n with Some y => Some y | None => if bool_decide (k = n) then Some x else None end.
  Proof.
    induction l as [|[k' y] l IH]; cbn [app]; rewrite ?map_get_cons.
    { change (map_get [] n) with (@None A). by destruct (bool_decide _). }
    destruct (bool_decide (k' = n)); [done|]. exact IH.
  Qed.

  Lemma map_insert_nodup {A} (l : list (N * A)) k x : NoDup (List.map fst l) -> NoDup (List.map fst (map_insert l k x)).
  Proof.
    induction l as [|[k' y] l IH]; intros Hd.
    - cbn. apply NoDup_singleton.
    - cbn [map_insert List.map fst] in *. apply NoDup_cons in Hd as [Hn Hd].
      destruct (bool_decide_reflect (k' = k)) as [->|Hne]; cbn [List.map fst]; apply NoDup_cons; (split; [|by auto]); [done|].
      intros Hin. apply elem_of_list_In, in_map_iff in Hin as ([k1 z] & E & Hin). cbn in E. subst k1. apply Hn.
      apply elem_of_list_In. destruct (map_get l k') as [w|] eqn:Ew.
      { by apply map_get_in, (in_map fst) in Ew. }
      exfalso. assert (Hg : map_get (map_insert l k x) k' = None) by (rewrite map_insert_get, bool_decide_eq_false_2 by congruence; done).
      apply map_get_none_in in Hg. apply Hg. by apply (in_map fst) in Hin.
  Qed.

  Lemma alloc_all_own {A} k (sa : A -> Size * Align) mem cs (l : list (N * A)) :
    post (alloc_all MO k sa mem cs l) (fun '(ptrs, mem', _) => exists news,
      cm_mem mem' = cm_mem mem ++ news /\ Forall (fun a => al_kind a = k) news /\
      (vfit T (mv (cm_mem mem)) -> vfit T (mv (cm_mem mem'))) /\
      (NoDup (List.map fst l) -> named (mv (cm_mem mem)) (mv (cm_mem mem')) k sa l ptrs) /\
      NoDup (List.map fst ptrs)).
  Proof.
    unfold alloc_all. eapply wp_mono.
    - apply (wp_fold_m _ True (fun i '(ptrs, mem', _) => exists news,
        cm_mem mem' = cm_mem mem ++ news /\ Forall (fun a => al_kind a = k) news /\
        (vfit T (mv (cm_mem mem)) -> vfit T (mv (cm_mem mem'))) /\
        (NoDup (List.map fst l) -> named (mv (cm_mem mem)) (mv (cm_mem mem')) k sa (take i l) ptrs) /\
        NoDup (List.map fst ptrs))).
      + exists []. rewrite app_nil_r. split; [done|]. split; [constructor|]. split; [done|].
        split; [intros _; by split; [|split]|constructor].
      + intros i [n x] [[ptrs mem1] cs1] Hi (news & E1 & Hk & Hf & Hn & Hdp). destruct (sa (snd (n, x))) as [s al] eqn:Esa.
        apply post_bind_skip. intros [ad cs2]. apply wp_bind, post_intro. intros [p mem2] E.
        apply obind_ret in E as ([p' mem3] & E & [= <- <-]). pose proof (alloc_mv T MO BL Tok _ _ _ _ _ _ _ E) as (E2 & Hfr & pe & ->).
        apply alloc_app in E as (a & E3 & Hva). cbn [wp cm_set cm_mem fst snd] in *.
        exists (news ++ [a]). split; [by rewrite E3, E1, app_assoc|]. split.
        { apply Forall_app. split; [done|]. constructor; [|constructor]. by injection Hva. }
        rewrite E2. split; [intros; apply vfit_app; [by apply Hf|done]|].
        split; [|by apply map_insert_nodup].
        intros Hd. destruct (Hn Hd) as (N1 & N2 & N3). erewrite take_S_r by done.
        assert (Hnew : map_get (take i l) n = None).
        { apply map_get_none_in. rewrite <-(take_drop_middle _ _ _ Hi), map_app in Hd. cbn [List.map fst] in Hd.
          apply NoDup_app in Hd as (_ & Hd & _). intros Hin. apply elem_of_list_In in Hin. apply (Hd _ Hin).
          apply elem_of_cons. by left. }
        assert (Hlt : forall n' p', map_get ptrs n' = Some p' -> (pid p' < length (mv (cm_mem mem1)))%nat).
        { intros n' p' Hp. destruct (map_get (take i l) n') as [y|] eqn:Ey; [|by rewrite N1 in Hp].
          apply N2 in Ey as (ad' & id' & pe' & Hp' & _ & Hv). rewrite Hp' in Hp. injection Hp as <-. cbn.
          by eapply lookup_lt_Some. }
        split; [|split].
        * intros n'. rewrite map_get_snoc, map_insert_get. destruct (map_get (take i l) n') eqn:Ey; [done|].
          destruct (bool_decide _); [done|]. intros _. by apply N1.
        * intros n' y. rewrite map_get_snoc, map_insert_get.
          destruct (map_get (take i l) n') as [z|] eqn:Ey.
          -- intros [= <-]. rewrite bool_decide_eq_false_2 by congruence.
             apply N2 in Ey as (ad' & id' & pe' & Hp' & Hge & Hv). exists ad', id', pe'. split; [done|]. split; [done|].
             by apply lookup_app_l_Some.
          -- destruct (bool_decide_reflect (n = n')) as [<-|]; [|done]. intros [= <-].
             eexists _, _, _. split; [done|]. split.
             ++ rewrite E1. unfold mv. rewrite map_length, map_length, app_length. lia.
             ++ rewrite lookup_app_r, Nat.sub_diag by lia. cbn. by rewrite Esa.
        * intros n1 n2 p1 p2. rewrite !map_insert_get.
          destruct (bool_decide_reflect (n = n1)) as [<-|H1], (bool_decide_reflect (n = n2)) as [<-|H2].
          -- done.
          -- intros [= <-] Hp _. apply Hlt in Hp. cbn. lia.
          -- intros Hp [= <-] _. apply Hlt in Hp. cbn. lia.
          -- apply N3.
    - intros [[ptrs mem'] cs'] H. rewrite firstn_all in H. exact H.
  Qed.

  (** ** Contents of globals *)

  Lemma frags_lookup (prov : option P) k ds j :
    encode_frags prov k ds !! j = option_map (fun d => Init d (option_map (fun p => mkFrag p (k + Z.of_nat j)) prov)) (ds !! j).
  Proof.
    revert k j. induction ds as [|d ds IH]; intros k [|j]; try done.
    - cbn. replace (k + Z.of_nat 0) with k by lia. done.
    - cbn [encode_frags lookup list_lookup]. rewrite IH.
      by replace (k + 1 + Z.of_nat j) with (k + Z.of_nat (S j)) by lia.
  Qed.
  Lemma frags_length (prov : option P) k ds : length (encode_frags prov k ds) = length ds.
  Proof. revert k. induction ds as [|d ds IH]; intros k; [done|]. cbn. by rewrite IH. Qed.

  Lemma endian_addr_byte x ds k d : endian_encode (ENDIANNESS T) Unsigned (PTR_SIZE T) x = Some ds ->
    ds !! k = Some d -> Z_of_byte d = addr_byte T x (Z.of_nat k).
  Proof.
    intros He Hk. apply endian_encode_length in He as Hl. unfold addr_byte.
    destruct (ENDIANNESS T).
    - by eapply endian_encode_byte.
    - rewrite endian_encode_big in He. destruct (endian_encode LittleEndian _ _ _) as [l|] eqn:El; [|done].
      injection He as <-. rewrite List.rev_length in Hl. apply lookup_lt_Some in Hk as Hlt. rewrite List.rev_length in Hlt.
      assert (l !! (length l - S k)%nat = Some d) as Hd.
      { rewrite List.rev_alt in Hk. change (rev_append l []) with (reverse l) in Hk. by rewrite reverse_lookup in Hk. }
      rewrite (endian_encode_byte _ _ _ _ _ _ El Hd). do 3 f_equal. lia.
  Qed.

  Lemma last_cover_snoc rs r i r' : last_cover T (rs ++ [r]) i r' <->
    (covers T i r /\ r' = r) \/ (~ covers T i r /\ last_cover T rs i r').
  Proof.
    split.
    - intros (l1 & l2 & E & Hc & Hn). destruct l2 as [|y l2] using rev_ind.
      + apply app_inj_tail in E as [-> ->]. by left.
      + clear IHl2. rewrite app_comm_cons, app_assoc in E. apply app_inj_tail in E as [-> ->].
        apply Forall_app in Hn as [Hn1 Hn2]. right. split; [by inversion Hn2|]. by exists l1, l2.
    - intros [[Hc ->]|[Hn (l1 & l2 & -> & Hc & Hf)]].
      + exists rs, []. done.
      + exists l1, (l2 ++ [r]). rewrite <-app_assoc. split; [done|]. split; [done|].
        apply Forall_app. split; [done|]. by constructor.
  Qed.

  Lemma global_bytes_ok (ptrs : list (GlobalName * ThinPtr P)) (g : Global) :
    Forall (fun r => forall base, map_get ptrs (r_name (snd r)) = Some base ->
      in_bounds Unsigned (PTR_SIZE T) (tp_addr base + Z.of_N (r_offset (snd r))) = true) (g_relocations g) ->
    post (global_bytes T ptrs g) (fun data => length data = length (g_bytes g) /\
      forall i b, data !! i = Some b -> global_byte T ptrs (g_bytes g) (g_relocations g) i b).
  Proof.
    intros Hb. unfold global_bytes. eapply wp_mono.
    - apply (wp_fold_m _ True (fun n data => length data = length (g_bytes g) /\
        forall i b, data !! i = Some b -> global_byte T ptrs (g_bytes g) (take n (g_relocations g)) i b)).
      + split; [by rewrite map_length|]. intros i b. rewrite take_0. rewrite (list_lookup_fmap (fun b => match b with Some x => Init x None | None => Uninit end)).
        destruct (g_bytes g !! i) as [x|] eqn:Ex; [|done]. intros [= <-]. split.
        * intros r (l1 & l2 & E & _). by destruct l1.
        * intros _. exists x. split; [done|]. by destruct x.
      + intros n [o r] data Hr [Hl Hd]. apply wp_bind, post_unwrap. intros base Hbase.
        unfold encode_ptr. apply wp_bind. apply wp_bind, post_unwrap. intros ds Hds. cbn [wp].
        apply post_intro. intros data' Hw. apply write_subslice_ret in Hw as [Hle ->].
        rewrite frags_length in Hle. apply endian_encode_length in Hds as Hn.
        split.
        { rewrite !app_length, take_length, drop_length, !frags_length. lia. }
        intros i b Hi. erewrite take_S_r by done.
        rewrite Forall_lookup in Hb. specialize (Hb _ _ Hr). cbn [snd] in Hb.
        unfold wrapping_offset in Hds. cbn [tp_addr] in Hds. rewrite bring_in_bounds_id in Hds by (by apply Hb).
        destruct (decide (covers T i (o, r))) as [Hc|Hc].
        * unfold covers in Hc. cbn [fst] in Hc. rewrite lookup_app_r in Hi by (rewrite take_length; lia).
          rewrite take_length, Nat.min_l in Hi by lia. rewrite lookup_app_l in Hi by (rewrite frags_length; lia).
          rewrite frags_lookup in Hi. destruct (ds !! (i - N.to_nat o)%nat) as [d|] eqn:Ed; [|done]. injection Hi as <-.
          cbn [tp_prov wrapping_offset]. split.
          -- intros r' [[_ ->]|[Hn' _]]%last_cover_snoc; [|by destruct Hn'].
             exists base, d. cbn [fst snd]. split; [done|]. split.
             ++ by replace (0 + Z.of_nat (i - N.to_nat o)) with (Z.of_nat i - Z.of_N o) by lia.
             ++ rewrite (endian_addr_byte _ _ _ _ Hds Ed). f_equal. lia.
          -- intros Hf. apply Forall_app in Hf as [_ Hf]. inversion Hf as [|? ? Hf1]; subst. by destruct Hf1.
        * assert (data !! i = Some b) as Hi'.
          { unfold covers in Hc. cbn [fst] in Hc. destruct (decide (i < N.to_nat o)%nat) as [Hlt|Hge].
            - rewrite lookup_app_l in Hi by (rewrite take_length; lia). by rewrite lookup_take in Hi.
            - rewrite lookup_app_r in Hi by (rewrite take_length; lia). rewrite take_length, Nat.min_l in Hi by lia.
              rewrite lookup_app_r in Hi by (rewrite frags_length; lia). rewrite frags_length, lookup_drop in Hi.
              rewrite <-Hi. f_equal. lia. }
          apply Hd in Hi' as [G1 G2]. split.
          -- intros r' [[Hc' _]|[_ Hl']]%last_cover_snoc; [done|]. by apply G1.
          -- intros Hf. apply Forall_app in Hf as [Hf _]. by apply G2.
    - intros data H. by rewrite firstn_all in H.
  Qed.

  Notation gsa := (fun g : Global => (N.of_nat (length (g_bytes g)), g_align g)).
  Notation zsa A := (fun _ : A => (0%N, align_one)).
  Definition contents (ptrs : list (GlobalName * ThinPtr P)) (g : Global) (data : list (AByte P)) : Prop :=
    length data = length (g_bytes g) /\
    forall i b, data !! i = Some b -> global_byte T ptrs (g_bytes g) (g_relocations g) i b.
  Definition filled (ptrs : list (GlobalName * ThinPtr P)) (mem : M) n (g : Global) : Prop :=
    exists p a, map_get ptrs n = Some p /\ mem !! pid p = Some a /\ contents ptrs g (al_data a).

  Lemma store_all mem p b al mem' id pe a : mo_store MO mem p b al = Ret mem' ->
    tp_prov p = Some (id, pe) -> mem !! id = Some a -> al_addr a = tp_addr p -> length (al_data a) = length b ->
    exists a', mem' !! id = Some a' /\ al_data a' = b /\ forall j, j <> id -> mem' !! j = mem !! j.
  Proof.
    destruct (bl_store _ _ BL mem p b al) as [h ->]. intros H Hp Ha Had Hl.
    apply bm_store_ret in H as (_ & [(-> & ->)|(_ & id' & pe' & off & a' & ae & data & Hp' & Ha' & _ & _ & Hoff & _ & Hw & ->)]).
    - exists a. split; [done|]. split; [|done]. by destruct (al_data a).
    - rewrite Hp in Hp'. injection Hp' as <- <-. rewrite Ha in Ha'. injection Ha' as <-.
      assert (off = 0%N) as -> by lia. apply write_subslice_ret in Hw as [_ ->]. eexists. split.
      + apply list_lookup_insert. by eapply lookup_lt_Some.
      + split; [|intros j Hj; by apply list_lookup_insert_ne]. cbn [al_data].
        rewrite drop_ge by lia. by rewrite app_nil_r.
  Qed.

  Lemma map_get_lookup {A} (l : list (N * A)) i n x : NoDup (List.map fst l) -> l !! i = Some (n, x) -> map_get l n = Some x.
  Proof.
    intros Hd Hi. apply map_get_nodup; [done|]. apply elem_of_list_In.
    by eapply elem_of_list_lookup_2.
  Qed.

  Lemma fill_ok ptrs (l : list (N * Global)) mem :
    NoDup (List.map fst l) -> named [] (mv (cm_mem mem)) AGlobal gsa l ptrs -> vfit T (mv (cm_mem mem)) ->
    Forall (fun e => Forall (fun r => exists g, map_get l (r_name (snd r)) = Some g /\
      (r_offset (snd r) <= N.of_nat (length (g_bytes g)))%N) (g_relocations (snd e))) l ->
    post (fill_globals T MO ptrs l mem) (fun mem' => mv (cm_mem mem') = mv (cm_mem mem) /\
      forall n g, map_get l n = Some g -> filled ptrs (cm_mem mem') n g).
  Proof.
    intros Hd (N1 & N2 & N3) [Hf _] Hr. unfold fill_globals. eapply wp_mono.
    - apply (wp_fold_m _ True (fun i mem' => mv (cm_mem mem') = mv (cm_mem mem) /\
        forall j n g, (j < i)%nat -> l !! j = Some (n, g) -> filled ptrs (cm_mem mem') n g)).
      + split; [done|]. intros. lia.
      + intros i [n g] mem1 Hi [E1 H1]. apply wp_bind. rewrite Forall_lookup in Hr. specialize (Hr _ _ Hi). cbn [snd] in Hr.
        eapply wp_mono; [apply global_bytes_ok|].
        { apply (Forall_impl _ _ _ Hr). intros [o r] (g' & Hg & Ho) base Hbase. cbn [snd] in *.
          apply N2 in Hg as (ad & id & pe & Hp & _ & Hv). rewrite Hp in Hbase. injection Hbase as <-.
          apply Hf in Hv. cbn [v_addr v_size fst] in Hv. apply in_bounds_spec. unfold int_min, int_max.
          cbn [tp_addr]. pose proof (ptr_size_pos T Tok). destruct (N.eqb_spec (PTR_SIZE T) 0); [lia|].
          unfold size_bits. replace (Z.of_N (PTR_SIZE T * 8)) with (8 * Z.of_N (PTR_SIZE T)) by lia. lia. }
        intros data [Hl Hc]. apply wp_bind, post_unwrap. intros p Hp.
        apply post_intro. intros mem2 E. unfold expect_ok in E.
        destruct (cm_store MO mem1 p data (g_align g) NonAtomic) as [mem2'|?| |] eqn:Es; try done. injection E as <-.
        apply obind_ret in Es as (mem3 & Es & [= <-]). cbn [cm_set cm_mem].
        split; [rewrite (store_mv T MO BL _ _ _ _ _ Es); exact E1|].
        pose proof (map_get_lookup _ _ _ _ Hd Hi) as Hg.
        destruct (N2 _ _ Hg) as (ad & id & pe & Hp' & _ & Hv). rewrite Hp in Hp'. injection Hp' as ->.
        cbn [fst snd] in Hv. rewrite <-E1, mv_lookup in Hv. destruct (cm_mem mem1 !! id) as [a|] eqn:Ha; [|done].
        injection Hv as Ea1 Ea2 _ _ _.
        eapply store_all in Es as (a' & Ha' & <- & Hoth); [|done|exact Ha|done|unfold al_size in Ea2; lia].
        intros j n' g' Hj Hjl. destruct (decide (j = i)) as [->|Hne].
        * rewrite Hi in Hjl. injection Hjl as <- <-. exists (mkThin ad (Some (id, pe))), a'. done.
        * destruct (H1 j n' g') as (p' & a1 & Hp1 & Ha1 & Hc1); [lia|done|]. exists p', a1. split; [done|]. split; [|done].
          rewrite Hoth; [done|]. eapply N3 in Hp1; [|exact Hp|]; [done|].
          intros ->. apply Hne. apply (proj1 (NoDup_alt (List.map fst l)) Hd j i n').
          -- change (List.map fst l) with (fst <$> l). by rewrite list_lookup_fmap, Hjl.
          -- change (List.map fst l) with (fst <$> l). by rewrite list_lookup_fmap, Hi.
    - intros mem' [E H]. split; [done|]. intros n g Hg. apply map_get_in, elem_of_list_In, elem_of_list_lookup in Hg as [j Hj].
      eapply H; [|done]. by eapply lookup_lt_Some.
  Qed.

  (** ** Initial states *)

  Lemma program_wf_relocs prog : program_check_wf T prog = Ret tt ->
    Forall (fun e => Forall (fun r => exists g, map_get (pr_globals prog) (r_name (snd r)) = Some g /\
      (r_offset (snd r) <= N.of_nat (length (g_bytes g)))%N) (g_relocations (snd e))) (pr_globals prog).
  Proof.
    unfold program_check_wf. intros H. apply obind_ret in H as (_ & _ & H). apply obind_ret in H as (_ & _ & H).
    destruct (map_get (pr_functions prog) (pr_start prog)) as [start|]; [|done].
    apply obind_ret in H as (_ & _ & H). apply obind_ret in H as (rt & _ & H). apply obind_ret in H as (rl & _ & H).
    apply obind_ret in H as (_ & _ & H). apply obind_ret in H as (_ & _ & H).
    apply for_each_ret in H. apply (Forall_impl _ _ _ H). intros e He. apply for_each_ret in He.
    apply (Forall_impl _ _ _ He). intros r Hr. clear H He. rename Hr into H.
    apply obind_ret in H as (_ & _ & H). unfold reloc_check_wf in H.
    destruct (map_get (pr_globals prog) (r_name (snd r))) as [g|]; [|done]. exists g. split; [done|].
    apply ensure_wf_ret in H. lia.
  Qed.

  Lemma named_mono {A} v0 v v' k (sa : A -> Size * Align) l ptrs :
    (forall i x, v !! i = Some x -> v' !! i = Some x) -> named v0 v k sa l ptrs -> named v0 v' k sa l ptrs.
  Proof.
    intros Hv (N1 & N2 & N3). split; [done|]. split; [|done]. intros n x Hx.
    destruct (N2 _ _ Hx) as (ad & id & pe & H1 & H2 & H3). exists ad, id, pe. eauto.
  Qed.

  Lemma mv_app (a b : M) : mv (a ++ b) = mv a ++ mv b.
  Proof. apply map_app. Qed.

  Record started (prog : Program) (m : Mach) : Prop := {
    st_keys : NoDup (List.map fst (m_fnptrs m)) /\ NoDup (List.map fst (m_vtptrs m));
    st_inv : own_inv T prog (lay (ctl m)) (mview m);
    st_globals : NoDup (List.map fst (pr_globals prog)) ->
      named [] (mview m) AGlobal gsa (pr_globals prog) (m_globals m) /\
      forall n g, map_get (pr_globals prog) n = Some g -> filled (m_globals m) (cm_mem (m_mem m)) n g;
    st_fns : NoDup (List.map fst (pr_functions prog)) ->
      named [] (mview m) AFunction (zsa Function) (pr_functions prog) (m_fnptrs m);
    st_vts : NoDup (List.map fst (pr_vtables prog)) ->
      named [] (mview m) AVTable (zsa VTable) (pr_vtables prog) (m_vtptrs m) }.

  Lemma program_wf_start prog start : program_check_wf T prog = Ret tt ->
    map_get (pr_functions prog) (pr_start prog) = Some start -> fn_args start = [].
  Proof.
    unfold program_check_wf. intros H Hs. apply obind_ret in H as (_ & _ & H). apply obind_ret in H as (_ & _ & H).
    rewrite Hs in H.
    apply obind_ret in H as (_ & _ & H). apply obind_ret in H as (rt & _ & H). apply obind_ret in H as (rl & _ & H).
    apply obind_ret in H as (_ & _ & H). apply obind_ret in H as ([] & H1 & _). apply ensure_wf_ret in H1.
    by destruct (fn_args start).
  Qed.

  Lemma start_frame_mem (m : Mach) func cs f m' cs' : fn_args func = [] ->
    create_frame T MO m func BottomOfStack CcC unit_ty [] cs = Ret (f, m', cs') ->
    exists a, cm_mem (m_mem m') = cm_mem (m_mem m) ++ [a].
  Proof.
    intros Ha H. unfold create_frame in H. rewrite Ha in H. apply obind_ret in H as ([[f1 mem1] cs1] & Hl & H).
    cbn [fold_m] in Hl. apply obind_ret in Hl as ([[f2 mem2] cs2] & Hl & [= -> -> ->]).
    destruct (negb _) in H; [done|]. apply obind_ret in H as (rt & _ & H). apply obind_ret in H as (ok & _ & H).
    destruct (negb _) in H; [done|]. cbn in H. injection H as _ <- _. cbn [set_mem m_mem].
    unfold storage_live, storage_dead in Hl. cbn [f_locals f_func] in Hl.
    apply obind_ret in Hl as ([f3 mem3] & Hd & Hl). apply obind_ret in Hd as (ty & _ & Hd). apply obind_ret in Hd as (s & _ & Hd).
    apply obind_ret in Hd as (al & _ & Hd). injection Hd as <- <-.
    apply obind_ret in Hl as (ty' & _ & Hl). apply obind_ret in Hl as (s' & _ & Hl). apply obind_ret in Hl as (al' & _ & Hl).
    apply obind_ret in Hl as ([ad cs3] & _ & Hl). apply obind_ret in Hl as ([p mem4] & Hm & [= _ <- _]).
    apply obind_ret in Hm as ([p' mem5] & Hm & [= _ <-]). apply alloc_app in Hm as (a & -> & _). by exists a.
  Qed.

  Lemma owns_other v : Forall (fun x => v_kind x <> AStack) v -> owns (PE := PE) T v [].
  Proof.
    intros H. split; [constructor|constructor|]. intros id x Hx _ Hk. rewrite Forall_lookup in H. by eapply H in Hx.
  Qed.
  Lemma kinds_mv (mem : M) k : Forall (fun a => al_kind a = k) mem -> k <> AStack -> Forall (fun x => v_kind x <> AStack) (mv mem).
  Proof. intros H Hk. unfold mv. apply List.Forall_map. apply (Forall_impl _ _ _ H). by intros a <-. Qed.

  Lemma start_state prog (m : Mach) : starts T MO prog m -> started prog m.
  Proof.
    intros (cs & rest & H). pose proof H as H'. apply new_ctl in H' as (Hwf & func' & ls & Hfn' & Hctl).
    unfold machine_new in H. apply obind_ret in H as ([] & _ & H).
    apply obind_ret in H as ([[g mem1] cs1] & Hg & H). apply obind_ret in H as (mem2 & Hfill & H).
    apply obind_ret in H as ([[fp mem3] cs2] & Hfp & H). apply obind_ret in H as ([[vp mem4] cs3] & Hvp & H).
    apply obind_ret in H as (func & Hfn & H). apply unwrap_ret in Hfn. rewrite Hfn in Hfn'. injection Hfn' as <-.
    apply obind_ret in H as ([[id m1] cs4] & Hn & H). injection H as <- <-.
    unfold new_thread in Hn. apply obind_ret in Hn as ([[f m2] cs5] & Hc & Hn). injection Hn as _ <- _.
    pose proof (start_frame_mem _ _ _ _ _ _ (program_wf_start _ _ Hwf Hfn) Hc) as [a5 E5].
    match type of Hc with create_frame _ _ ?m0 _ _ _ _ _ _ = _ =>
      pose proof (create_frame_own T MO BL Tok m0 func BottomOfStack CcC unit_ty [] cs3) as Hcf end.
    rewrite Hc in Hcf. destruct Hcf as (Hsame & [ls' Hls] & Hit).
    pose proof (alloc_all_own AGlobal gsa (cm_new MO) cs (pr_globals prog)) as A1.
    rewrite Hg in A1. destruct A1 as (n1 & E1 & K1 & F1 & N1 & D1).
    pose proof (alloc_all_own AFunction (zsa Function) mem2 cs1 (pr_functions prog)) as A3.
    rewrite Hfp in A3. destruct A3 as (n3 & E3 & K3 & F3 & N3 & D3).
    pose proof (alloc_all_own AVTable (zsa VTable) mem3 cs2 (pr_vtables prog)) as A4.
    rewrite Hvp in A4. destruct A4 as (n4 & E4 & K4 & F4 & N4 & D4).
    assert (E0 : cm_mem (cm_new MO) = []) by apply (bl_new _ _ BL). rewrite E0 in *. cbn [app] in E1.
    specialize (F1 (vfit_nil T)).
    assert (E2 : mv (cm_mem mem2) = mv (cm_mem mem1)).
    { clear - Hfill BL. unfold fill_globals in Hfill. revert mem1 Hfill. induction (pr_globals prog) as [|[n x] l IH]; intros mem1 H.
      - by injection H as ->.
      - cbn [fold_m] in H. apply obind_ret in H as (mem & H1 & H). apply IH in H. rewrite H.
        apply obind_ret in H1 as (data & _ & H1). apply obind_ret in H1 as (p & _ & H1). unfold expect_ok in H1.
        destruct (cm_store MO mem1 p data _ _) as [mem'|?| |] eqn:Es; try done. injection H1 as <-.
        apply obind_ret in Es as (mem3 & Es & [= <-]). by apply (store_mv T MO BL) in Es. }
    rewrite <-E2 in F1. specialize (F3 F1). specialize (F4 F3).
    change (mview _) with (mv (cm_mem mem4)) in Hit at 1.
    assert (Hk4 : Forall (fun x => v_kind x <> AStack) (mv (cm_mem mem4))).
    { rewrite E4, E3, !mv_app, E2, E1, !Forall_app. repeat split; by eapply kinds_mv. }
    assert (Hm4 : forall i x, mv (cm_mem mem4) !! i = Some x -> mv (cm_mem (m_mem m2)) !! i = Some x).
    { intros i x Hx. rewrite E5. cbn [m_mem]. rewrite mv_app. by apply lookup_app_l_Some. }
    assert (Hm3 : forall i x, mv (cm_mem mem3) !! i = Some x -> mv (cm_mem (m_mem m2)) !! i = Some x).
    { intros i x Hx. apply Hm4. rewrite E4, mv_app. by apply lookup_app_l_Some. }
    assert (Hm2 : forall i x, mv (cm_mem mem2) !! i = Some x -> mv (cm_mem (m_mem m2)) !! i = Some x).
    { intros i x Hx. apply Hm3. rewrite E3, mv_app. by apply lookup_app_l_Some. }
    assert (m_globals m2 = g /\ m_fnptrs m2 = fp /\ m_vtptrs m2 = vp) as (Eg & Ef & Ev).
    { unfold same, ctl in Hsame. cbn in Hsame. by injection Hsame. }
    split.
    - cbn [set_threads m_fnptrs m_vtptrs]. by rewrite Ef, Ev.
    - rewrite Hctl. unfold lay. cbn [c_threads List.map tc_stack concat].
      assert (Hff : fctl f = mkFCtl func ls BottomOfStack (fn_start func) 0).
      { assert (Ht : c_threads (ctl m2) = []) by (rewrite Hsame; done). cbn in Ht.
        unfold ctl in Hctl. cbn in Hctl. rewrite map_app, Ht in Hctl. cbn in Hctl. unfold tctl in Hctl. cbn in Hctl. congruence. }
      rewrite <-Hff. change (mview (set_threads m2 _)) with (mview m2).
      eapply new_frame_inv in Hit as (I1 & I2 & I3 & I4); [|exact Hfn|by apply owns_other|done].
      split; cbn [concat app]; [done|by repeat constructor|by repeat constructor|done].
    - intros Hd. cbn [set_threads m_globals m_mem]. rewrite Eg. specialize (N1 Hd).
      pose proof (program_wf_relocs _ Hwf) as Hr. rewrite E2 in F1.
      pose proof (fill_ok g (pr_globals prog) mem1 Hd N1 F1 Hr) as Hfo. rewrite Hfill in Hfo. destruct Hfo as [_ Hfo]. split.
      + rewrite <-E2 in N1. by eapply named_mono.
      + intros n x Hx. destruct (Hfo _ _ Hx) as (p & a & H1 & H2 & H3). exists p, a. split; [done|]. split; [|done].
        rewrite E5. apply lookup_app_l_Some. cbn [m_mem]. rewrite E4. apply lookup_app_l_Some. rewrite E3. by apply lookup_app_l_Some.
    - intros Hd. cbn [set_threads m_fnptrs]. rewrite Ef. destruct (N3 Hd) as (B1 & B2 & B3).
      apply (named_mono _ _ _ _ _ _ _ Hm3). split; [done|]. split; [|done]. intros n x Hx.
      destruct (B2 _ _ Hx) as (ad & i & pe & ? & _ & ?). exists ad, i, pe. split; [done|]. split; [cbn; lia|done].
    - intros Hd. cbn [set_threads m_vtptrs]. rewrite Ev. destruct (N4 Hd) as (B1 & B2 & B3).
      apply (named_mono _ _ _ _ _ _ _ Hm4). split; [done|]. split; [|done]. intros n x Hx.
      destruct (B2 _ _ Hx) as (ad & i & pe & ? & _ & ?). exists ad, i, pe. split; [done|]. split; [cbn; lia|done].
  Qed.
End New.
