(** Proofs about translated enums (C83, C84). *)
From Verif Require Export MirTyProofs.

Lemma fold_insert1 {X K V} `{EqDecision K} (kv : X -> K * V) xs : NoDup (List.map (fun x => fst (kv x)) xs) ->
  fold_left (fun m x => map_insert m (fst (kv x)) (snd (kv x))) xs [] = List.map kv xs.
Proof.
  intros H. pose proof (fold_insert2 (V2 := unit) (K2 := unit) kv (fun _ => None) xs ([], []) H) as H2.
  assert (E : forall xs a, fst (fold_left (insert2 kv (fun _ => (None : option (unit * unit)))) xs a) =
    fold_left (fun m x => map_insert m (fst (kv x)) (snd (kv x))) xs (fst a)).
  { clear. induction xs as [|x xs IH]; intros a; [done|]. cbn. by rewrite IH. }
  pose proof (E xs ([], [])) as E0. cbn [fst] in E0. rewrite <- E0, H2; [done|]. cbn. replace (omap (fun _ : X => None) xs) with (@nil (unit * unit)); [constructor|].
  clear. induction xs as [|x xs IH]; [done|]. cbn. exact IH.
Qed.

Section Enum.
  Notation T := x86_64.
  Context (L : RTypes) (ht : TraitName -> bool) (r : RTy) (dit : IntType) (vs : list (Z * list RTy)).
  Notation wf t := (ty_check_wf T ht t = Ret tt).
  Notation l := (ty_layout L r).
  Notation fty_ok := (fty_ok L ht).
  Context (tr : trans) (Hlay : lay_ok L r) (Hdit : rust_int dit)
    (Hnd : NoDup (List.map (fun v => int_from_bits (fst v) dit) vs))
    (Htr : forall v ty, v ∈ vs -> ty ∈ snd v -> yields (fun m => tr m ty) (fty_ok ty)).
  Notation d_of v := (int_from_bits (fst v) dit).

  Lemma tagger_ok_wf size tg : Forall (tagger_ok size) tg -> tagger_check_wf size tg = Ret tt.
  Proof.
    intros H. unfold tagger_check_wf. apply for_each_ret. eapply Forall_impl; [exact H|]. intros e (H1 & H2 & H3).
    unfold inttype_check_wf. rewrite H1. cbn [ensure_wf obind]. rewrite H2. cbn [ensure_wf obind]. by rewrite (proj2 (N.leb_le _ _) H3).
  Qed.
  Lemma enum_wf (tv : list (Z * (Ty * Tagger))) discr s a :
    (forall e, In e tv -> can_represent dit (fst e) = true /\ wf (fst (snd e)) /\ layout T (fst (snd e)) = Ret (LSized s a) /\
                          Forall (tagger_ok s) (snd (snd e))) ->
    discr_check_wf s tv discr = Ret tt -> valid_size T s = true -> (s mod align_bytes a = 0)%N -> wf (TEnum tv dit discr s a).
  Proof.
    clear Htr. intros Htv Hd Hv Ha. cbn [ty_check_wf].
    match goal with |- obind (obind (for_each ?f tv) _) _ = _ => assert (for_each f tv = Ret tt) as -> end.
    { apply for_each_ret. apply List.Forall_forall. intros e He. destruct (Htv e He) as (H1 & H2 & H3 & H4).
      rewrite H1. cbn [ensure_wf obind]. rewrite H2. cbn [obind]. rewrite H3. cbn [obind]. rewrite N.eqb_refl. cbn [ensure_wf obind].
      rewrite (proj2 (align_le_bytes a a) ltac:(lia)). cbn [ensure_wf obind]. by apply tagger_ok_wf. }
    cbn [obind]. rewrite Hd. cbn [obind]. by eapply final_sized.
  Qed.
  Lemma map_contains_in {V} (m : list (Z * V)) k v : In (k, v) m -> map_contains m k = true.
  Proof.
    unfold map_contains. intros H. induction m as [|[k' v'] m IH]; [done|].
    rewrite map_get_cons. destruct (bool_decide (k' = k)) eqn:E; [done|]. apply IH. destruct H as [[= -> ->]|H]; [|done].
    by rewrite bool_decide_eq_false in E.
  Qed.

  Lemma variant_layout fs : layout T (b_tuple_ty fs (rl_size l) (rl_align l)) = Ret (LSized (rl_size l) (rl_align l)).
  Proof. apply tuple_layout. apply Hlay. Qed.

  (** *** One inhabited variant *)
  Definition single_kv (x : (nat * (Z * list RTy)) * list (Offset * Ty)) : Z * (Ty * Tagger) :=
    (d_of (snd (fst x)), (b_tuple_ty (snd x) (rl_size l) (rl_align l), [])).

  Lemma zip_enum_lookup {F} (fls : list F) j x : zip (enumerate vs) fls !! j = Some x ->
    fst (fst x) = j /\ vs !! j = Some (snd (fst x)) /\ fls !! j = Some (snd x).
  Proof. intros H. apply lookup_zip_with_Some in H as (iv & f & -> & Hiv & Hf). apply enumerate_lookup in Hiv as [? ?]. done. Qed.
  Lemma zip_enum_in {F} (fls : list F) x : In x (zip (enumerate vs) fls) -> exists j, fst (fst x) = j /\ vs !! j = Some (snd (fst x)) /\ fls !! j = Some (snd x).
  Proof. intros H. apply elem_of_list_In, elem_of_list_lookup in H as [j H]. exists j. by apply zip_enum_lookup. Qed.
  Lemma in_zip_enum {F} (fls : list F) j v f : vs !! j = Some v -> fls !! j = Some f -> In ((j, v), f) (zip (enumerate vs) fls).
  Proof.
    intros Hv Hf. apply elem_of_list_In, elem_of_list_lookup. exists j. apply lookup_zip_with_Some. exists (j, v), f. split; [done|]. split; [|done].
    by apply enumerate_lookup.
  Qed.
  Lemma discr_keys {F} (fls : list F) : NoDup (List.map (fun x => d_of (snd (fst x))) (zip (enumerate vs) fls)).
  Proof. clear Hlay Hdit Htr L ht r tr.
    eapply (FOP_NoDup (fun x y => fst (fst x) <> fst (fst y))).
    - apply FOP_of_lookup. intros i j x y Hij Hx Hy. apply zip_enum_lookup in Hx as (-> & _), Hy as (-> & _). lia.
    - intros x y Hx Hy Hne E. apply elem_of_list_In, zip_enum_in in Hx as (i & Hi & Hvi & _), Hy as (j & Hj & Hvj & _).
      apply Hne. rewrite Hi, Hj. change (List.map (fun v => d_of v) vs) with ((fun v : Z * list RTy => d_of v) <$> vs) in Hnd.
      eapply (proj1 (NoDup_alt _) Hnd).
      + rewrite list_lookup_fmap, Hvi. reflexivity.
      + rewrite list_lookup_fmap, Hvj. cbn. by rewrite E.
  Qed.

  Lemma single_yields i v : vs !! i = Some v -> fields_ok L True (rl_offsets l) (snd v) (lsize L r) ->
    (forall j w ty, vs !! j = Some w -> j <> i -> ty ∈ snd w -> lsized L ty /\ lsize L ty = 0%N) ->
    yields (fun m => enum_single (tr m) l dit vs i)
      (fun p => exists fls, length fls = length vs /\ fst p = List.map single_kv (zip (enumerate vs) fls) /\ snd p = DKnown (d_of v) /\
        (forall j w fs, vs !! j = Some w -> fls !! j = Some fs -> Forall2 (ftr L ht tr) (snd w) fs.*2 /\ (j = i -> fs.*1 = rl_offsets l) /\ wf (b_tuple_ty fs (rl_size l) (rl_align l)))).
  Proof.
    intros Hi Hf Hz. destruct Hlay as (_ & Hv & Ha). unfold enum_single.
    eapply yields_bind with (P := fun tv => exists fls, length fls = length vs /\ tv = List.map single_kv (zip (enumerate vs) fls) /\
      (forall j w fs, vs !! j = Some w -> fls !! j = Some fs -> Forall2 (ftr L ht tr) (snd w) fs.*2 /\ (j = i -> fs.*1 = rl_offsets l) /\ wf (b_tuple_ty fs (rl_size l) (rl_align l)))).
    - eapply yields_ext with (f := fun m => fold_m (fun tv x =>
          let! fl := variant_fields (tr m) (if (fst x =? i)%nat then Some (rl_offsets l) else None) (snd (snd x)) in
          Ret ((fun (x : nat * (Z * list RTy)) fl tv => map_insert tv (d_of (snd x)) (b_tuple_ty fl (rl_size l) (rl_align l), ([] : Tagger))) x fl tv)) (enumerate vs) []).
      { intros m. apply fold_m_ext. intros b [j [bits tys]]. done. }
      eapply yields_mono; [apply (fold_yield (fun m x => variant_fields (tr m) (if (fst x =? i)%nat then Some (rl_offsets l) else None) (snd (snd x)))
         _ (fun x fs => Forall2 (ftr L ht tr) (snd (snd x)) fs.*2 /\ (fst x = i -> fs.*1 = rl_offsets l) /\ wf (b_tuple_ty fs (rl_size l) (rl_align l))))|].
      + intros [j w] Hx. apply elem_of_list_lookup in Hx as [k Hx]. apply enumerate_lookup in Hx as [Hw Hk]. cbn in Hw, Hk. subst k. cbn [fst snd].
        assert (w ∈ vs) as Hin by (by eapply elem_of_list_lookup_2).
        destruct (Nat.eqb_spec j i) as [->|Hne].
        * rewrite Hi in Hw. injection Hw as <-. eapply yields_mono; [apply fields_some; [apply Hf|intros ty; by apply Htr]|].
          cbn beta. intros fs [E HF]. split; [done|]. split; [done|]. apply ftr_all in HF. by eapply fields_ok_wf.
        * eapply yields_mono; [apply fields_none; [intros ty; by apply Htr|intros ty Hty; by eapply Hz]|].
          cbn beta. intros fs [E HF]. split; [done|]. split; [done|]. apply ftr_all in HF. eapply fields_zero_wf; [done|done| |done|done]. intros ty Hty. by eapply Hz.
      + cbn beta. intros tv (fls & HF & ->). exists fls. pose proof (Forall2_length _ _ _ HF) as Hlen. rewrite enumerate_length in Hlen.
        split; [done|]. split.
        * rewrite <- fold_insert1; [done|]. apply discr_keys.
        * intros j w fs Hw Hfs. rewrite Forall2_lookup in HF. specialize (HF j). rewrite Hfs in HF.
          assert (enumerate vs !! j = Some (j, w)) as Hj by (by apply enumerate_lookup). rewrite Hj in HF. inversion HF as [? ? H|]; subst. exact H.
    - cbn beta. intros tv (fls & Hlen & -> & Hfls). rewrite Hi. cbn [unwrap obind]. apply yields_ret. exists fls. done.
  Qed.

  (** *** Several variants *)
  Section Multiple.
    Context (tag : RTag) (tit : IntType) (off : Offset) (shapes : list (list Offset)).
    Context (Htit : rust_int tit) (Hsz : tg_size tag = it_size tit) (Hoff : (off + it_size tit <= lsize L r)%N)
      (Hsh : Forall2 (fun shape v => fields_ok L True shape (snd v) (lsize L r)) shapes vs).
    Notation M := (tag_values tit).
    Notation Xs := ((nat * (Z * list RTy)) * list (Offset * Ty))%type.

    (** the entries of the two maps *)
    Definition multi_kv (enc : RTagEncoding) (x : Xs) : Z * (Ty * Tagger) :=
      let '((i, (bits, tys)), fs) := x in
      let ty := b_tuple_ty fs (rl_size l) (rl_align l) in
      match enc with
      | TeDirect => let d := int_from_bits bits dit in (d, (ty, [(off, (tit, d))]))
      | TeNiche u first last ns =>
          let d := int_from_bits bits tit in
          let t := int_bring_in_bounds tit (d - Z.of_nat first + ns) in
          (d, (ty, if negb (u =? i)%nat then [(off, (tit, t))] else []))
      end.
    Definition multi_br (enc : RTagEncoding) (x : Xs) : option ((Z * Z) * Discriminator) :=
      let '((i, (bits, tys)), fs) := x in
      match enc with
      | TeDirect => let d := int_from_bits bits dit in Some ((d, d + 1), DKnown d)
      | TeNiche u first last ns =>
          let d := int_from_bits bits tit in
          let t := int_bring_in_bounds tit (d - Z.of_nat first + ns) in
          if negb (u =? i)%nat then Some ((t, t + 1), DKnown d)
          else if (first <=? i)%nat && (i <=? last)%nat then Some ((t, t + 1), DInvalid) else None
      end.
    Lemma enum_variant_insert enc (x : Xs) acc :
      enum_variant l dit tit off enc (fst (fst x)) (fst (snd (fst x))) (snd x) acc = insert2 (multi_kv enc) (multi_br enc) acc x.
    Proof.
      destruct x as [[i [bits tys]] fs], acc as [tv br]. unfold enum_variant, insert2, multi_kv, multi_br. cbn [fst snd].
      destruct enc as [|u first last ns]; [done|]. destruct (negb (u =? i)%nat); [done|]. destruct (_ && _); done.
    Qed.

    (** the tag of a variant *)
    Definition tag_of (first : nat) (ns : Z) (i : nat) : Z := int_bring_in_bounds tit (Z.of_nat i - Z.of_nat first + ns).
    Lemma tag_of_in first ns i : can_represent tit (tag_of first ns i) = true.
    Proof. apply bring_in_bounds_in. Qed.
    Lemma tag_of_bits first ns i : tag_of first ns i mod M = niche_bits tit first ns i.
    Proof. clear Hlay Hdit Hnd Htr Htit Hsz Hoff Hsh L ht r dit vs tr tag off shapes.
      unfold tag_of, int_bring_in_bounds, niche_bits, tag_values. fold (size_bits (it_size tit)). rewrite bring_in_bounds_mod. f_equal. lia.
    Qed.
    Lemma niche_bits_inj first last ns i j : Z.of_nat last - Z.of_nat first < M ->
      (first <= i <= last)%nat -> (first <= j <= last)%nat -> niche_bits tit first ns i = niche_bits tit first ns j -> i = j.
    Proof. clear Hlay Hdit Hnd Htr Hsz Hoff Hsh L ht r dit vs tr tag off shapes.
      intros HM Hi Hj E. unfold niche_bits in E. destruct (tag_half tit Htit) as (H & EM & HH & _).
      assert (((ns + (Z.of_nat i - Z.of_nat first)) - (ns + (Z.of_nat j - Z.of_nat first))) mod M = 0) as E0.
      { rewrite Zminus_mod, E, Z.sub_diag. apply Z.mod_0_l. lia. }
      apply Z.mod_divide in E0; [|lia]. destruct E0 as [k Hk]. destruct (Z.eq_dec k 0); [lia|]. exfalso.
      assert (k <= -1 \/ 1 <= k) as [|] by lia; nia.
    Qed.
    Lemma tag_of_eq first ns i z : can_represent tit z = true -> z mod M = niche_bits tit first ns i <-> z = tag_of first ns i.
    Proof. clear Hlay Hdit Hnd Htr Hsz Hoff Hsh L ht r dit vs tr tag off shapes.
      intros Hz. split; [|intros ->; apply tag_of_bits]. intros E. apply (value_unique tit); [done|apply tag_of_in|]. by rewrite tag_of_bits.
    Qed.

    (** plain encodings: in either encoding, the key is the discriminant *)
    Lemma multi_facts enc : encoding_ok L True dit tit tag vs enc ->
      forall x : Xs, vs !! fst (fst x) = Some (snd (fst x)) ->
        fst (multi_kv enc x) = d_of (snd (fst x)) /\
        fst (snd (multi_kv enc x)) = b_tuple_ty (snd x) (rl_size l) (rl_align l) /\
        (forall e, In e (snd (snd (multi_kv enc x))) -> fst e = off /\ fst (snd e) = tit /\ can_represent tit (snd (snd e)) = true) /\
        (forall b, multi_br enc x = Some b -> can_represent tit (fst (fst b)) = true /\ snd (fst b) = fst (fst b) + 1 /\
                                              (snd b = DInvalid \/ snd b = DKnown (d_of (snd (fst x))))).
    Proof.
      intros He [[i [bits tys]] fs] Hv. cbn [fst snd] in Hv |- *. destruct enc as [|u first last ns]; cbn [multi_kv multi_br fst snd].
      - assert (can_represent tit (int_from_bits bits dit) = true) as Hr.
        { apply (He (bits, tys)). by eapply elem_of_list_lookup_2. }
        split; [done|]. split; [done|]. split; [intros e [<-|[]]; done|]. intros b [= <-]. cbn. auto.
      - destruct He as (Hu & Hfl & Hd & Hns & Hs & Hen & HM & Hval & Habs & Hplain).
        destruct (Hplain I i) as [Hin Hri]; [by eapply lookup_lt_Some|]. destruct (Hd _ _ Hv) as [Hdi Hbi]. cbn in Hdi, Hbi.
        rewrite Hdi, Hbi. rewrite (bits_id tit Htit) by done. split; [done|]. split; [done|]. split.
        + intros e. destruct (negb (u =? i)%nat); [|done]. intros [<-|[]]. cbn. split; [done|]. split; [done|]. apply bring_in_bounds_in.
        + intros b. destruct (negb (u =? i)%nat); [intros [= <-]; cbn; split; [apply bring_in_bounds_in|auto]|].
          destruct (_ && _); [|done]. intros [= <-]. cbn. split; [apply bring_in_bounds_in|auto].
    Qed.
    Lemma multi_br_niche u first last ns x b : encoding_ok L True dit tit tag vs (TeNiche u first last ns) ->
      vs !! fst (fst x) = Some (snd (fst x)) -> multi_br (TeNiche u first last ns) x = Some b ->
      (first <= fst (fst x) <= last)%nat /\ fst (fst b) = tag_of first ns (fst (fst x)) /\
      snd b = if (u =? fst (fst x))%nat then DInvalid else DKnown (Z.of_nat (fst (fst x))).
    Proof.
      intros (Hu & Hfl & Hd & Hns & Hs & Hen & HM & Hval & Habs & Hplain). destruct x as [[i [bits tys]] fs]. cbn [fst snd multi_br]. intros Hv.
      destruct (Hplain I i) as [Hin Hri]; [by eapply lookup_lt_Some|]. destruct (Hd _ _ Hv) as [Hdi Hbi]. cbn in Hdi, Hbi.
      rewrite Hbi. rewrite (bits_id tit Htit) by done. destruct (Nat.eqb_spec u i) as [->|Hne]; cbn [negb].
      - destruct (first <=? i)%nat eqn:E1, (i <=? last)%nat eqn:E2; cbn; intros [= <-]. cbn. split; [lia|]. done.
      - intros [= <-]. cbn. split; [apply Hin; congruence|]. done.
    Qed.
    Lemma multi_br_apart enc fls : encoding_ok L True dit tit tag vs enc -> ForallOrdPairs branch_apart (omap (multi_br enc) (zip (enumerate vs) fls)).
    Proof.
      intros He. apply FOP_omap. apply FOP_of_lookup. intros i j x y Hij Hx Hy p q Hp Hq.
      apply zip_enum_lookup in Hx as (Hxi & Hvx & _), Hy as (Hyj & Hvy & _). subst i j.
      destruct (multi_facts enc He x Hvx) as (_ & _ & _ & Hbx). destruct (multi_facts enc He y Hvy) as (_ & _ & _ & Hby).
      destruct (Hbx _ Hp) as (_ & Ep & _), (Hby _ Hq) as (_ & Eq & _).
      assert (fst (fst p) <> fst (fst q)) as Hne; [|unfold branch_apart; lia].
      destruct enc as [|u first last ns].
      - destruct x as [[i [bits tys]] fs], y as [[j [bits' tys']] fs']. cbn in Hp, Hq, Hvx, Hvy, Hij. injection Hp as <-. injection Hq as <-. cbn.
        intros E. change (List.map (fun v => d_of v) vs) with ((fun v : Z * list RTy => d_of v) <$> vs) in Hnd.
        assert (i = j); [|lia]. eapply (proj1 (NoDup_alt _) Hnd).
        + rewrite list_lookup_fmap, Hvx. reflexivity.
        + rewrite list_lookup_fmap, Hvy. cbn. by rewrite E.
      - destruct (multi_br_niche _ _ _ _ _ _ He Hvx Hp) as (Hi & Ep' & _). destruct (multi_br_niche _ _ _ _ _ _ He Hvy Hq) as (Hj & Eq' & _).
        rewrite Ep', Eq'. intros E. assert (fst (fst x) = fst (fst y)); [|lia]. destruct He as (_ & _ & _ & _ & _ & _ & HM & _).
        eapply niche_bits_inj; [exact HM|exact Hi|exact Hj|]. by rewrite <- !tag_of_bits, E.
    Qed.

    (** the invalid values of a niche *)
    Definition invalid_ranges : list (Z * Z) :=
      let start := int_from_bits (tg_start tag) tit in
      let end_ := int_from_bits (tg_end tag) tit in
      let min := match it_signed tit with Signed => - 2 ^ (8 * Z.of_N (it_size tit) - 1) | Unsigned => 0 end in
      let max := match it_signed tit with Signed => 2 ^ (8 * Z.of_N (it_size tit) - 1) - 1 | Unsigned => M - 1 end in
      if start <=? end_ then
        (if end_ <? max then [(end_ + 1, max + 1)] else []) ++ (if min <? start then [(min, start)] else [])
      else if end_ + 1 <? start then [(end_ + 1, start)] else [].
    Lemma invalid_spec : 0 <= tg_start tag < M -> 0 <= tg_end tag < M ->
      (forall z, can_represent tit z = true -> ((exists rg, In rg invalid_ranges /\ in_range z rg = true) <-> ~ wrapping_range (tg_start tag) (tg_end tag) (z mod M))) /\
      Forall (fun rg => can_represent tit (fst rg) = true /\ can_represent tit (snd rg - 1) = true /\ fst rg < snd rg) invalid_ranges /\
      ForallOrdPairs (fun a b => snd a <= fst b \/ snd b <= fst a) invalid_ranges.
    Proof.
      intros Hs He. pose proof (bits_in tit Htit (tg_start tag)) as HS. pose proof (bits_in tit Htit (tg_end tag)) as HE.
      pose proof (fun z => range_values tit Htit (tg_start tag) (tg_end tag) z Hs He) as HR. cbv zeta in HR.
      assert (HB := tag_bounds tit Htit). destruct (tag_half tit Htit) as (H & EM & HH & EH). unfold size_bits in EH.
      unfold invalid_ranges. rewrite EH.
      set (S := int_from_bits (tg_start tag) tit) in *. set (E := int_from_bits (tg_end tag) tit) in *. clearbody S E.
      apply HB in HS, HE. split; [|split].
      - intros z Hz. rewrite (HR z Hz). apply HB in Hz. clear HR HB. 
        destruct (Z.leb_spec S E).
        + split.
          * intros (rg & Hin & Hr). unfold in_range in Hr. destruct (it_signed tit);
              apply in_app_or in Hin as [Hin|Hin]; match type of Hin with In _ (if ?c then _ else _) => destruct c eqn:EC end;
              cbn in Hin; destruct Hin as [<-|[]] || destruct Hin; cbn in Hr; lia.
          * intros Hn. destruct (Z.lt_ge_cases z S) as [Hlt|Hge].
            -- exists (match it_signed tit with Signed => - H | Unsigned => 0 end, S). split; [|unfold in_range; cbn; destruct (it_signed tit); lia].
               apply in_or_app. right. replace (match it_signed tit with Signed => - H | Unsigned => 0 end <? S) with true by (destruct (it_signed tit); lia). by left.
            -- exists (E + 1, match it_signed tit with Signed => H - 1 | Unsigned => M - 1 end + 1). split; [|unfold in_range; cbn; destruct (it_signed tit); lia].
               apply in_or_app. left. replace (E <? match it_signed tit with Signed => H - 1 | Unsigned => M - 1 end) with true by (destruct (it_signed tit); lia). by left.
        + split.
          * intros (rg & Hin & Hr). unfold in_range in Hr. destruct (Z.ltb_spec (E + 1) S); [|done]. destruct Hin as [<-|[]]. cbn in Hr. lia.
          * intros Hn. exists (E + 1, S). split; [|unfold in_range; cbn; lia]. replace (E + 1 <? S) with true by lia. by left.
      - setoid_rewrite HB. destruct (Z.leb_spec S E).
        + apply Forall_app. split; [destruct (Z.ltb_spec E (match it_signed tit with Signed => H - 1 | Unsigned => M - 1 end))|
            destruct (Z.ltb_spec (match it_signed tit with Signed => - H | Unsigned => 0 end) S)]; repeat constructor; cbn; destruct (it_signed tit); lia.
        + destruct (Z.ltb_spec (E + 1) S); repeat constructor; cbn; destruct (it_signed tit); lia.
      - destruct (Z.leb_spec S E).
        + destruct (Z.ltb_spec E (match it_signed tit with Signed => H - 1 | Unsigned => M - 1 end));
            destruct (Z.ltb_spec (match it_signed tit with Signed => - H | Unsigned => 0 end) S); repeat constructor; cbn; lia.
        + destruct (Z.ltb_spec (E + 1) S); repeat constructor.
    Qed.
    Definition fallback (enc : RTagEncoding) : Discriminator := match enc with TeDirect => DInvalid | TeNiche u _ _ _ => DKnown (Z.of_nat u) end.
    Definition extra (enc : RTagEncoding) : list ((Z * Z) * Discriminator) :=
      match enc with TeDirect => [] | TeNiche _ _ _ _ => List.map (fun rg => (rg, DInvalid)) invalid_ranges end.

    Lemma extra_apart enc fls : encoding_ok L True dit tit tag vs enc -> ForallOrdPairs branch_apart (omap (multi_br enc) (zip (enumerate vs) fls) ++ extra enc).
    Proof.
      intros He. apply FOP_app; [by apply multi_br_apart| |].
      - destruct enc as [|u first last ns]; [constructor|]. cbn. rewrite FOP_map. destruct He as (_ & _ & _ & _ & Hs & Hen & _).
        eapply FOP_impl; [|apply (proj2 (proj2 (invalid_spec Hs Hen)))]. by intros.
      - intros b c Hb Hc. destruct enc as [|u first last ns]; [by apply elem_of_nil in Hc|]. cbn in Hc.
        apply elem_of_list_In, in_map_iff in Hc as (rg & <- & Hrg).
        apply elem_of_list_omap in Hb as (x & Hx & Hb). apply elem_of_list_In, zip_enum_in in Hx as (j & Hj & Hv & _). rewrite <- Hj in Hv.
        destruct (multi_facts _ He x Hv) as (_ & _ & _ & Hf). destruct (Hf _ Hb) as (Hr & Eb & _).
        destruct (multi_br_niche _ _ _ _ _ _ He Hv Hb) as (Hin & Et & _).
        pose proof He as (_ & _ & _ & _ & Hs & Hen & _ & Hval & _).
        destruct (invalid_spec Hs Hen) as (Hiff & HF & _). rewrite List.Forall_forall in HF. destruct (HF _ Hrg) as (_ & _ & Hlt).
        assert (in_range (fst (fst b)) rg = false) as Hno.
        { destruct (in_range (fst (fst b)) rg) eqn:E; [|done]. exfalso. eapply (proj1 (Hiff _ Hr)); [by exists rg|]. rewrite Et, tag_of_bits. by apply Hval. }
        unfold branch_apart. rewrite Eb. cbn. unfold in_range in Hno. lia.
    Qed.
    Lemma niche_invalid_extra u first last ns fls : encoding_ok L True dit tit tag vs (TeNiche u first last ns) ->
      niche_invalid tag tit (omap (multi_br (TeNiche u first last ns)) (zip (enumerate vs) fls)) =
      omap (multi_br (TeNiche u first last ns)) (zip (enumerate vs) fls) ++ extra (TeNiche u first last ns).
    Proof.
      intros He. pose proof (extra_apart _ fls He) as Ha.
      assert (Hne : forall b, b ∈ omap (multi_br (TeNiche u first last ns)) (zip (enumerate vs) fls) ++ extra (TeNiche u first last ns) -> fst (fst b) < snd (fst b)).
      { intros b [Hb|Hb]%elem_of_app.
        - apply elem_of_list_omap in Hb as (x & Hx & Hb). apply elem_of_list_In, zip_enum_in in Hx as (j & Hj & Hv & _). rewrite <- Hj in Hv.
          destruct (multi_facts _ He x Hv) as (_ & _ & _ & Hf). destruct (Hf _ Hb) as (_ & -> & _). lia.
        - cbn in Hb. apply elem_of_list_In, in_map_iff in Hb as (rg & <- & Hrg). destruct He as (_ & _ & _ & _ & Hs & Hen & _).
          destruct (invalid_spec Hs Hen) as (_ & HF & _). rewrite List.Forall_forall in HF. apply (HF _ Hrg). }
      assert (Hndk : NoDup (List.map fst (omap (multi_br (TeNiche u first last ns)) (zip (enumerate vs) fls) ++ extra (TeNiche u first last ns)))).
      { eapply FOP_NoDup; [exact Ha|]. intros x y Hx Hy Hap E. apply Hne in Hx, Hy. unfold branch_apart in Hap. rewrite E in *. lia. }
      revert Hndk. generalize (omap (multi_br (TeNiche u first last ns)) (zip (enumerate vs) fls)). intros br Hnd'. clear Ha Hne.
      unfold niche_invalid. rewrite Hsz. unfold extra, invalid_ranges in *. cbv zeta in *. fold (tag_values tit).
      assert (Hins : forall (br' : list ((Z * Z) * Discriminator)) (rg : Z * Z), NoDup (List.map fst (br' ++ [(rg, DInvalid)])) -> map_insert br' rg DInvalid = br' ++ [(rg, DInvalid)]).
      { intros br' rg Hn. apply map_insert_fresh. rewrite map_app in Hn. apply NoDup_app in Hn as (_ & Hn & _). intros Hin. apply (Hn rg); [by apply elem_of_list_In|]. left. }
      set (mx := match it_signed tit with Signed => 2 ^ (8 * Z.of_N (it_size tit) - 1) - 1 | Unsigned => M - 1 end) in *.
      set (mn := match it_signed tit with Signed => - 2 ^ (8 * Z.of_N (it_size tit) - 1) | Unsigned => 0 end) in *. clearbody mx mn.
      destruct (_ <=? _); [|destruct (_ <? _)].
      - match goal with |- context [if ?c then map_insert br _ _ else br] => destruct c end; cbn [app List.map] in *.
        + match type of Hnd' with context [if ?c then _ else _] => destruct c end; cbn [app List.map] in *.
          * rewrite (Hins br). { rewrite Hins; [by rewrite <- app_assoc|]. by rewrite <- app_assoc. }
            rewrite map_app in Hnd' |- *. cbn in Hnd' |- *. rewrite (app_assoc _ [_] [_] : _ ++ _ :: [_] = _) in Hnd'. by apply NoDup_app in Hnd' as (Hn & _).
          * by apply Hins.
        + match type of Hnd' with context [if ?c then _ else _] => destruct c end; cbn [app List.map] in *.
          * by apply Hins.
          * by rewrite app_nil_r.
      - cbn [app List.map] in *. by apply Hins.
      - cbn. by rewrite app_nil_r.
    Qed.

    Definition multi_form (enc : RTagEncoding) (p : Variants * Discriminator) : Prop :=
      exists fls, length fls = length vs /\ fst p = List.map (multi_kv enc) (zip (enumerate vs) fls) /\
        snd p = DBranch off tit (fallback enc) (omap (multi_br enc) (zip (enumerate vs) fls) ++ extra enc) /\
        (forall j w fs, vs !! j = Some w -> fls !! j = Some fs -> Forall2 (ftr L ht tr) (snd w) fs.*2 /\ shapes !! j = Some fs.*1 /\ wf (b_tuple_ty fs (rl_size l) (rl_align l))).

    Lemma multi_yields enc tf : rl_offsets l !! tf = Some off -> yields (fun m => int_ty_of (tr m) (tg_int_ty tag)) (eq tit) ->
      encoding_ok L True dit tit tag vs enc ->
      yields (fun m => enum_multiple (tr m) l dit vs tag enc tf shapes) (multi_form enc).
    Proof.
      intros Hof Hti He. destruct Hlay as (_ & Hv & Ha). unfold enum_multiple. rewrite Hof. cbn [unwrap obind].
      eapply yields_bind; [exact Hti|]. cbn beta. intros ? <-.
      eapply yields_bind with (P := fun p => exists fls, length fls = length vs /\
          p = (List.map (multi_kv enc) (zip (enumerate vs) fls), omap (multi_br enc) (zip (enumerate vs) fls)) /\
        (forall j w fs, vs !! j = Some w -> fls !! j = Some fs -> Forall2 (ftr L ht tr) (snd w) fs.*2 /\ shapes !! j = Some fs.*1 /\ wf (b_tuple_ty fs (rl_size l) (rl_align l)))).
      - eapply yields_ext with (f := fun m => fold_m (fun acc x =>
          let! fl := (let! shape := unwrap (shapes !! fst x) in variant_fields (tr m) (Some shape) (snd (snd x))) in
          Ret ((fun (x : nat * (Z * list RTy)) fl acc => enum_variant l dit tit off enc (fst x) (fst (snd x)) fl acc) x fl acc)) (enumerate vs) ([], [])).
        { intros m. apply fold_m_ext. intros b [j [bits tys]]. cbn [fst snd]. destruct (shapes !! j); done. }
        eapply yields_mono; [apply (fold_yield (fun m x => let! shape := unwrap (shapes !! fst x) in variant_fields (tr m) (Some shape) (snd (snd x)))
           _ (fun x fs => Forall2 (ftr L ht tr) (snd (snd x)) fs.*2 /\ shapes !! fst x = Some fs.*1 /\ wf (b_tuple_ty fs (rl_size l) (rl_align l))))|].
        + intros [j w] Hx. apply elem_of_list_lookup in Hx as [k Hx]. apply enumerate_lookup in Hx as [Hw Hk]. cbn in Hw, Hk. subst k. cbn [fst snd].
          assert (w ∈ vs) as Hin by (by eapply elem_of_list_lookup_2).
          pose proof (proj1 (Forall2_lookup _ _ _) Hsh j) as Hj. rewrite Hw in Hj. inversion Hj as [sh ? Hf Hshj|]; subst. cbn [unwrap obind].
          eapply yields_mono; [apply fields_some; [apply Hf|intros ty; by apply Htr]|].
          cbn beta. intros fs [E HF]. split; [done|]. split; [by rewrite E|]. apply ftr_all in HF. by eapply fields_ok_wf.
        + cbn beta. intros p (fls & HF & ->). exists fls. pose proof (Forall2_length _ _ _ HF) as Hlen. rewrite enumerate_length in Hlen.
          split; [done|]. split.
          * etransitivity; [|apply (fold_insert2 (multi_kv enc) (multi_br enc) (zip (enumerate vs) fls) ([], []))].
            -- generalize (zip (enumerate vs) fls). intros xs. generalize (([], []) : Variants * Branches).
               induction xs as [|x xs IH]; intros acc; [done|]. cbn [fold_left]. rewrite <- IH. f_equal. apply enum_variant_insert.
            -- cbn [fst snd List.map app]. erewrite List.map_ext_in; [apply (discr_keys fls)|]. intros x Hx. apply zip_enum_in in Hx as (j & Hj & Hvj & _).
               rewrite <- Hj in Hvj. by apply (multi_facts enc He x).
            -- cbn [fst snd List.map app]. eapply FOP_NoDup; [by apply multi_br_apart|].
               assert (Hne : forall b, b ∈ omap (multi_br enc) (zip (enumerate vs) fls) -> fst (fst b) < snd (fst b)).
               { intros b Hb. apply elem_of_list_omap in Hb as (x & Hx & Hb). apply elem_of_list_In, zip_enum_in in Hx as (j & Hj & Hvj & _). rewrite <- Hj in Hvj.
                 destruct (multi_facts _ He x Hvj) as (_ & _ & _ & Hf). destruct (Hf _ Hb) as (_ & -> & _). lia. }
               intros x y Hx Hy Hap E. apply Hne in Hx, Hy. unfold branch_apart in Hap. rewrite E in *. lia.
          * intros j w fs Hw Hfs. rewrite Forall2_lookup in HF. specialize (HF j). rewrite Hfs in HF.
            assert (enumerate vs !! j = Some (j, w)) as Hj by (by apply enumerate_lookup). rewrite Hj in HF. inversion HF as [? ? H|]; subst. exact H.
      - cbn beta. intros p (fls & Hlen & -> & Hfls). cbn [obind]. destruct enc as [|u first last ns].
        + apply yields_ret. exists fls. split; [done|]. split; [done|]. split; [|done]. cbn [fst snd extra fallback]. by rewrite app_nil_r.
        + apply yields_ret. exists fls. split; [done|]. split; [done|]. split; [|done]. cbn [fst snd fallback]. by rewrite (niche_invalid_extra _ _ _ _ _ He).
    Qed.

    (** the enum is well-formed *)
    Lemma multi_wf enc p : encoding_ok L True dit tit tag vs enc -> multi_form enc p -> wf (TEnum (fst p) dit (snd p) (rl_size l) (rl_align l)).
    Proof.
      intros He (fls & Hlen & E1 & E2 & Hfls). destruct Hlay as (_ & Hv & Ha). rewrite E1, E2.
      assert (Hlk : forall x, In x (zip (enumerate vs) fls) -> vs !! fst (fst x) = Some (snd (fst x)) /\ fls !! fst (fst x) = Some (snd x)).
      { intros x Hx. apply zip_enum_in in Hx as (j & -> & ? & ?). done. }
      assert (Hkey : forall j v, vs !! j = Some v -> map_contains (List.map (multi_kv enc) (zip (enumerate vs) fls)) (d_of v) = true).
      { intros j v Hj. destruct (lookup_lt_is_Some_2 fls j) as [fs Hfs]; [rewrite Hlen; by eapply lookup_lt_Some|].
        pose proof (in_zip_enum fls j v fs Hj Hfs) as Hx. destruct (multi_facts enc He _ (proj1 (Hlk _ Hx))) as (Ek & _). cbn [fst snd] in Ek. rewrite <- Ek.
        apply (map_contains_in _ _ (snd (multi_kv enc ((j, v), fs)))). pose proof (in_map (multi_kv enc) _ _ Hx) as Hm. rewrite <- surjective_pairing. exact Hm. }
      apply enum_wf; [|  |exact Hv|exact Ha].
      - intros e Hin. apply in_map_iff in Hin as (x & <- & Hx). destruct (Hlk _ Hx) as [Hvx Hfx].
        destruct (multi_facts enc He x Hvx) as (-> & -> & Htg & _). split; [by apply bits_in|]. split; [by eapply Hfls|]. split; [apply variant_layout|].
        apply List.Forall_forall. intros e He'. destruct (Htg e He') as (Hof & Hti & Hr). red. rewrite Hti, Hof. split; [by apply rust_int_pow2|]. split; [done|]. exact Hoff.
      - apply (branch_wf ht).
        + by apply (rust_int_pow2 tit).
        + exact Hoff.
        + destruct enc as [|u first last ns]; [done|]. cbn. destruct He as (Hu & _ & Hd & _). destruct (lookup_lt_is_Some_2 vs u Hu) as [v Hvu].
          destruct (Hd _ _ Hvu) as [<- _]. by rewrite (Hkey _ _ Hvu).
        + apply Forall_app. split.
          * apply List.Forall_forall. intros b Hb. apply elem_of_list_In, elem_of_list_omap in Hb as (x & Hx & Hb).
            destruct (Hlk x) as [Hvx _]; [by apply elem_of_list_In|]. destruct (multi_facts enc He x Hvx) as (_ & _ & _ & Hf). destruct (Hf _ Hb) as (H1 & H2 & H3).
            rewrite H2. split; [done|]. split; [by replace (fst (fst b) + 1 - 1) with (fst (fst b)) by lia|]. split; [lia|].
            destruct H3 as [-> | ->]; [done|]. cbn. by rewrite (Hkey _ _ Hvx).
          * destruct enc as [|u first last ns]; [constructor|]. cbn. apply List.Forall_map. destruct He as (_ & _ & _ & _ & Hs & Hen & _).
            destruct (invalid_spec Hs Hen) as (_ & HF & _). eapply Forall_impl; [exact HF|]. cbn. intros rg (? & ? & ?). done.
        + by apply extra_apart.
    Qed.

    (** what the discriminator reads *)
    Lemma multi_reads {P S} (accessor : S -> Offset -> Size -> Outcome (list (AByte P) * S)) enc p s bytes s' z o :
      encoding_ok L True dit tit tag vs enc -> multi_form enc p ->
      accessor s off (it_size tit) = Ret (bytes, s') -> decode_int_opt T tit bytes = Ret (Some z) -> can_represent tit z = true ->
      tag_means dit tit tag vs enc (z mod M) o ->
      decode_discriminant T accessor (snd p) s = Ret (match o with Some i => option_map (fun v => d_of v) (vs !! i) | None => None end, s').
    Proof.
      intros He (fls & Hlen & _ & E2 & _) Hacc Hdec Hz Hm. rewrite E2. cbn [decode_discriminant]. rewrite Hacc. cbn [obind]. rewrite Hdec. cbn [obind].
      pose proof (extra_apart enc fls He) as Hap.
      assert (Hin : forall i v, vs !! i = Some v -> exists fs, In ((i, v), fs) (zip (enumerate vs) fls)).
      { intros i v Hi. destruct (lookup_lt_is_Some_2 fls i) as [fs Hfs]; [rewrite Hlen; by eapply lookup_lt_Some|]. exists fs. by apply in_zip_enum. }
      assert (Hbr : forall (x : Xs) b, In x (zip (enumerate vs) fls) -> multi_br enc x = Some b -> In b (omap (multi_br enc) (zip (enumerate vs) fls) ++ extra enc)).
      { intros x b Hx Hb. apply in_or_app. left. apply elem_of_list_In, elem_of_list_omap. exists x. split; [by apply elem_of_list_In|done]. }
      inversion Hm as [i v b Hi Eb|b Hno|u first last ns b Hout|u first last ns i Hi Hne|u first last ns Hi|u first last ns b Hw Hno]; subst; cbn [fallback].
      - destruct (Hin _ _ Hi) as [fs Hx]. destruct v as [bits tys]. cbn in Eb. specialize (Hbr _ _ Hx eq_refl).
        assert (z = int_from_bits bits dit) as ->.
        { eapply (value_unique tit); [done| |done]. apply (He (bits, tys)). by eapply elem_of_list_lookup_2. }
        erewrite find_child_in; [|exact Hap|exact Hbr|unfold in_range; cbn; lia]. cbn. by rewrite Hi.
      - rewrite find_child_none; [done|]. cbn [extra]. rewrite app_nil_r. intros rg c Hc. apply elem_of_list_In, elem_of_list_omap in Hc as (x & Hx & Hb).
        apply elem_of_list_In, zip_enum_in in Hx as (j & Hj & Hv & _). destruct x as [[k [bits tys]] fs]. cbn in Hb, Hv. injection Hb as <- <-.
        destruct (in_range z (int_from_bits bits dit, int_from_bits bits dit + 1)) eqn:E; [|done]. exfalso. unfold in_range in E. cbn in E.
        apply (Hno (bits, tys)); [by eapply elem_of_list_lookup_2|]. cbn. f_equal. lia.
      - destruct He as (_ & _ & _ & _ & Hs & Hen & _). destruct (invalid_spec Hs Hen) as (Hiff & _). apply Hiff in Hout as (rg & Hrg & Hr); [|done].
        erewrite find_child_in with (c := DInvalid); [|exact Hap| |exact Hr]; [done|]. apply in_or_app. right. cbn. by apply (in_map (fun rg => (rg, DInvalid))).
      - match goal with H : _ = z mod M |- _ => symmetry in H; apply tag_of_eq in H; [|done] end. subst z.
        pose proof He as (Hu & Hfl & Hd & _ & _ & _ & _ & _ & _ & Hplain). assert (Hlt : (i < length vs)%nat) by lia.
        destruct (lookup_lt_is_Some_2 vs i Hlt) as [v Hv]. destruct (Hin _ _ Hv) as [fs Hx]. destruct v as [bits tys].
        destruct (multi_br (TeNiche u first last ns) ((i, (bits, tys)), fs)) as [[rg c]|] eqn:Eb.
        2:{ cbn in Eb. destruct (Nat.eqb_spec u i); [congruence|]. done. }
        destruct (multi_br_niche u first last ns ((i, (bits, tys)), fs) _ He Hv Eb) as (_ & E1 & Ec). destruct (multi_facts _ He ((i, (bits, tys)), fs) Hv) as (_ & _ & _ & Hf).
        destruct (Hf _ Eb) as (_ & E1' & _). cbn in E1, E1', Ec. specialize (Hbr _ _ Hx Eb).
        erewrite find_child_in; [|exact Hap|exact Hbr|unfold in_range; rewrite E1', E1; lia]. rewrite Ec. destruct (Nat.eqb_spec u i); [congruence|].
        cbn. rewrite Hv. cbn. destruct (Hd _ _ Hv) as [Hdi _]. cbn in Hdi. by rewrite Hdi.
      - match goal with H : _ = z mod M |- _ => symmetry in H; apply tag_of_eq in H; [|done] end. subst z.
        pose proof He as (Hu & Hfl & Hd & _ & _ & _ & _ & _ & _ & Hplain).
        destruct (lookup_lt_is_Some_2 vs u Hu) as [v Hv]. destruct (Hin _ _ Hv) as [fs Hx]. destruct v as [bits tys].
        destruct (multi_br (TeNiche u first last ns) ((u, (bits, tys)), fs)) as [[rg c]|] eqn:Eb.
        2:{ cbn in Eb. rewrite Nat.eqb_refl in Eb. cbn in Eb. replace ((first <=? u)%nat && (u <=? last)%nat) with true in Eb by lia. done. }
        destruct (multi_br_niche u first last ns ((u, (bits, tys)), fs) _ He Hv Eb) as (_ & E1 & Ec). destruct (multi_facts _ He ((u, (bits, tys)), fs) Hv) as (_ & _ & _ & Hf).
        destruct (Hf _ Eb) as (_ & E1' & _). cbn in E1, E1', Ec. specialize (Hbr _ _ Hx Eb).
        erewrite find_child_in; [|exact Hap|exact Hbr|unfold in_range; rewrite E1', E1; lia]. rewrite Ec, Nat.eqb_refl. done.
      - rewrite find_child_none.
        + pose proof He as (Hu & Hfl & Hd & _). destruct (lookup_lt_is_Some_2 vs u Hu) as [v Hv]. rewrite Hv. cbn. destruct (Hd _ _ Hv) as [-> _]. done.
        + intros rg c Hc. apply in_app_or in Hc as [Hc|Hc].
          * apply elem_of_list_In, elem_of_list_omap in Hc as (x & Hx & Hb). apply elem_of_list_In, zip_enum_in in Hx as (j & Hj & Hv & _). rewrite <- Hj in Hv.
            destruct (multi_br_niche _ _ _ _ _ _ He Hv Hb) as (Hr & E1 & _). destruct (multi_facts _ He x Hv) as (_ & _ & _ & Hf). destruct (Hf _ Hb) as (_ & E1' & _).
            cbn in E1, E1'. unfold in_range. rewrite E1', E1. destruct (Z.eq_dec z (tag_of first ns (fst (fst x)))) as [->|Hn]; [|lia].
            exfalso. apply (Hno _ Hr). apply tag_of_bits.
          * cbn in Hc. apply in_map_iff in Hc as (rg' & [= <- <-] & Hrg). destruct (in_range z rg') eqn:E; [|done]. exfalso.
            destruct He as (_ & _ & _ & _ & Hs & Hen & _). destruct (invalid_spec Hs Hen) as (Hiff & _). eapply (proj1 (Hiff z Hz)); [by exists rg'|done].
    Qed.
  End Multiple.
End Enum.
