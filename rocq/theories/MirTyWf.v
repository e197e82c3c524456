(** Translated types are well-formed (C83). *)
From Verif Require Export MirTyEnum.

Section Main.
  Notation T := x86_64.
  Context (L : RTypes) (ht : TraitName -> bool).
  Notation wf t := (ty_check_wf T ht t = Ret tt).

  Lemma cells_sorted r : cells_ok L True r ->
    yields (fun m => sorted_cells L m r) (fun cs => check_cells cs (lsize L r) = Ret tt).
  Proof.
    intros H. unfold sorted_cells. eapply yields_bind; [by apply cells_yield|]. cbn beta. intros t (_ & Hf & _). apply yields_ret. by apply cells_fit_check.
  Qed.
  Lemma pointee_yields p : pointee_ok L ht True p ->
    yields (fun m => pointee_info_of L m p) (fun pi => layout_of L p (pi_layout pi) /\ pointee_check_wf T ht pi = Ret tt).
  Proof.
    intros H. unfold pointee_info_of. destruct H as [p Hl Hc|p e Hn Hk Hl Hc|p Hn Hk|p tn Hn Hk Ht].
    - destruct Hl as (Hs & Hv & Ha). red in Hs. rewrite Hs. eapply yields_bind; [by apply cells_sorted|]. cbn beta. intros cs Hcs. apply yields_ret.
      split; [by constructor|]. unfold pointee_check_wf. cbn [pi_layout pi_cells layout_check_wf cells_check_wf]. fold (lsize L p). rewrite Hv. exact Hcs.
    - destruct Hl as (Hs & Hv & Ha). destruct (rl_sized (ty_layout L p)) eqn:E; [done|]. rewrite Hk. eapply yields_bind; [by apply cells_sorted|].
      cbn beta. intros cs Hcs. apply yields_ret. split; [by apply (lo_slice L p e)|]. unfold pointee_check_wf. cbn [pi_layout pi_cells layout_check_wf cells_check_wf].
      fold (lsize L e). rewrite Hv. exact Hcs.
    - destruct (rl_sized (ty_layout L p)) eqn:E; [done|]. rewrite Hk. apply yields_ret. split; [by apply lo_str|]. done.
    - destruct (rl_sized (ty_layout L p)) eqn:E; [done|]. rewrite Hk. apply yields_ret. split; [by apply lo_dyn|].
      unfold pointee_check_wf. cbn. by rewrite Ht.
  Qed.

  Definition good (r : RTy) (t : Ty) : Prop := wf t /\ exists l, layout_of L r l /\ layout T t = Ret l.
  Lemma layout_of_sized r l : lsized L r -> layout_of L r l -> l = LSized (lsize L r) (lalign L r).
  Proof. intros Hs H. by inversion H. Qed.
  Lemma good_fty r t : lsized L r -> good r t -> fty_ok L ht r t.
  Proof. intros Hs [Hw (l & Hl & E)]. split; [done|]. by rewrite E, (layout_of_sized _ _ Hs Hl). Qed.
  Lemma good_sized r t s a : lsized L r -> lsize L r = s -> lalign L r = a -> wf t -> layout T t = Ret (LSized s a) -> good r t.
  Proof. intros Hs <- <- Hw Hl. split; [done|]. eexists. split; [by constructor|done]. Qed.
  Lemma lay_is_align r s a : lay_is L r s (align_bytes a) -> lsized L r /\ lsize L r = s /\ lalign L r = a.
  Proof. intros (? & ? & E). split; [done|]. split; [done|]. by apply align_bytes_inj. Qed.
  Lemma int_layout it : rust_int it -> exists a, align_bytes a = it_size it /\ layout T (TInt it) = Ret (LSized (it_size it) a) /\ wf (TInt it).
  Proof.
    destruct it as [sg s]. unfold rust_int. cbn [it_size]. intros H.
    repeat (apply elem_of_cons in H as [->|H]; [eexists; split; [|split; [vm_compute; reflexivity|by vm_compute]]; done|]). by apply elem_of_nil in H.
  Qed.
  Lemma good_tuple r tys fs : lay_ok L r -> fields_ok L True (rl_offsets (ty_layout L r)) tys (lsize L r) ->
    fs.*1 = rl_offsets (ty_layout L r) -> Forall2 (fty_ok L ht) tys fs.*2 -> good r (b_tuple_ty fs (rl_size (ty_layout L r)) (rl_align (ty_layout L r))).
  Proof.
    intros (Hs & Hv & Ha) Hf E HF. eapply good_sized; [done|done|done| |by apply tuple_layout]. by eapply fields_ok_wf.
  Qed.
  Lemma int_ty_yields r it : ty_kind L r = RkInt it -> yields (fun m => int_ty_of (translate_ty L m) r) (eq it).
  Proof. intros Hk. apply yields_S. unfold int_ty_of. cbn [translate_ty]. rewrite Hk. by apply yields_ret. Qed.

  Lemma wf_final t : wf t -> final_check_wf T ht t = Ret tt.
  Proof. destruct t; cbn [ty_check_wf]; intros H; by apply obind_ret in H as ([] & _ & H). Qed.

  (** the translated enum, whichever its kind *)
  Lemma enum_yields r dty dit vs : lay_ok L r -> ty_kind L dty = RkInt dit -> rust_int dit ->
    NoDup (List.map (fun v => int_from_bits (fst v) dit) vs) ->
    (forall v ty, v ∈ vs -> ty ∈ snd v -> yields (fun m => translate_ty L m ty) (fty_ok L ht ty)) ->
    variants_ok L True r dit vs (rl_variants (ty_layout L r)) ->
    yields (fun m => translate_enum (translate_ty L m) (ty_layout L r) dty vs)
      (fun t => good r t /\ exists tv discr, t = TEnum tv dit discr (lsize L r) (lalign L r) /\
         (forall i, rl_variants (ty_layout L r) = VaSingle i -> exists v, vs !! i = Some v /\ discr = DKnown (int_from_bits (fst v) dit)) /\
         (forall tag enc tf shapes, rl_variants (ty_layout L r) = VaMultiple tag enc tf shapes -> exists tit off,
            ty_kind L (tg_int_ty tag) = RkInt tit /\ rl_offsets (ty_layout L r) !! tf = Some off /\ rust_int tit /\ tg_size tag = it_size tit /\
            (off + it_size tit <= lsize L r)%N /\ encoding_ok L True dit tit tag vs enc /\
            multi_form L ht r dit vs (translate_ty L) tag tit off shapes enc (tv, discr))).
  Proof.
    intros Hl Hdk Hdi Hnd Htr Hvo. pose proof Hl as (Hs & Hv & Ha). unfold translate_enum. eapply yields_bind; [by apply int_ty_yields|]. cbn beta. intros ? <-.
    assert (Hgood : forall tv discr, wf (TEnum tv dit discr (rl_size (ty_layout L r)) (rl_align (ty_layout L r))) ->
              good r (TEnum tv dit discr (rl_size (ty_layout L r)) (rl_align (ty_layout L r)))).
    { intros tv discr Hw. by eapply good_sized. }
    inversion Hvo as [Habs Hpl EV|i v Hi Hf Hz EV|tag enc tf shapes tit off Htk Hti Hsz Hof Hoff Hsh He EV].
    - rewrite (Hpl I). cbn [obind]. apply yields_ret. split; [|eexists _, _; split; [reflexivity|split; [done|done]]]. apply Hgood.
      apply enum_wf; [done|done|done|done].
    - eapply yields_bind; [apply (single_yields L ht r dit vs (translate_ty L) Hl Hnd Htr i v Hi Hf Hz)|]. cbn beta.
      intros [tv discr] (fls & Hlen & E1 & E2 & Hfls). cbn in E1, E2. apply yields_ret. split; [|eexists _, _; split; [reflexivity|split; [intros ? [= <-]; by exists v|done]]]. apply Hgood.
      subst tv discr. apply enum_wf; [| |done|done].
      + intros e Hin. apply in_map_iff in Hin as (x & <- & Hx). apply zip_enum_in in Hx as (j & Hj & Hvj & Hfj). unfold single_kv. cbn [fst snd].
        split; [by apply bits_in|]. split; [by eapply Hfls|]. split; [by apply variant_layout|constructor].
      + cbn [discr_check_wf]. destruct (lookup_lt_is_Some_2 fls i) as [fs Hfs]; [rewrite Hlen; by eapply lookup_lt_Some|].
        rewrite (map_contains_in _ _ (b_tuple_ty fs (rl_size (ty_layout L r)) (rl_align (ty_layout L r)), [])); [done|].
        apply (in_map (single_kv L r dit) _ ((i, v), fs)). by apply in_zip_enum.
    - eapply yields_bind; [apply (multi_yields L ht r dit vs (translate_ty L) Hl Hnd Htr tag tit off shapes Hti Hsz Hoff Hsh enc tf Hof (int_ty_yields _ _ Htk) He)|].
      cbn beta. intros [tv discr] Hm. apply yields_ret. split.
      + apply Hgood. by apply (multi_wf L ht r dit vs (translate_ty L) Hl Hdi Hnd Htr tag tit off shapes Hti Hsz Hoff enc (tv, discr)).
      + eexists _, _. split; [reflexivity|]. split; [done|]. intros tag' enc' tf' sh' [= <- <- <- <-]. exists tit, off. repeat (split; [done|]). done.
  Qed.

  Lemma types_yield r : ty_ok L ht True r -> yields (fun m => translate_ty L m r) (good r).
  Proof.
    intros H. induction H as [r Hk Hl|r it Hk Hi Hl|r Hk Hl|r inner Hk Hsi _ IH Hs Es Ea|r tys Hk Hl Hf Hsz _ IH|r tys Hk Hl Hlen Hf Hsz _ IH|
      r p Hk Hp Hl1 Hl2|r Hk Hl|r Hk Hl Huk Huo Hul|r Hk Hl|r e n Hk Hl Es Ea Hse _ IH|r e Hk Hn Hse _ IH|r Hk Hn|r tn Hk Hn Ht|
      r dty dit vs Hk Hl Hdk Hdi Hnd Hsz _ IH Hvo];
      apply yields_S; cbn [translate_ty].
    - rewrite Hk. apply yields_ret. apply (lay_is_align r 1 align_one) in Hl as (? & ? & ?). by eapply good_sized.
    - rewrite Hk. apply yields_ret. destruct (int_layout it Hi) as (a & Ea & E & Hw). rewrite <- Ea in Hl at 2. apply lay_is_align in Hl as (? & ? & ?). by eapply good_sized.
    - rewrite Hk. apply yields_ret. apply (lay_is_align r 4 (mkAlign 2)) in Hl as (? & ? & ?). by eapply good_sized.
    - rewrite Hk. eapply yields_mono; [exact IH|]. intros t Ht. apply good_fty in Ht as [Hw E]; [|done]. by eapply good_sized.
    - assert (Htr : forall ty, ty ∈ tys -> yields (fun m => translate_ty L m ty) (fty_ok L ht ty)).
      { intros ty Hty. eapply yields_mono; [by apply IH|]. intros t. apply good_fty. by apply Hsz. }
      pose proof (proj1 Hf) as Hlen.
      destruct Hk as [Hk|[[b Hk]|Hk]]; rewrite Hk.
      + eapply yields_mono; [by apply fields_layout|]. cbn beta. intros t (fs & -> & E & HF). apply ftr_all in HF. by eapply good_tuple.
      + eapply yields_bind; [unfold translate_non_enum_adt; by apply fields_some|]. cbn beta. intros fs [E HF]. apply ftr_all in HF. apply yields_ret. by eapply good_tuple.
      + eapply yields_mono; [by apply fields_layout|]. cbn beta. intros t (fs & -> & E & HF). apply ftr_all in HF. by eapply good_tuple.
    - rewrite Hk. pose proof Hl as (Hs & Hv & Ha). eapply yields_bind.
      + unfold translate_non_enum_adt. apply fields_some; [done|]. intros ty Hty. eapply yields_mono; [by apply IH|]. intros t. apply good_fty. by apply Hsz.
      + cbn beta. intros fs [E HF]. apply ftr_all in HF.
        destruct (union_ty_wf T ht fs (lsize L r) (lalign L r)) as (t & Eu & Hw); [|done|done|].
        { rewrite <- E in Hf. rewrite (fields_zip _ _ _ _ HF) in Hf. rewrite List.Forall_map in Hf. apply List.Forall_forall. intros f Hin.
          rewrite List.Forall_forall in Hf. specialize (Hf _ Hin). cbn in Hf.
          apply elem_of_list_In, elem_of_list_lookup in Hin as [i Hi]. rewrite Forall2_lookup in HF. specialize (HF i). rewrite list_lookup_fmap, Hi in HF.
          inversion HF as [ty ? Hty|]; subst. destruct (fty_sized _ _ _ _ Hty) as [_ Hts]. destruct Hty as [Hw El]. split; [exact Hw|]. exists (lsize L ty). unfold size_of.
          rewrite El. split; [done|]. by rewrite <- Hts. }
        eapply yields_const; [exact Eu|]. eapply good_sized; [done|done|done|done|]. unfold union_ty in Eu. apply obind_ret in Eu as (ch & _ & [= <-]). done.
    - assert (HP : forall pt pi, (pt = PBox pi \/ (exists mu, pt = PRef mu pi) \/ pt = PRaw (layout_meta_kind (pi_layout pi))) ->
        layout_of L p (pi_layout pi) /\ pointee_check_wf T ht pi = Ret tt -> good r (TPtr pt)).
      { intros pt pi Hpt [Hlo Hw].
        assert (Emk : ptr_meta_kind pt = layout_meta_kind (pi_layout pi)) by (destruct Hpt as [->|[[mu ->]| ->]]; done).
        assert (Ec : ptrtype_check_wf T ht pt = Ret tt) by (destruct Hpt as [->|[[mu ->]| ->]]; done).
        assert (El : exists s, layout T (TPtr pt) = Ret (LSized s (mkAlign 3)) /\ lay_is L r s 8 /\ valid_size T s = true /\ (s mod 8 = 0)%N).
        { cbn [layout]. rewrite Emk. inversion Hlo as [? Hs E|? e Hs ? E|? Hs ? E|? tn Hs ? E]; cbn [layout_meta_kind].
          - exists 8%N. split; [done|]. split; [by apply Hl1|done].
          - exists 16%N. split; [done|]. split; [by apply Hl2|done].
          - exists 16%N. split; [done|]. split; [by apply Hl2|done].
          - exists 16%N. split; [done|]. split; [by apply Hl2|done]. }
        destruct El as (s & El & Hli & Hv & Ha). apply (lay_is_align r s (mkAlign 3)) in Hli as (? & ? & ?). eapply good_sized; [done|done|done| |exact El].
        cbn [ty_check_wf]. rewrite Ec. cbn [obind]. eapply final_sized; [exact El| |done|done].
        done. }
      destruct Hk as [Hk|[[mu Hk]|Hk]]; rewrite Hk; (eapply yields_bind; [by apply pointee_yields|]); cbn beta; intros pi Hpi; apply yields_ret; (eapply HP; [|exact Hpi]); eauto.
    - rewrite Hk. apply yields_ret. apply (lay_is_align r 8 (mkAlign 3)) in Hl as (? & ? & ?). by eapply good_sized.
    - rewrite Hk. apply yields_S. cbn [translate_ty]. rewrite Huk. unfold tuple_from_layout. rewrite Huo. cbn [length seq map_m obind]. apply yields_ret.
      apply (lay_is_align _ 0 align_one) in Hl as (? & ? & ?), Hul as (? & Eus & Eua). unfold lsize, lalign in Eus, Eua. rewrite Eus, Eua. by eapply good_sized.
    - rewrite Hk. apply yields_ret. apply (lay_is_align _ 0 align_one) in Hl as (? & ? & ?). by eapply good_sized.
    - rewrite Hk. eapply yields_bind; [exact IH|]. cbn beta. intros t Ht. apply good_fty in Ht as [Hw E]; [|done]. apply yields_ret. destruct Hl as (Hs & Hv & Ha).
      assert (El : layout T (TArray t (Z.of_N n)) = Ret (LSized (lsize L r) (lalign L r))).
      { cbn [layout]. rewrite E. cbn [obind expect_size]. unfold size_mul, size_from_bytes. destruct (Z.ltb_spec (Z.of_N (lsize L e) * Z.of_N n) 0) as [Hneg|_]; [lia|].
        cbn [unwrap obind]. rewrite <- N2Z.inj_mul, N2Z.id, <- Es, Ea. done. }
      eapply good_sized; [done|reflexivity|reflexivity| |exact El]. cbn [ty_check_wf]. rewrite (proj2 (Z.leb_le _ _) (N2Z.is_nonneg n)), E, Hw. cbn [ensure_wf obind is_sized].
      by eapply final_sized.
    - rewrite Hk. eapply yields_bind; [exact IH|]. cbn beta. intros t Ht. apply good_fty in Ht as [Hw E]; [|done]. apply yields_ret.
      assert (El : layout T (TSlice t) = Ret (LSlice (lsize L e) (lalign L e))) by (cbn [layout]; by rewrite E).
      split; [|eexists; split; [by apply (lo_slice L r e)|done]]. pose proof (wf_final _ Hw) as Hfin. unfold final_check_wf in Hfin |- *. rewrite E in Hfin.
      cbn [ty_check_wf]. rewrite E, Hw. cbn [ensure_wf obind is_sized]. unfold final_check_wf. rewrite El. cbn [obind layout_check_wf layout_check_aligned] in Hfin |- *.
      apply obind_ret in Hfin as ([] & H1 & Hfin). apply obind_ret in Hfin as ([] & H2 & _).
      destruct (valid_size T (lsize L e)); [|done]. destruct (_ =? _)%N; [|done]. done.
    - rewrite Hk. apply yields_ret. split; [done|]. eexists. split; [by apply lo_str|done].
    - rewrite Hk. apply yields_ret. split; [cbn [ty_check_wf]; unfold final_check_wf; cbn [layout obind layout_check_wf layout_check_aligned]; rewrite Ht; cbn [ensure_wf obind layout_meta_kind ty_meta_kind]; by rewrite bool_decide_eq_true_2|]. eexists. split; [by apply (lo_dyn L r tn)|done].
    - rewrite Hk. eapply yields_mono; [eapply enum_yields; try done|by intros t [H _]].
      intros v ty Hv Hty. eapply yields_mono; [by eapply IH|]. intros t. apply good_fty. by eapply Hsz.
  Qed.
End Main.
