(** Totality, round trips and monotonicity of encoding and decoding at arbitrary types. *)
From stdpp Require list_numbers.
From Verif Require Export ReprTy.
From Coq Require Import ZifyBool ZifyN ZifyNat.

Lemma try_map_total {A B} (f : A -> Outcome (option B)) l :
  Forall (fun x => exists o, f x = Ret o) l -> exists o, try_map f l = Ret o.
Proof.
  induction 1 as [|x l (o & Ho) HF (os & IH)]; simpl; [eauto|].
  rewrite Ho. simpl. destruct o; [|eauto]. rewrite IH. simpl. eauto.
Qed.

Lemma map_m_total {A B} (f : A -> Outcome B) l :
  Forall (fun x => exists o, f x = Ret o) l -> exists o, map_m f l = Ret o.
Proof.
  induction 1 as [|x l (o & Ho) HF (os & IH)]; simpl; [eauto|].
  rewrite Ho. simpl. rewrite IH. simpl. eauto.
Qed.

Lemma try_map_ext {A B} (f g : A -> Outcome (option B)) l :
  Forall (fun x => f x = g x) l -> try_map f l = try_map g l.
Proof. induction 1 as [|x l Hx HF IH]; simpl; [done|]. by rewrite Hx, IH. Qed.

Lemma map_m_ext {A B} (f g : A -> Outcome B) l :
  Forall (fun x => f x = g x) l -> map_m f l = map_m g l.
Proof. induction 1 as [|x l Hx HF IH]; simpl; [done|]. by rewrite Hx, IH. Qed.

Lemma find_child_in {R} (f : Discriminator -> R) val ch r :
  find_child f val ch = Some r -> exists rg c, In (rg, c) ch /\ in_range val rg = true /\ r = f c.
Proof.
  induction ch as [|[rg c] ch IH]; simpl; [discriminate|].
  destruct (in_range val rg) eqn:E.
  - intros [= <-]. eauto 10.
  - intros Hr. destruct (IH Hr) as (rg' & c' & ? & ? & ?). eauto 10.
Qed.

Lemma find_child_map {R} (f : Discriminator -> R) val ch :
  find_child f val ch = option_map f (find_child id val ch).
Proof.
  induction ch as [|[rg c] ch IH]; simpl; [done|]. by destruct (in_range val rg).
Qed.

Lemma in_indices count k : In k (indices count) <-> (Z.of_N k < count).
Proof.
  unfold indices. rewrite List.in_map_iff. split.
  - intros (x & <- & Hx). apply List.in_seq in Hx. lia.
  - intros Hk. exists (N.to_nat k). split; [lia|]. apply List.in_seq. lia.
Qed.

Lemma indices_lookup count i k :
  indices count !! i = Some k <-> k = N.of_nat i /\ (i < Z.to_nat count)%nat.
Proof.
  unfold indices. rewrite list_lookup_fmap.
  destruct (decide (i < Z.to_nat count)%nat) as [Hi|Hi].
  - assert (seq 0 (Z.to_nat count) !! i = Some i) as ->.
    { apply list_numbers.lookup_seq. lia. }
    simpl. split; [intros [= <-]; done|intros [-> _]; done].
  - rewrite lookup_ge_None_2 by (rewrite seq_length; lia). simpl. split; [discriminate|lia].
Qed.

Lemma subslice_ext {A} (b1 b2 : list A) off len :
  length b1 = length b2 ->
  (forall i, (N.to_nat off <= i < N.to_nat off + N.to_nat len)%nat -> b1 !! i = b2 !! i) ->
  subslice b1 off len = subslice b2 off len.
Proof.
  intros Hl Hi.
  destruct (decide (N.to_nat off + N.to_nat len <= length b1)%nat) as [Hle|Hgt].
  - destruct (subslice_total b1 off len) as [r1 H1]; [lia|].
    destruct (subslice_total b2 off len) as [r2 H2]; [lia|].
    rewrite H1, H2. f_equal. apply list_eq. intros i.
    destruct (decide (i < N.to_nat len)%nat).
    + rewrite (subslice_lookup _ _ _ _ _ H1), (subslice_lookup _ _ _ _ _ H2) by done. apply Hi. lia.
    + rewrite !lookup_ge_None_2; [done| |]; apply subslice_length in H1, H2; lia.
  - unfold subslice. rewrite <- Hl.
    destruct (_ <=? _)%nat eqn:E || destruct (_ <=? _)%N eqn:E; [lia|done].
Qed.

(** cutting a list in equal parts and concatenating them *)
Lemma chunks_concat {A} (b : list A) s k n cs :
  Forall2 (fun i c => subslice b (i * s) s = Ret c) (List.map N.of_nat (seq k n)) cs ->
  concat cs = take (n * N.to_nat s) (drop (k * N.to_nat s) b).
Proof.
  revert k cs. induction n as [|n IH]; intros k cs HF; inversion HF as [|? c ? cs' Hc Hcs]; subst.
  - done.
  - simpl. rewrite (IH (S k) cs') by done. apply subslice_ret in Hc as [Hle ->].
    replace (N.to_nat (N.of_nat k * s)) with (k * N.to_nat s)%nat by lia.
    replace (S k * N.to_nat s)%nat with (k * N.to_nat s + N.to_nat s)%nat by lia.
    rewrite <- drop_drop.
    replace (S n * N.to_nat s)%nat with (N.to_nat s + n * N.to_nat s)%nat by lia.
    by rewrite <- (take_take_drop _ (N.to_nat s) (n * N.to_nat s)).
Qed.

Lemma concat_subslice {A} (parts : list (list A)) s k p :
  Forall (fun p => N.of_nat (length p) = s) parts -> parts !! k = Some p ->
  subslice (concat parts) (N.of_nat k * s) s = Ret p.
Proof.
  intros HF. revert k. induction HF as [|q parts Hq HF IH]; intros k Hk; [discriminate|].
  destruct k as [|k]; simpl in *.
  - injection Hk as ->. apply subslice_ret. rewrite app_length. split; [lia|].
    replace (N.to_nat (0 * s)) with 0%nat by lia. rewrite drop_0.
    replace (N.to_nat s) with (length p) by lia. by rewrite take_app.
  - specialize (IH k Hk). apply subslice_ret in IH as [Hle ->]. apply subslice_ret.
    rewrite app_length. split; [lia|].
    replace (N.to_nat (N.of_nat (S k) * s)) with (length q + N.to_nat (N.of_nat k * s))%nat by lia.
    rewrite drop_app_ge by lia. do 2 f_equal. lia.
Qed.

Lemma concat_length_parts {A} (parts : list (list A)) s :
  Forall (fun p => N.of_nat (length p) = s) parts ->
  length (concat parts) = (length parts * N.to_nat s)%nat.
Proof. induction 1 as [|q parts Hq HF IH]; simpl; [done|]. rewrite app_length. lia. Qed.

Section ReprTy2.
  Context {P : Type} `{EqDecision P}.
  Variable T : Target.

  Notation AB := (AByte P).
  Notation Val := (Value P).
  Notation wf ht := (ty_check_wf T ht).

  (** ** Discriminators *)

  Lemma decode_discr_branch (b : list AB) off it fb ch :
    decode_discriminant T (bytes_accessor b) (DBranch off it fb ch) tt =
    let! sub := subslice b off (it_size it) in
    let! o := decode_int_opt T it sub in
    match o with
    | None => Ret (None, tt)
    | Some val =>
        decode_discriminant T (bytes_accessor b)
          (match find_child id val ch with Some c => c | None => fb end) tt
    end.
  Proof.
    cbn [decode_discriminant]. unfold bytes_accessor at 1.
    destruct (subslice b off (it_size it)); cbn [obind]; try done.
    destruct (decode_int_opt T it _) as [[val|]| | |]; cbn [obind]; try done.
    rewrite (find_child_map (fun c => decode_discriminant T (bytes_accessor b) c tt) val ch).
    by destruct (find_child id val ch).
  Qed.

  Lemma decode_discr_total discr size vs (bytes : list AB) :
    discr_check_wf size vs discr = Ret tt -> N.of_nat (length bytes) = size ->
    exists o, decode_discriminant T (bytes_accessor bytes) discr tt = Ret (o, tt) /\
      (forall d, o = Some d -> exists x, map_get vs d = Some x).
  Proof.
    intros Hwf Hl. induction discr as [val| |off it fb ch IHfb IHch] using Discriminator_ind'.
    - simpl in *. eexists. split; [done|]. intros d [= <-]. apply ensure_wf_ret in Hwf.
      unfold map_contains in Hwf. destruct (map_get vs val); [eauto|discriminate].
    - simpl. eexists. split; [done|]. discriminate.
    - apply discr_wf_branch in Hwf as (Hp & Hfit & Hfb & Hch). rewrite decode_discr_branch.
      destruct (subslice_total bytes off (it_size it)) as [sub Hsub]; [lia|].
      rewrite Hsub. cbn [obind].
      destruct (decode_int_total T it sub) as [o Ho]; [by eapply subslice_length|].
      rewrite Ho. cbn [obind]. destruct o as [val|]; [|eexists; split; [done|discriminate]].
      destruct (find_child id val ch) as [c|] eqn:E; [|by apply IHfb].
      apply find_child_in in E as (rg & c' & Hin & _ & ->).
      rewrite List.Forall_forall in IHch, Hch. apply (IHch (rg, c') Hin). apply (Hch _ Hin).
  Qed.

  Lemma decode_discr_ext discr (b1 b2 : list AB) :
    length b1 = length b2 ->
    (forall i, discr_reads discr i -> b1 !! N.to_nat i = b2 !! N.to_nat i) ->
    decode_discriminant T (bytes_accessor b1) discr tt =
    decode_discriminant T (bytes_accessor b2) discr tt.
  Proof.
    intros Hl. induction discr as [val| |off it fb ch IHfb IHch] using Discriminator_ind'; intros Hr.
    - done.
    - done.
    - rewrite !decode_discr_branch.
      rewrite (subslice_ext b1 b2 off (it_size it)); [|done|].
      2:{ intros i Hi. specialize (Hr (N.of_nat i)). rewrite Nat2N.id in Hr. apply Hr.
          constructor. lia. }
      destruct (subslice b2 off (it_size it)); cbn [obind]; try done.
      destruct (decode_int_opt T it _) as [[val|]| | |]; cbn [obind]; try done.
      destruct (find_child id val ch) as [c|] eqn:E.
      + apply find_child_in in E as (rg & c' & Hin & _ & ->).
        rewrite List.Forall_forall in IHch. apply (IHch (rg, c') Hin).
        intros i Hi. apply Hr. by eapply dr_child.
      + apply IHfb. intros i Hi. apply Hr. by apply dr_fallback.
  Qed.

  Lemma decode_discr_mono discr (b1 b2 : list AB) d :
    bytes_le b1 b2 ->
    decode_discriminant T (bytes_accessor b1) discr tt = Ret (Some d, tt) ->
    decode_discriminant T (bytes_accessor b2) discr tt = Ret (Some d, tt).
  Proof.
    intros Hle. induction discr as [val| |off it fb ch IHfb IHch] using Discriminator_ind'.
    - done.
    - done.
    - rewrite !decode_discr_branch. intros Hd.
      destruct (subslice b1 off (it_size it)) as [s1| | |] eqn:Hs1; cbn [obind] in Hd; try discriminate.
      destruct (bytes_le_subslice _ _ _ _ _ Hle Hs1) as (s2 & Hs2 & Hs). rewrite Hs2. cbn [obind].
      destruct (decode_int_opt T it s1) as [[val|]| | |] eqn:Ho; cbn [obind] in Hd; try discriminate.
      rewrite (decode_int_mono _ _ _ _ _ Hs Ho). cbn [obind].
      destruct (find_child id val ch) as [c|] eqn:E; [|by apply IHfb].
      apply find_child_in in E as (rg & c' & Hin & _ & ->).
      rewrite List.Forall_forall in IHch. by apply (IHch (rg, c')).
  Qed.

  (** ** Decoding is total on well-formed types (C08) *)

  Theorem decode_total (Tok : target_ok T) (ht : TraitName -> bool) ty (bytes : list AB) :
    wf ht ty = Ret tt -> sized T ty -> N.of_nat (length bytes) = tsize T ty ->
    exists o, decode T ty bytes = Ret o.
  Proof.
    revert bytes.
    induction ty as [it| |pt|fields head u IHf IHu|elem count IHe|elem IHe|fields chunks size align IHf
                    |variants dty discr size align IHv|tn] using Ty_ind'; intros bytes Hwf Hsz Hl.
    - cbn [decode]. unfold decode_int. rewrite (wf_ptr_sized_int T ht) in Hl by done.
      destruct (decode_int_total T it bytes Hl) as [o ->]. simpl. eauto.
    - cbn [decode]. unfold decode_bool. unfold tsize, size_of in Hl. simpl in Hl.
      destruct bytes as [|b [|]]; simpl in *; try lia. destruct b as [|[] ?]; eauto.
    - cbn [decode]. by apply decode_pointer_total.
    - destruct u as [u|].
      { exfalso. pose proof Hwf as (_ & _ & _ & Hu & _)%wf_tuple.
        destruct Hsz as (s & a & Hla). simpl in Hla.
        destruct (Hu u eq_refl) as [_ Hns].
        destruct (layout T u) as [[]| | |] eqn:E; simpl in Hla; try discriminate. }
      destruct (tuple_size T ht _ _ _ Hwf eq_refl) as [Hts Hend].
      pose proof Hwf as (Hfs & _)%wf_tuple. cbn [decode]. unfold head_size_and_align.
      rewrite Hl, Hts, N.eqb_refl.
      match goal with |- context [try_map ?f fields] => destruct (try_map_total f fields) as [o Ho] end.
      { rewrite Forall_lookup in IHf, Hfs |- *. intros i f Hf. destruct (Hfs i f Hf) as (Hw & Hs & Hfit).
        rewrite (sized_tsize T _ Hs). cbn [obind].
        destruct (subslice_total bytes (fst f) (tsize T (snd f))) as [sub Hsub]; [lia|].
        rewrite Hsub. cbn [obind]. apply (IHf i f Hf); auto. by eapply subslice_length. }
      rewrite Ho. simpl. eauto.
    - pose proof Hwf as (Hc & Hwe & Hse & _ & Htot)%wf_array. cbn [decode].
      rewrite (sized_tsize T _ Hse). cbn [obind]. unfold size_mul, size_from_bytes.
      destruct (Z.ltb_spec (Z.of_N (tsize T elem) * count) 0); [lia|]. cbn [unwrap obind].
      replace (N.of_nat (length bytes) =? Z.to_N (Z.of_N (tsize T elem) * count))%N with true by lia.
      destruct (map_m_total (fun i => subslice bytes (i * tsize T elem) (tsize T elem)) (indices count))
        as [cs Hcs].
      { apply List.Forall_forall. intros k Hk%in_indices. apply subslice_total. nia. }
      rewrite Hcs. cbn [obind]. destruct (try_map_total (decode T elem) cs) as [o Ho].
      { apply map_m_ret in Hcs. apply Forall_lookup. intros i c Hi.
        destruct (Forall2_lookup_r _ _ _ _ _ Hcs Hi) as (k & _ & Hk). apply IHe; auto.
        by eapply subslice_length. }
      rewrite Ho. simpl. eauto.
    - destruct Hsz as (s & a & Hla). simpl in Hla.
      destruct (layout T elem) as [[]| | |]; simpl in Hla; discriminate.
    - apply wf_union in Hwf as (_ & Hfit & _). unfold tsize, size_of in Hl. simpl in Hl.
      cbn [decode]. rewrite Hl, N.eqb_refl.
      destruct (map_m_total (fun c => subslice bytes (fst c) (snd c)) chunks) as [o Ho].
      { rewrite List.Forall_forall in Hfit |- *. intros c Hc. apply subslice_total.
        specialize (Hfit c Hc). lia. }
      rewrite Ho. simpl. eauto.
    - pose proof Hwf as (Hvs & Hd)%wf_enum. unfold tsize, size_of in Hl. simpl in Hl.
      cbn [decode]. rewrite Hl, N.eqb_refl.
      destruct (decode_discr_total _ _ _ _ Hd Hl) as (o & -> & Ho). cbn [obind].
      destruct o as [d|]; [|eauto]. destruct (Ho d eq_refl) as [[t tg] E].
      rewrite map_get_with_spec, E. simpl.
      pose proof (map_get_in _ _ _ E) as Hin.
      pose proof (in_fields_Forall _ _ _ IHv Hin) as IH.
      pose proof (in_fields_Forall _ _ _ Hvs Hin) as (_ & Hwt & Hst & Hsize & _ & _).
      simpl in IH, Hwt, Hst, Hsize. destruct (IH bytes Hwt Hst) as [o' Ho']; [congruence|].
      rewrite Ho'. simpl. eauto.
    - destruct Hsz as (s & a & Hla). discriminate.
  Qed.

  (** ** Decoding depends only on the bytes the type uses *)

  Theorem decode_ext (Tok : target_ok T) (ht : TraitName -> bool) ty (b1 b2 : list AB) :
    wf ht ty = Ret tt -> length b1 = length b2 -> N.of_nat (length b1) = tsize T ty ->
    (forall i, uses T ty i -> b1 !! N.to_nat i = b2 !! N.to_nat i) ->
    decode T ty b1 = decode T ty b2.
  Proof.
    revert b1 b2.
    induction ty as [it| |pt|fields head u IHf IHu|elem count IHe|elem IHe|fields chunks size align IHf
                    |variants dty discr size align IHv|tn] using Ty_ind';
      intros b1 b2 Hwf Hl Hts Hu.
    - rewrite (wf_ptr_sized_int T ht) in Hts by done.
      assert (b1 = b2) as ->; [|done]. apply list_eq. intros i.
      destruct (decide (i < length b1)%nat).
      + specialize (Hu (N.of_nat i)). rewrite Nat2N.id in Hu. apply Hu. constructor. lia.
      + rewrite !lookup_ge_None_2; [done| |]; lia.
    - assert (b1 = b2) as ->; [|done]. apply list_eq. intros i.
      destruct (decide (i < length b1)%nat).
      + unfold tsize, size_of in Hts. simpl in Hts. replace i with (N.to_nat 0) by lia.
        apply Hu. constructor.
      + rewrite !lookup_ge_None_2; [done| |]; lia.
    - assert (b1 = b2) as ->; [|done]. apply list_eq. intros i.
      destruct (decide (i < length b1)%nat).
      + specialize (Hu (N.of_nat i)). rewrite Nat2N.id in Hu. apply Hu.
        econstructor; [apply sized_tsize, ptr_sized; done|]. lia.
      + rewrite !lookup_ge_None_2; [done| |]; lia.
    - destruct u as [u|]; [done|]. pose proof Hwf as (Hfs & _)%wf_tuple.
      cbn [decode]. unfold head_size_and_align. rewrite Hl. destruct (_ =? _)%N; [|done].
      f_equal. apply try_map_ext.
      rewrite Forall_lookup in IHf, Hfs |- *. intros i f Hf. destruct (Hfs i f Hf) as (Hw & Hs & Hfit).
      rewrite (sized_tsize T _ Hs). cbn [obind].
      destruct (tuple_size T ht _ _ _ Hwf eq_refl) as [_ Hend].
      destruct (subslice_total b1 (fst f) (tsize T (snd f))) as [s1 Hs1]; [lia|].
      destruct (subslice_total b2 (fst f) (tsize T (snd f))) as [s2 Hs2]; [lia|].
      rewrite Hs1, Hs2. cbn [obind].
      pose proof (subslice_length _ _ _ _ Hs1). pose proof (subslice_length _ _ _ _ Hs2).
      apply (IHf i f Hf); auto; [lia|]. intros k Hk.
      destruct (decide (N.to_nat k < N.to_nat (tsize T (snd f)))%nat).
      + rewrite (subslice_lookup _ _ _ _ _ Hs1), (subslice_lookup _ _ _ _ _ Hs2) by done.
        replace (N.to_nat (fst f) + N.to_nat k)%nat with (N.to_nat (fst f + k)) by lia.
        apply Hu. destruct f as [o t]. econstructor; [|exact Hk].
        apply elem_of_list_In. by eapply elem_of_list_lookup_2.
      + rewrite !lookup_ge_None_2; [done| |]; lia.
    - pose proof Hwf as (Hc & Hwe & Hse & _ & Htot)%wf_array. cbn [decode].
      rewrite (sized_tsize T _ Hse). cbn [obind]. destruct (size_mul _ _) as [full| | |]; try done.
      cbn [obind]. rewrite Hl. destruct (_ =? _)%N; [|done].
      destruct (map_m_total (fun i => subslice b1 (i * tsize T elem) (tsize T elem)) (indices count))
        as [c1 Hc1].
      { apply List.Forall_forall. intros k Hk%in_indices. apply subslice_total. nia. }
      destruct (map_m_total (fun i => subslice b2 (i * tsize T elem) (tsize T elem)) (indices count))
        as [c2 Hc2].
      { apply List.Forall_forall. intros k Hk%in_indices. apply subslice_total. nia. }
      rewrite Hc1, Hc2. cbn [obind]. apply map_m_ret in Hc1, Hc2.
      assert (HF : Forall2 (fun x y => decode T elem x = decode T elem y) c1 c2).
      { apply Forall2_same_length_lookup_2.
        { rewrite <- (Forall2_length _ _ _ Hc1). by apply Forall2_length in Hc2. }
        intros i x y Hx Hy.
        destruct (Forall2_lookup_r _ _ _ _ _ Hc1 Hx) as (k & Hk & Hk1).
        destruct (Forall2_lookup_r _ _ _ _ _ Hc2 Hy) as (k' & Hk' & Hk2).
        assert (k' = k) as -> by congruence.
        pose proof (subslice_length _ _ _ _ Hk1). pose proof (subslice_length _ _ _ _ Hk2).
        apply IHe; auto; [lia|]. intros m Hm.
        destruct (decide (N.to_nat m < N.to_nat (tsize T elem))%nat).
        - rewrite (subslice_lookup _ _ _ _ _ Hk1), (subslice_lookup _ _ _ _ _ Hk2) by done.
          replace (N.to_nat (k * tsize T elem) + N.to_nat m)%nat
            with (N.to_nat (k * tsize T elem + m)) by lia.
          apply Hu. econstructor; [by apply sized_tsize| |exact Hm].
          apply in_indices, elem_of_list_In. by eapply elem_of_list_lookup_2.
        - rewrite !lookup_ge_None_2; [done| |]; lia. }
      assert (try_map (decode T elem) c1 = try_map (decode T elem) c2) as ->; [|done].
      clear -HF. induction HF as [|x y c1 c2 Hxy HF IH]; simpl; [done|]. by rewrite Hxy, IH.
    - done.
    - cbn [decode]. rewrite Hl. destruct (_ =? _)%N; [|done]. f_equal. apply map_m_ext.
      apply List.Forall_forall. intros [o s] Hin. simpl. apply subslice_ext; [done|].
      intros i Hi. specialize (Hu (N.of_nat i)). rewrite Nat2N.id in Hu. apply Hu.
      econstructor; [exact Hin|]. lia.
    - pose proof Hwf as (Hvs & Hd)%wf_enum. cbn [decode]. rewrite Hl.
      destruct (N.eqb_spec (N.of_nat (length b2)) size) as [Hs|]; [|done].
      rewrite (decode_discr_ext discr b1 b2); [|done|].
      2:{ intros i Hi. apply Hu. by apply us_enum_discr. }
      destruct (decode_discriminant T (bytes_accessor b2) discr tt) as [[[d|] []]| | |]; try done.
      cbn [obind]. rewrite !map_get_with_spec.
      destruct (map_get variants d) as [[t tg]|] eqn:E; simpl; [|done].
      pose proof (map_get_in _ _ _ E) as Hin.
      pose proof (in_fields_Forall _ _ _ IHv Hin) as IH.
      pose proof (in_fields_Forall _ _ _ Hvs Hin) as (_ & Hwt & Hst & Hsize & _ & _).
      simpl in IH, Hwt, Hst, Hsize. rewrite (IH b1 b2); auto; [lia|].
      intros i Hi. apply Hu. by eapply us_enum_data.
    - done.
  Qed.

  Lemma encode_length (Tok : target_ok T) (ht : TraitName -> bool) ty (v : Val) b :
    wf ht ty = Ret tt -> shape T ty v -> encode T ty v = Ret b -> N.of_nat (length b) = tsize T ty.
  Proof.
    intros Hwf Hs He. destruct (encode_total T Tok ht ty v Hwf Hs) as (b' & He' & Hl).
    congruence.
  Qed.

  (** ** Round trip: decode after encode (C02) *)

  Theorem decode_encode (Tok : target_ok T) (ht : TraitName -> bool) env ty (v : Val) b :
    wf ht ty = Ret tt -> coherent T (P := P) ty -> check_value T env ty v = Ret tt ->
    encode T ty v = Ret b -> decode T ty b = Ret (Some v).
  Proof.
    revert v b.
    induction ty as [it| |pt|fields head u IHf IHu|elem count IHe|elem IHe|fields chunks size align IHf
                    |variants dty discr size align IHv|tn] using Ty_ind'; intros v b Hwf Hco Hck He.
    - destruct v; try discriminate. cbn [encode decode] in *. unfold decode_int.
      rewrite (decode_encode_int T it i b He). done.
    - destruct v; try discriminate. cbn [encode decode] in *. unfold encode_bool in He.
      injection He as <-. by destruct b0.
    - destruct v; try discriminate. cbn [encode decode] in *. by apply decode_encode_pointer.
    - pose proof (check_value_shape T _ _ _ Hck) as Hsh.
      pose proof (encode_length Tok ht _ _ _ Hwf Hsh He) as Hlen.
      apply check_tuple_ret in Hck as (-> & vs & -> & HF).
      inversion Hco as [| | |? ? ? Hcof _| | | | |]; subst.
      destruct (tuple_size T ht _ _ _ Hwf eq_refl) as [Hts _].
      apply encode_tuple_ret in He as (vs' & es & [= <-] & Hl & Hes & Hw).
      apply decode_tuple_some. split; [congruence|]. exists vs. split; [done|].
      pose proof Hwf as (Hfs & Hdis & _)%wf_tuple.
      pose proof (Forall2_length _ _ _ Hes) as Hles. rewrite zip_with_length in Hles.
      assert (forall i f v, fields !! i = Some f -> vs !! i = Some v ->
        exists e, es !! i = Some e /\ encode T (snd f) v = Ret e /\
          N.of_nat (length e) = tsize T (snd f)) as Hpart.
      { intros i f v Hf Hv.
        assert (zip fields vs !! i = Some (f, v)) as Hz by by apply zip_lookup.
        destruct (Forall2_lookup_l _ _ _ _ _ Hes Hz) as (e & He & Henc). simpl in Henc.
        exists e. split; [done|]. split; [done|].
        rewrite Forall_lookup in Hfs. destruct (Hfs i f Hf) as (Hwf' & _ & _).
        eapply (encode_length Tok ht); [exact Hwf'| |exact Henc]. eapply check_value_shape.
        exact (Forall2_lookup_lr _ _ _ _ _ _ HF Hf Hv). }
      apply write_all_readback in Hw.
      2:{ assert (Hr : List.map part_range (zip (List.map fst fields) es) = List.map (frange T) fields).
          { apply list_eq. intros i. rewrite !list_lookup_fmap, lookup_zip_with, list_lookup_fmap.
            destruct (fields !! i) as [f|] eqn:Hf; simpl; [|done].
            destruct (lookup_lt_is_Some_2 vs i) as [v Hv].
            { rewrite Hl. by eapply lookup_lt_Some. }
            destruct (Hpart i f v Hf Hv) as (e & He' & _ & Hle). rewrite He'. simpl.
            unfold part_range, frange. simpl. by rewrite Hle. }
          apply (ForallOrdPairs_map part_range rdisj). rewrite Hr.
          by apply (ForallOrdPairs_map (frange T) rdisj). }
      apply Forall2_same_length_lookup_2; [done|]. intros i f v Hf Hv.
      destruct (Hpart i f v Hf Hv) as (e & Hei & Henc & Hle).
      rewrite Forall_lookup in Hfs, IHf, Hcof. rewrite Forall_lookup in Hw. destruct (Hfs i f Hf) as (Hwf' & Hs' & _).
      exists (tsize T (snd f)), e. split; [by apply sized_tsize|].
      assert (zip (List.map fst fields) es !! i = Some (fst f, e)) as Hz.
      { apply zip_lookup. split; [|done]. by rewrite list_lookup_fmap, Hf. }
      specialize (Hw i _ Hz). simpl in Hw. rewrite Hle in Hw. split; [done|].
      apply (IHf i f Hf); auto; [by apply (Hcof i)|].
      exact (Forall2_lookup_lr _ _ _ _ _ _ HF Hf Hv).
    - apply check_array_ret in Hck as (vs & -> & Hl & HF).
      inversion Hco as [| | | |? ? Hcoe| | | |]; subst.
      apply encode_array_ret in He as (vs' & parts & [= <-] & _ & Hp & ->).
      pose proof Hwf as (Hc & Hwe & Hse & _ & Htot)%wf_array.
      apply decode_array_some; [done|]. exists (tsize T elem), vs.
      split; [by apply sized_tsize|].
      assert (Forall (fun p => N.of_nat (length p) = tsize T elem) parts) as Hpl.
      { apply Forall_lookup. intros i p Hi.
        destruct (Forall2_lookup_r _ _ _ _ _ Hp Hi) as (v & _ & _ & s & Hs & Hle).
        rewrite (sized_tsize T _ Hse) in Hs. congruence. }
      pose proof (Forall2_length _ _ _ Hp) as Hlp.
      split; [rewrite (concat_length_parts _ _ Hpl); lia|]. split; [done|].
      apply Forall2_same_length_lookup_2.
      { unfold indices. rewrite map_length, seq_length. lia. }
      intros i k v Hk Hv. apply indices_lookup in Hk as [-> _].
      destruct (Forall2_lookup_l _ _ _ _ _ Hp Hv) as (p & Hpi & Henc & _).
      exists p. split; [by apply concat_subslice|].
      apply IHe; auto. rewrite Forall_lookup in HF. by eapply HF.
    - by destruct v.
    - apply check_union_ret in Hck as (data & -> & HF).
      pose proof (encode_length Tok ht _ _ _ Hwf (sh_union T fields chunks size align data HF) He) as Hlen.
      unfold tsize, size_of in Hlen. simpl in Hlen.
      apply encode_union_ret in He as (data' & [= <-] & _ & Hw).
      apply decode_union_some. split; [done|]. exists data. split; [done|].
      apply wf_union in Hwf as (_ & _ & Hasc).
      pose proof (Forall2_length _ _ _ HF) as Hl.
      apply write_all_readback in Hw.
      2:{ assert (Hr : List.map part_range (zip (List.map fst chunks) data) = chunks).
          { apply list_eq. intros i. rewrite !list_lookup_fmap, lookup_zip_with, list_lookup_fmap.
            destruct (chunks !! i) as [[o s]|] eqn:Hf; simpl; [|done].
            destruct (Forall2_lookup_l _ _ _ _ _ HF Hf) as (e & He' & Hle). rewrite He'. simpl.
            unfold part_range. simpl in *. by rewrite Hle. }
          apply (ForallOrdPairs_map part_range rdisj). rewrite Hr.
          eapply ForallOrdPairs_impl; [exact Hasc|]. unfold rdisj. intros; lia. }
      apply Forall2_same_length_lookup_2; [done|]. intros i [o s] d Hf Hd.
      rewrite Forall_lookup in Hw.
      assert (zip (List.map fst chunks) data !! i = Some (o, d)) as Hz.
      { apply zip_lookup. split; [|done]. by rewrite list_lookup_fmap, Hf. }
      specialize (Hw i _ Hz). pose proof (Forall2_lookup_lr _ _ _ _ _ _ HF Hf Hd) as Hle.
      simpl in *. congruence.
    - inversion Hco as [| | | | | | |? ? ? ? ? Hcov Hout Hrec _|]; subst.
      pose proof (check_value_shape T _ _ _ Hck) as Hsh.
      pose proof (encode_length Tok ht _ _ _ Hwf Hsh He) as Hlen.
      unfold tsize, size_of in Hlen. simpl in Hlen.
      apply check_enum_ret in Hck as (d & w & t & tg & -> & E & Hw).
      apply encode_enum_ret in He as (d' & w' & t' & tg' & enc & [= <- <-] & E' & Henc & He).
      rewrite E in E'. injection E' as <- <-.
      apply decode_enum_some. split; [done|]. exists d, t, tg, w. split; [done|].
      split; [by eapply Hrec|]. split; [done|].
      pose proof (map_get_in _ _ _ E) as Hin.
      pose proof Hwf as (Hvs & _)%wf_enum.
      pose proof (in_fields_Forall _ _ _ IHv Hin) as IH.
      pose proof (in_fields_Forall _ _ _ Hcov Hin) as Hcot.
      pose proof (in_fields_Forall _ _ _ Hvs Hin) as (_ & Hwt & Hst & Hsize & _ & _).
      simpl in IH, Hwt, Hst, Hsize, Hcot.
      rewrite (decode_ext Tok ht t b enc); auto.
      + apply encode_discr_parts in He as (es & _ & Hwr). by eapply write_all_length.
      + congruence.
      + intros i Hi. apply encode_discr_parts in He as (es & Hes & Hwr).
        eapply write_all_outside; [exact Hwr|]. apply Forall_lookup. intros k [o e] Hk Hcov'.
        apply zip_lookup in Hk as [Ho Hek]. rewrite list_lookup_fmap in Ho.
        destruct (tg !! k) as [[o' [it val]]|] eqn:Htg; [|discriminate]. simpl in Ho. injection Ho as ->.
        pose proof (Forall2_lookup_lr _ _ _ _ _ _ Hes Htg Hek) as Hie. simpl in Hie.
        apply encode_int_length in Hie.
        eapply (Hout d t tg E o it val i); [|unfold range_has, part_range in Hcov'; simpl in Hcov'; lia|done].
        apply elem_of_list_In. by eapply elem_of_list_lookup_2.
    - by destruct v.
  Qed.
End ReprTy2.
