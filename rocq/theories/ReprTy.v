(** Proofs about encoding and decoding at arbitrary types. *)
From Verif Require Export ReprPtr.
From Coq Require Import ZifyBool ZifyN ZifyNat.

Lemma Forall_zip_l {A B} (Q : A -> Prop) (l : list A) (k : list B) :
  Forall Q l -> Forall (fun p => Q (fst p)) (zip l k).
Proof.
  intros HF. revert k. induction HF as [|x l Hx HF IH]; intros [|y k]; simpl; constructor; auto.
Qed.

Lemma Forall2_zip_map {A B C} (R : A -> B -> C -> Prop) (l : list A) (k : list B) (m : list C) :
  length k = length l ->
  Forall2 (fun ab c => R (fst ab) (snd ab) c) (zip l k) m ->
  forall i a b, l !! i = Some a -> k !! i = Some b -> exists c, m !! i = Some c /\ R a b c.
Proof.
  intros Hl HF i a b Ha Hb.
  assert (zip l k !! i = Some (a, b)) as Hz.
  { rewrite lookup_zip_with, Ha. simpl. by rewrite Hb. }
  destruct (Forall2_lookup_l _ _ _ _ _ HF Hz) as (c & Hc & HR). eauto.
Qed.

Section ReprTy.
  Context {P : Type} `{EqDecision P}.
  Variable T : Target.

  Notation AB := (AByte P).
  Notation Val := (Value P).
  Notation wf ht := (ty_check_wf T ht).

  (** ** Relational forms of the composite cases *)

  Lemma decode_tuple_some fields head (bytes : list AB) v :
    decode T (TTuple fields head None) bytes = Ret (Some v) <->
    N.of_nat (length bytes) = align_to (th_end head) (th_align head) /\
    exists vs, v = VTuple vs /\
      Forall2 (fun f v => exists s sub, size_of T (snd f) = Ret s /\
                 subslice bytes (fst f) s = Ret sub /\
                 decode T (snd f) sub = Ret (Some v)) fields vs.
  Proof.
    cbn [decode]. unfold head_size_and_align.
    destruct (N.eqb_spec (N.of_nat (length bytes)) (align_to (th_end head) (th_align head))) as [Hl|Hl].
    - split.
      + intros Hd. split; [done|]. apply obind_ret in Hd as (o & Ho & Hd).
        destruct o as [vs|]; simpl in Hd; [|discriminate]. inv. subst.
        exists vs. split; [done|]. apply try_map_ret_some in Ho.
        eapply Forall2_impl; [exact Ho|]. simpl. intros f v Hf. inv. eauto.
      + intros (_ & vs & -> & HF).
        match goal with |- context [try_map ?f fields] =>
          assert (Ho : try_map f fields = Ret (Some vs)) end.
        { apply try_map_ret_some. eapply Forall2_impl; [exact HF|]. simpl.
          intros f v (s & sub & -> & Hs & Hd). simpl. by rewrite Hs. }
        by rewrite Ho.
    - split; [discriminate|]. intros [? _]; done.
  Qed.

  Lemma encode_tuple_ret fields head (v : Val) r :
    encode T (TTuple fields head None) v = Ret r <->
    exists vs es, v = VTuple vs /\ length vs = length fields /\
      Forall2 (fun fv e => encode T (snd (fst fv)) (snd fv) = Ret e) (zip fields vs) es /\
      write_all (zip (List.map fst fields) es)
        (list_repeat Uninit (align_to (th_end head) (th_align head))) = Ret r.
  Proof.
    cbn [encode]. unfold head_size_and_align. split.
    - destruct v as [| | |vs| |]; try discriminate. intros He. apply obind_ret in He as (u & Ha & He).
      inv. apply Nat.eqb_eq in Ha.
      apply (fold_m2_parts fst (fun f v => encode T (snd f) v)) in He as (es & Hes & Hw); [|done].
      eauto 10.
    - intros (vs & es & -> & Hl & Hes & Hw).
      rewrite (proj2 (Nat.eqb_eq _ _) Hl). cbn [assert_ obind].
      apply (fold_m2_parts fst (fun f v => encode T (snd f) v)); [done|]. eauto.
  Qed.

  Lemma decode_array_some elem count (bytes : list AB) v :
    0 <= count ->
    decode T (TArray elem count) bytes = Ret (Some v) <->
    exists s vs, size_of T elem = Ret s /\
      Z.of_nat (length bytes) = Z.of_N s * count /\ v = VTuple vs /\
      Forall2 (fun i v => exists sub, subslice bytes (i * s) s = Ret sub /\
                 decode T elem sub = Ret (Some v)) (indices count) vs.
  Proof.
    intros Hc. cbn [decode]. split.
    - intros Hd. apply obind_ret in Hd as (s & Hs & Hd).
      apply obind_ret in Hd as (fs & Hfs & Hd). unfold size_mul, size_from_bytes in Hfs.
      destruct (Z.ltb_spec (Z.of_N s * count) 0); [discriminate|]. simpl in Hfs. inv. subst fs.
      destruct (N.eqb_spec (N.of_nat (length bytes)) (Z.to_N (Z.of_N s * count))); [|discriminate].
      apply obind_ret in Hd as (cs & Hcs & Hd). apply obind_ret in Hd as (o & Ho & Hd).
      destruct o as [vs|]; simpl in Hd; [|discriminate]. inv. subst.
      exists s, vs. split; [done|]. split; [lia|]. split; [done|].
      apply map_m_ret in Hcs. apply try_map_ret_some in Ho. clear -Hcs Ho.
      revert vs Ho. induction Hcs as [|i c is cs Hi Hcs IH]; intros vs Ho;
        inversion Ho; subst; constructor; eauto.
    - intros (s & vs & -> & Hl & -> & HF). cbn [obind]. unfold size_mul, size_from_bytes.
      destruct (Z.ltb_spec (Z.of_N s * count) 0); [lia|]. cbn [unwrap obind].
      replace (N.of_nat (length bytes) =? Z.to_N (Z.of_N s * count))%N with true by lia.
      assert (exists cs, Forall2 (fun i c => subslice bytes (i * s) s = Ret c) (indices count) cs /\
        Forall2 (fun c v => decode T elem c = Ret (Some v)) cs vs) as (cs & H1 & H2).
      { clear -HF. induction HF as [|i v is vs (sub & Hsub & Hd) HF (cs & H1 & H2)].
        - exists []. split; constructor.
        - exists (sub :: cs). split; constructor; auto. }
      apply map_m_ret in H1. rewrite H1. cbn [obind]. apply try_map_ret_some in H2. rewrite H2.
      done.
  Qed.

  Lemma encode_array_ret elem count (v : Val) r :
    encode T (TArray elem count) v = Ret r <->
    exists vs parts, v = VTuple vs /\ Z.of_nat (length vs) = count /\
      Forall2 (fun v b => encode T elem v = Ret b /\
                          exists s, size_of T elem = Ret s /\ N.of_nat (length b) = s) vs parts /\
      r = concat parts.
  Proof.
    cbn [encode]. split.
    - destruct v as [| | |vs| |]; try discriminate. intros He.
      apply obind_ret in He as (u & Ha & He). apply obind_ret in He as (parts & Hp & He). inv. subst.
      exists vs, parts. split; [done|]. split; [lia|]. split; [|done].
      apply map_m_ret in Hp. eapply Forall2_impl; [exact Hp|]. simpl. intros v b Hb. inv. subst.
      split; [done|]. eexists. split; [done|]. lia.
    - intros (vs & parts & -> & Hl & HF & ->). rewrite Hl, Z.eqb_refl. cbn [assert_ obind].
      match goal with |- context [map_m ?f vs] => assert (Hm : map_m f vs = Ret parts) end.
      { apply map_m_ret. eapply Forall2_impl; [exact HF|]. simpl.
        intros v b (-> & s & -> & <-). simpl. by rewrite N.eqb_refl. }
      by rewrite Hm.
  Qed.

  Lemma decode_union_some fields chunks size align (bytes : list AB) v :
    decode T (TUnion fields chunks size align) bytes = Ret (Some v) <->
    N.of_nat (length bytes) = size /\
    exists data, v = VUnion data /\
      Forall2 (fun c d => subslice bytes (fst c) (snd c) = Ret d) chunks data.
  Proof.
    cbn [decode]. destruct (N.eqb_spec (N.of_nat (length bytes)) size) as [Hl|Hl].
    - split.
      + intros Hd. inv. subst. split; [done|]. eexists. split; [done|]. by apply map_m_ret.
      + intros (_ & data & -> & HF). apply map_m_ret in HF. by rewrite HF.
    - split; [discriminate|]. intros [? _]; done.
  Qed.

  Lemma encode_union_ret fields chunks size align (v : Val) r :
    encode T (TUnion fields chunks size align) v = Ret r <->
    exists data, v = VUnion data /\
      Forall2 (fun c d => N.of_nat (length d) = snd c) chunks data /\
      write_all (zip (List.map fst chunks) data) (list_repeat Uninit size) = Ret r.
  Proof.
    cbn [encode].
    assert (Hf : forall data b, length data = length chunks ->
      fold_m2 (fun bytes c d =>
                let! _ := assert_ (snd c =? N.of_nat (length d))%N in
                write_subslice bytes (fst c) d) chunks data b = Ret r <->
      Forall2 (fun c d => N.of_nat (length d) = snd c) chunks data /\
      @write_all AB (zip (List.map fst chunks) data) b = Ret r).
    { induction chunks as [|c cs IH]; intros [|d ds] b Hl; simpl in *; try discriminate.
      - split; [|by intros [_ ?]]. intros He; split; [constructor|done].
      - split.
        + intros He. apply obind_ret in He as (b' & Hb & He). apply IH in He as [HF Hw]; [|lia].
          inv. rewrite H0. split; [constructor; [lia|done]|done].
        + intros [HF Hw]. inversion HF as [|? ? ? ? Hd Hds]; subst.
          replace (snd c =? N.of_nat (length d))%N with true by lia. simpl.
          destruct (write_subslice b (fst c) d) as [b'| | |]; simpl in *; try discriminate.
          apply IH; [lia|done]. }
    split.
    - destruct v as [| | | | |data]; try discriminate. intros He.
      apply obind_ret in He as (u & Ha & He). inv. apply Hf in He as [HF Hw]; [|lia]. eauto.
    - intros (data & -> & HF & Hw). pose proof (Forall2_length _ _ _ HF) as Hl.
      rewrite <- Hl, Nat.eqb_refl. cbn [assert_ obind]. apply Hf; [done|]. done.
  Qed.

  Lemma encode_discr_parts tg (b0 r : list AB) :
    encode_discriminant T (fun b off e => write_subslice b off e) tg b0 = Ret r <->
    exists es, Forall2 (fun e b => encode_int T (fst (snd e)) (snd (snd e)) = Ret b) tg es /\
               write_all (zip (List.map fst tg) es) b0 = Ret r.
  Proof.
    unfold encode_discriminant. revert b0. induction tg as [|[off [it val]] tg IH]; intros b0; simpl.
    - split; [intros [= <-]; exists []; split; [constructor|done]|].
      intros (es & He & Hw). inversion He; subst. done.
    - split.
      + intros He. apply obind_ret in He as (b1 & Hb1 & He). apply obind_ret in Hb1 as (e & Hie & Hb1).
        apply IH in He as (es & Hes & Hw). exists (e :: es). split; [by constructor|].
        simpl. rewrite Hb1. done.
      + intros (es & Hes & Hw). inversion Hes as [|? e ? es' Hie Hes']; subst. simpl in *.
        rewrite Hie. simpl. apply obind_ret in Hw as (b1 & Hb1 & Hw). simpl in Hb1.
        rewrite Hb1. simpl. apply IH. eauto.
  Qed.

  Lemma decode_enum_some variants dty discr size align (bytes : list AB) v :
    decode T (TEnum variants dty discr size align) bytes = Ret (Some v) <->
    N.of_nat (length bytes) = size /\
    exists d t tg w, v = VVariant d w /\
      decode_discriminant T (bytes_accessor bytes) discr tt = Ret (Some d, tt) /\
      map_get variants d = Some (t, tg) /\ decode T t bytes = Ret (Some w).
  Proof.
    cbn [decode]. destruct (N.eqb_spec (N.of_nat (length bytes)) size) as [Hl|Hl].
    - split.
      + intros Hd. apply obind_ret in Hd as ([d []] & Hdd & Hd).
        destruct d as [d|]; [|discriminate]. rewrite map_get_with_spec in Hd.
        destruct (map_get variants d) as [[t tg]|] eqn:E; simpl in Hd; [|discriminate].
        apply obind_ret in Hd as (o & Ho & Hd). destruct o as [w|]; simpl in Hd; [|discriminate].
        inv. subst. eauto 10.
      + intros (_ & d & t & tg & w & -> & -> & E & Hw). cbn [obind].
        rewrite map_get_with_spec, E. simpl. by rewrite Hw.
    - split; [discriminate|]. intros [? _]; done.
  Qed.

  Lemma encode_enum_ret variants dty discr size align (v : Val) r :
    encode T (TEnum variants dty discr size align) v = Ret r <->
    exists d w t tg enc, v = VVariant d w /\ map_get variants d = Some (t, tg) /\
      encode T t w = Ret enc /\
      encode_discriminant T (fun b off e => write_subslice b off e) tg enc = Ret r.
  Proof.
    cbn [encode]. split.
    - destruct v as [| | | |d w|]; try discriminate. rewrite map_get_with_spec.
      destruct (map_get variants d) as [[t tg]|] eqn:E; simpl; [|discriminate].
      intros He. apply obind_ret in He as (enc & Henc & He). eauto 10.
    - intros (d & w & t & tg & enc & -> & E & Henc & He). rewrite map_get_with_spec, E. simpl.
      by rewrite Henc.
  Qed.

  (** ** Shape *)

  Lemma in_fields_Forall {A} (Q : A -> Prop) l x : Forall Q l -> In x l -> Q x.
  Proof. intros HF. rewrite List.Forall_forall in HF. auto. Qed.

  Theorem decode_shape (Tok : target_ok T) (ht : TraitName -> bool) ty (bytes : list AB) v :
    wf ht ty = Ret tt -> decode T ty bytes = Ret (Some v) -> shape T ty v.
  Proof.
    revert bytes v.
    induction ty as [it| |pt|fields head u IHf IHu|elem count IHe|elem IHe|fields chunks size align IHf
                    |variants dty discr size align IHv|tn] using Ty_ind'; intros bytes v Hwf Hd.
    - cbn [decode] in Hd. unfold decode_int in Hd. inv. destruct x; simpl in *; [|discriminate].
      inv. subst. constructor. by eapply decode_int_in_bounds.
    - cbn [decode] in Hd. unfold decode_bool in Hd.
      destruct bytes as [|[|[] f] [|]]; try discriminate; inv; subst; constructor.
    - cbn [decode] in Hd. by eapply decode_pointer_shape.
    - destruct u as [u|]; [discriminate|]. apply wf_tuple in Hwf as (Hfs & _).
      apply decode_tuple_some in Hd as (_ & vs & -> & HF). constructor.
      apply Forall2_same_length_lookup_2; [by eapply Forall2_length|].
      intros i f v Hf Hv. destruct (Forall2_lookup_lr _ _ _ _ _ _ HF Hf Hv) as (s & sub & _ & _ & Hd).
      rewrite Forall_lookup in IHf, Hfs. eapply IHf; [exact Hf| |exact Hd]. by apply (Hfs i f Hf).
    - apply wf_array in Hwf as (Hc & He & Hs & _).
      apply decode_array_some in Hd as (s & vs & _ & _ & -> & HF); [|done].
      pose proof (Forall2_length _ _ _ HF) as Hl. unfold indices in Hl.
      rewrite map_length, seq_length in Hl. constructor; [lia|].
      apply Forall_lookup. intros i v Hv.
      destruct (Forall2_lookup_r _ _ _ _ _ HF Hv) as (k & _ & sub & _ & Hd). by eapply IHe.
    - discriminate.
    - apply decode_union_some in Hd as (_ & data & -> & HF). constructor.
      eapply Forall2_impl; [exact HF|]. simpl. intros c d Hd. by eapply subslice_length.
    - apply wf_enum in Hwf as (Hvs & _).
      apply decode_enum_some in Hd as (_ & d & t & tg & w & -> & _ & E & Hd).
      econstructor; [exact E|]. apply map_get_in in E.
      pose proof (in_fields_Forall _ _ _ IHv E) as IH. pose proof (in_fields_Forall _ _ _ Hvs E) as Hv.
      eapply IH; [|exact Hd]. apply Hv.
    - discriminate.
  Qed.

  Lemma check_vtable_shape env (p : ThinPtr P) tn :
    check_vtable_ptr T env p tn = Ret tt -> in_bounds Unsigned (PTR_SIZE T) (tp_addr p) = true.
  Proof. unfold check_vtable_ptr. intros H. inv. done. Qed.

  Lemma check_ptr_shape env (p : Pointer P) pt :
    check_ptr T env p pt = Ret tt ->
    0 <= tp_addr (p_thin p) < 2 ^ (8 * Z.of_N (PTR_SIZE T)) /\
    meta_shape T (ptr_meta_kind pt) (p_meta p).
  Proof.
    unfold check_ptr. intros H. apply obind_ret in H as (u & H1 & H).
    apply ensure_else_ub_ret in H1.
    split; [by apply in_bounds_usize|]. apply obind_ret in H as ([] & H2 & _).
    unfold check_ptr_metadata in H2.
    destruct (p_meta p) as [[c|q]|], (ptr_meta_kind pt); try discriminate; constructor.
    - apply ensure_else_ub_ret in H2. by apply in_bounds_usize.
    - apply check_vtable_shape in H2. by apply in_bounds_usize.
  Qed.

  (** relational form of [check_value] on composite types *)
  Lemma check_tuple_ret env fields head u (v : Val) :
    check_value T env (TTuple fields head u) v = Ret tt <->
    u = None /\ exists vs, v = VTuple vs /\
      Forall2 (fun f v => check_value T env (snd f) v = Ret tt) fields vs.
  Proof.
    cbn [check_value]. split.
    - destruct v as [| | |vs| |]; try discriminate. destruct u; [discriminate|].
      intros Hc. apply obind_ret in Hc as (x & Hl & Hc). inv. split; [done|].
      exists vs. split; [done|]. apply for_each2_ret in Hc; [done|lia].
    - intros (-> & vs & -> & HF). pose proof (Forall2_length _ _ _ HF) as Hl.
      rewrite <- Hl, Nat.eqb_refl. cbn [ensure_else_ub obind]. by apply for_each2_ret.
  Qed.

  Lemma check_array_ret env elem count (v : Val) :
    check_value T env (TArray elem count) v = Ret tt <->
    exists vs, v = VTuple vs /\ Z.of_nat (length vs) = count /\
      Forall (fun v => check_value T env elem v = Ret tt) vs.
  Proof.
    cbn [check_value]. split.
    - destruct v as [| | |vs| |]; try discriminate.
      intros Hc. apply obind_ret in Hc as (x & Hl & Hc). inv.
      exists vs. split; [done|]. split; [lia|]. by apply for_each_ret in Hc.
    - intros (vs & -> & Hl & HF). rewrite Hl, Z.eqb_refl. cbn [ensure_else_ub obind].
      by apply for_each_ret.
  Qed.

  Lemma check_union_ret env fields chunks size align (v : Val) :
    check_value T env (TUnion fields chunks size align) v = Ret tt <->
    exists data, v = VUnion data /\ Forall2 (fun c d => N.of_nat (length d) = snd c) chunks data.
  Proof.
    cbn [check_value]. split.
    - destruct v as [| | | | |data]; try discriminate.
      intros Hc. apply obind_ret in Hc as (x & Hl & Hc). inv.
      exists data. split; [done|]. apply for_each2_ret in Hc; [|lia].
      eapply Forall2_impl; [exact Hc|]. simpl. intros c d Hd. inv. lia.
    - intros (data & -> & HF). pose proof (Forall2_length _ _ _ HF) as Hl.
      rewrite <- Hl, Nat.eqb_refl. cbn [ensure_else_ub obind]. apply for_each2_ret; [done|].
      eapply Forall2_impl; [exact HF|]. simpl. intros c d ->. by rewrite N.eqb_refl.
  Qed.

  Lemma check_enum_ret env variants dty discr size align (v : Val) :
    check_value T env (TEnum variants dty discr size align) v = Ret tt <->
    exists d w t tg, v = VVariant d w /\ map_get variants d = Some (t, tg) /\
      check_value T env t w = Ret tt.
  Proof.
    cbn [check_value]. split.
    - destruct v as [| | | |d w|]; try discriminate. rewrite map_get_with_spec.
      destruct (map_get variants d) as [[t tg]|] eqn:E; simpl; [|discriminate]. eauto 10.
    - intros (d & w & t & tg & -> & E & Hw). rewrite map_get_with_spec, E. done.
  Qed.

  Theorem check_value_shape env ty (v : Val) :
    check_value T env ty v = Ret tt -> shape T ty v.
  Proof.
    revert v.
    induction ty as [it| |pt|fields head u IHf IHu|elem count IHe|elem IHe|fields chunks size align IHf
                    |variants dty discr size align IHv|tn] using Ty_ind'; intros v Hc.
    - destruct v; try discriminate. cbn [check_value] in Hc. inv. by constructor.
    - destruct v; try discriminate. constructor.
    - destruct v; try discriminate. cbn [check_value] in Hc.
      apply check_ptr_shape in Hc as [? ?]. by constructor.
    - apply check_tuple_ret in Hc as (-> & vs & -> & HF). constructor.
      apply Forall2_same_length_lookup_2; [by eapply Forall2_length|].
      intros i f v Hf Hv. pose proof (Forall2_lookup_lr _ _ _ _ _ _ HF Hf Hv) as Hd.
      rewrite Forall_lookup in IHf. eapply IHf; [exact Hf|exact Hd].
    - apply check_array_ret in Hc as (vs & -> & Hl & HF). constructor; [done|].
      eapply Forall_impl; [exact HF|]. auto.
    - by destruct v.
    - apply check_union_ret in Hc as (data & -> & HF). by constructor.
    - apply check_enum_ret in Hc as (d & w & t & tg & -> & E & Hw). econstructor; [exact E|].
      apply map_get_in in E. pose proof (in_fields_Forall _ _ _ IHv E) as IH. auto.
    - by destruct v.
  Qed.

  (** Inversion of [shape] *)
  Lemma shape_int it (v : Val) :
    shape T (TInt it) v <-> exists i, v = VInt i /\ in_bounds (it_signed it) (it_size it) i = true.
  Proof. split; [intros Hs; inversion Hs; eauto|intros (i & -> & ?); by constructor]. Qed.
  Lemma shape_bool (v : Val) : shape T TBool v <-> exists b, v = VBool b.
  Proof. split; [intros Hs; inversion Hs; eauto|intros (i & ->); by constructor]. Qed.
  Lemma shape_ptr pt (v : Val) :
    shape T (TPtr pt) v <-> exists p, v = VPtr p /\
      0 <= tp_addr (p_thin p) < 2 ^ (8 * Z.of_N (PTR_SIZE T)) /\
      meta_shape T (ptr_meta_kind pt) (p_meta p).
  Proof. split; [intros Hs; inversion Hs; eauto|intros (i & -> & ? & ?); by constructor]. Qed.
  Lemma shape_tuple fields head u (v : Val) :
    shape T (TTuple fields head u) v <-> u = None /\ exists vs, v = VTuple vs /\
      Forall2 (fun f v => shape T (snd f) v) fields vs.
  Proof. split; [intros Hs; inversion Hs; eauto|intros (-> & i & -> & ?); by constructor]. Qed.
  Lemma shape_array elem count (v : Val) :
    shape T (TArray elem count) v <-> exists vs, v = VTuple vs /\
      Z.of_nat (length vs) = count /\ Forall (shape T elem) vs.
  Proof. split; [intros Hs; inversion Hs; eauto|intros (i & -> & ? & ?); by constructor]. Qed.
  Lemma shape_union fields chunks size align (v : Val) :
    shape T (TUnion fields chunks size align) v <-> exists data, v = VUnion data /\
      Forall2 (fun c d => N.of_nat (length d) = snd c) chunks data.
  Proof. split; [intros Hs; inversion Hs; eauto|intros (i & -> & ?); by constructor]. Qed.
  Lemma shape_enum variants dty discr size align (v : Val) :
    shape T (TEnum variants dty discr size align) v <-> exists d w t tg, v = VVariant d w /\
      map_get variants d = Some (t, tg) /\ shape T t w.
  Proof.
    split; [intros Hs; inversion Hs; subst; eauto 10|].
    intros (d & w & t & tg & -> & ? & ?); by econstructor.
  Qed.

  (** ** Encoding succeeds and has the right size (C01) *)

  Lemma wf_ptr_sized_int (ht : TraitName -> bool) it : wf ht (TInt it) = Ret tt -> tsize T (TInt it) = it_size it.
  Proof.
    intros Hw%wf_int. destruct (int_layout T it Hw) as (a & Ha & Hl).
    unfold tsize, size_of. by rewrite Hl.
  Qed.

  Lemma zip_lookup {A B} (l : list A) (k : list B) i a b :
    zip l k !! i = Some (a, b) <-> l !! i = Some a /\ k !! i = Some b.
  Proof.
    rewrite lookup_zip_with. destruct (l !! i), (k !! i); simpl; naive_solver.
  Qed.

  Theorem encode_total (Tok : target_ok T) (ht : TraitName -> bool) ty (v : Val) :
    wf ht ty = Ret tt -> shape T ty v ->
    exists b, encode T ty v = Ret b /\ N.of_nat (length b) = tsize T ty.
  Proof.
    revert v.
    induction ty as [it| |pt|fields head u IHf IHu|elem count IHe|elem IHe|fields chunks size align IHf
                    |variants dty discr size align IHv|tn] using Ty_ind'; intros v Hwf Hs.
    - apply shape_int in Hs as (i & -> & Hi). cbn [encode]. rewrite (wf_ptr_sized_int ht) by done. by apply encode_int_total.
    - apply shape_bool in Hs as (x & ->). eexists. split; [done|]. done.
    - apply shape_ptr in Hs as (p & -> & Hp & Hm). cbn [encode]. by apply encode_pointer_total.
    - apply shape_tuple in Hs as (-> & vals & -> & Hvals). pose proof Hwf as (Hfs & Hdis & _)%wf_tuple.
      assert (exists es, Forall2 (fun fv e => encode T (snd (fst fv)) (snd fv) = Ret e /\
        N.of_nat (length e) = tsize T (snd (fst fv))) (zip fields vals) es) as (es & Hes).
      { rename Hvals into HF. clear Hdis Hwf IHu. induction HF as [|f v fs vs Hfv HF IH2].
        - exists []. constructor.
        - inversion IHf as [|? ? IHf1 IHf2]; inversion Hfs as [|? ? (Hw1 & _) Hfs2]; subst.
          destruct (IHf1 _ Hw1 Hfv) as (e & He & Hle). destruct (IH2 IHf2 Hfs2) as (es & Hes).
          exists (e :: es). simpl. constructor; auto. }
      pose proof (Forall2_length _ _ _ Hvals) as Hl.
      pose proof (Forall2_length _ _ _ Hes) as Hles. rewrite zip_with_length in Hles.
      destruct (write_all_total (zip (List.map fst fields) es)
        (list_repeat (@Uninit P) (align_to (th_end head) (th_align head)))) as [r Hr].
      { apply Forall_lookup. intros i [o e] Hi. apply zip_lookup in Hi as [Ho He].
        rewrite list_lookup_fmap in Ho. destruct (fields !! i) as [f|] eqn:Hf; [|discriminate].
        injection Ho as <-.
        destruct (Forall2_lookup_r _ _ _ _ _ Hes He) as ([f' v] & Hz & _ & Hle).
        apply zip_lookup in Hz as [Hf' _]. simpl in Hle. assert (f' = f) as -> by congruence.
        rewrite Forall_lookup in Hfs. destruct (Hfs i f Hf) as (_ & _ & Hfit).
        pose proof (align_to_spec (th_end head) (th_align head)) as (? & _).
        rewrite list_repeat_length. simpl. lia. }
      exists r. split.
      + apply encode_tuple_ret. exists vals, es. split; [done|]. split; [done|]. split; [|done].
        eapply Forall2_impl; [exact Hes|]. by intros ? ? [? _].
      + rewrite (write_all_length _ _ _ Hr), list_repeat_length.
        destruct (tuple_size T ht _ _ _ Hwf eq_refl) as [-> _]. lia.
    - apply shape_array in Hs as (vals & -> & Hlen & Hvals). pose proof Hwf as (Hc & Hwe & Hse & Hsa & Hsz)%wf_array.
      assert (exists parts, Forall2 (fun v b => encode T elem v = Ret b /\
         N.of_nat (length b) = tsize T elem) vals parts) as (parts & Hp).
      { rename Hvals into HF. clear -HF IHe Hwe. induction HF as [|v vs Hv HF (ps & IH)].
        - exists []; constructor.
        - destruct (IHe v Hwe Hv) as (b & Hb & Hl). exists (b :: ps). constructor; auto. }
      exists (concat parts). split.
      + apply encode_array_ret. exists vals, parts. repeat split; auto.
        eapply Forall2_impl; [exact Hp|]. simpl. intros v b [Hv Hl]. split; [done|].
        exists (tsize T elem). split; [by apply sized_tsize|done].
      + apply N2Z.inj. rewrite Hsz, <- Hlen. clear -Hp. induction Hp as [|v b vs bs [_ Hb] Hp IH]; simpl; [lia|].
        rewrite app_length. lia.
    - by inversion Hs.
    - apply shape_union in Hs as (data & -> & Hdata). apply wf_union in Hwf as (_ & Hfit & _).
      destruct (write_all_total (zip (List.map fst chunks) data) (list_repeat (@Uninit P) size))
        as [r Hr].
      { apply Forall_lookup. intros i [o e] Hi. apply zip_lookup in Hi as [Ho He].
        rewrite list_lookup_fmap in Ho. destruct (chunks !! i) as [f|] eqn:Hf; [|discriminate].
        injection Ho as <-. rewrite Forall_lookup in Hfit. specialize (Hfit i f Hf).
        pose proof (Forall2_lookup_lr _ _ _ _ _ _ Hdata Hf He) as Hle. simpl in Hle.
        rewrite list_repeat_length. simpl. lia. }
      exists r. split.
      + apply encode_union_ret. eauto.
      + rewrite (write_all_length _ _ _ Hr), list_repeat_length. unfold tsize, size_of; simpl. lia.
    - apply shape_enum in Hs as (d & w & t & tg & -> & Hget & Hw).
      apply wf_enum in Hwf as (Hvs & _). pose proof (map_get_in _ _ _ Hget) as Hin.
      pose proof (in_fields_Forall _ _ _ IHv Hin) as IH.
      pose proof (in_fields_Forall _ _ _ Hvs Hin) as (_ & Hwt & Hst & Hsize & _ & Htg).
      simpl in IH, Hwt, Hst, Hsize, Htg.
      destruct (IH _ Hwt Hw) as (enc & Henc & Hlen).
      assert (exists es, Forall2 (fun e b => encode_int T (fst (snd e)) (snd (snd e)) = @Ret (list AB) b /\
         N.of_nat (length b) = it_size (fst (snd e))) tg es) as (es & Hes).
      { clear -Htg. induction Htg as [|e tg (Hp & Hr & Hf) Htg (es & IH)].
        - exists []; constructor.
        - destruct (encode_int_total (P := P) T _ _ Hr) as (b & Hb & Hl).
          exists (b :: es). constructor; auto. }
      destruct (write_all_total (zip (List.map fst tg) es) enc) as [r Hr].
      { apply Forall_lookup. intros i [o e] Hi. apply zip_lookup in Hi as [Ho He].
        rewrite list_lookup_fmap in Ho. destruct (tg !! i) as [f|] eqn:Hf; [|discriminate].
        injection Ho as <-. rewrite Forall_lookup in Htg. destruct (Htg i f Hf) as (_ & _ & Hfit).
        pose proof (Forall2_lookup_lr _ _ _ _ _ _ Hes Hf He) as [_ Hle]. simpl. lia. }
      exists r. split.
      + apply encode_enum_ret. exists d, w, t, tg, enc. repeat split; auto.
        apply encode_discr_parts. exists es. split; [|done].
        eapply Forall2_impl; [exact Hes|]. by intros ? ? [? _].
      + rewrite (write_all_length _ _ _ Hr). unfold tsize at 1, size_of; simpl. lia.
    - by inversion Hs.
  Qed.
End ReprTy.
