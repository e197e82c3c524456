(** Proofs about the representation of (thin and wide) pointers. *)
From Verif Require Export ReprProofs.
From Coq Require Import ZifyBool ZifyN ZifyNat.

Section TargetOk.
  Variable T : Target.
  Hypothesis Tok : target_ok T.

  Lemma ptr_size_pow2 : align_from_bytes (PTR_SIZE T) <> None.
  Proof.
    pose proof (tok_usize T Tok) as H. unfold int_align in H. simpl in H. inv. congruence.
  Qed.

  Lemma ptr_size_pos : PTR_SIZE T <> 0%N.
  Proof. intros E. apply ptr_size_pow2. rewrite E. done. Qed.

  Lemma ptr_size_aligned : (PTR_SIZE T mod align_bytes (PTR_ALIGN T) = 0)%N.
  Proof.
    pose proof (tok_usize T Tok) as H. unfold int_align in H. simpl in H. inv.
    match goal with H : align_from_bytes _ = Some ?x |- _ =>
      apply align_from_bytes_some in H; rewrite <- H end.
    match goal with H : align_min _ _ = _ |- _ => rewrite <- H end. apply align_le_divides.
    unfold align_le, align_min; simpl. lia.
  Qed.

  Lemma wide_size :
    head_size_and_align (mkHead (2 * PTR_SIZE T) (PTR_ALIGN T) None) =
    (2 * PTR_SIZE T, PTR_ALIGN T)%N.
  Proof.
    unfold head_size_and_align; cbn [th_end th_align]. f_equal. apply align_to_id.
    pose proof (align_bytes_pos (PTR_ALIGN T)).
    rewrite N.mul_mod by lia. rewrite ptr_size_aligned, N.mul_0_r. apply N.mod_0_l. lia.
  Qed.

  Definition wide (pt : PtrType) : bool :=
    match ptr_meta_kind pt with MKNone => false | _ => true end.

  Definition wide_pair_ty (pt : PtrType) : Ty :=
    TTuple [(0%N, TPtr (PRaw MKNone)); (PTR_SIZE T, meta_kind_ty T (ptr_meta_kind pt))]
           (mkHead (2 * PTR_SIZE T) (PTR_ALIGN T) None) None.

  Lemma usize_layout : layout T (TInt (usize_ty T)) = Ret (LSized (PTR_SIZE T) (PTR_ALIGN T)).
  Proof. cbn [layout]. rewrite (tok_usize T Tok). done. Qed.

  Lemma as_wide_pair_ok pt :
    as_wide_pair T pt = Ret (if wide pt then Some (wide_pair_ty pt) else None).
  Proof.
    unfold as_wide_pair, wide, wide_pair_ty, size_of, align_of.
    destruct (ptr_meta_kind pt); [done|..]; cbn [meta_kind_ty].
    - rewrite usize_layout. simpl. rewrite N.eqb_refl. simpl.
      rewrite bool_decide_eq_true_2 by done. done.
    - simpl. rewrite N.eqb_refl. simpl. rewrite bool_decide_eq_true_2 by done. done.
  Qed.

  Lemma ptr_layout pt :
    layout T (TPtr pt) = Ret (LSized (if wide pt then 2 * PTR_SIZE T else PTR_SIZE T) (PTR_ALIGN T)).
  Proof. unfold wide. cbn [layout]. destruct (ptr_meta_kind pt); done. Qed.

  Lemma ptr_sized pt : sized T (TPtr pt).
  Proof. red. rewrite ptr_layout. eauto. Qed.

  Lemma ptr_tsize pt : tsize T (TPtr pt) = if wide pt then (2 * PTR_SIZE T)%N else PTR_SIZE T.
  Proof. unfold tsize, size_of. rewrite ptr_layout. done. Qed.

  Lemma in_bounds_usize a :
    in_bounds Unsigned (PTR_SIZE T) a = true <-> 0 <= a < 2 ^ (8 * Z.of_N (PTR_SIZE T)).
  Proof.
    rewrite in_bounds_spec. simpl. unfold size_bits. lia.
  Qed.
End TargetOk.

Section ReprPtr.
  Context {P : Type} `{EqDecision P}.
  Variable T : Target.
  Hypothesis Tok : target_ok T.

  Notation AB := (AByte P).
  Notation Val := (Value P).

  (** ** Metadata *)
  Definition meta_val (m : PtrMeta P) : Val :=
    match m with MElementCount c => VInt c | MVTablePointer p => VPtr (widen p None) end.

  Definition decode_meta_m (mk : MetaKind) (b : list AB) : Outcome (option (PtrMeta P)) :=
    match mk with
    | MKNone => Panic
    | MKElementCount => let! o := decode_int_opt T (usize_ty T) b in Ret (option_map MElementCount o)
    | MKVTablePointer _ => let! o := decode_ptr T b in Ret (option_map MVTablePointer o)
    end.
  Definition encode_meta_m (mk : MetaKind) (m : option (PtrMeta P)) : Outcome (list AB) :=
    match mk, m with
    | MKElementCount, Some (MElementCount c) => encode_int T (usize_ty T) c
    | MKVTablePointer _, Some (MVTablePointer p) => encode_ptr T p
    | _, _ => Panic
    end.

  Lemma decode_pointer_eq pt (bytes : list AB) :
    decode_pointer T pt bytes =
    if wide pt then
      if (N.of_nat (length bytes) =? 2 * PTR_SIZE T)%N then
        let! b1 := subslice bytes 0 (PTR_SIZE T) in
        let! o1 := decode_ptr T b1 in
        match o1 with
        | None => Ret None
        | Some p =>
            let! b2 := subslice bytes (PTR_SIZE T) (PTR_SIZE T) in
            let! o2 := decode_meta_m (ptr_meta_kind pt) b2 in
            Ret (option_map (fun m => VPtr (mkPtr p (Some m))) o2)
        end
      else Panic
    else let! o := decode_ptr T bytes in Ret (option_map (fun p => VPtr (mkPtr p None)) o).
  Proof.
    unfold decode_pointer. rewrite (as_wide_pair_ok T Tok). cbn [obind].
    destruct (wide pt) eqn:Hw; [|done].
    rewrite (wide_size T Tok). destruct (_ =? _)%N; [|done].
    destruct (subslice bytes 0 (PTR_SIZE T)); simpl; try done.
    destruct (decode_ptr T a) as [[p|]| | |]; simpl; try done.
    destruct (subslice bytes (PTR_SIZE T) (PTR_SIZE T)); simpl; try done.
    unfold wide in Hw. destruct (ptr_meta_kind pt); [done|..]; simpl.
    - unfold decode_int. destruct (decode_int_opt T (usize_ty T) a0) as [[c|]| | |]; simpl; done.
    - destruct (decode_ptr T a0) as [[c|]| | |]; simpl; done.
  Qed.

  Lemma encode_pointer_eq pt (p : Pointer P) :
    encode_pointer T pt p =
    if wide pt then
      match encode_meta_m (ptr_meta_kind pt) (p_meta p) with
      | Panic => encode_pointer T pt p
      | _ =>
        let! b1 := encode_ptr T (p_thin p) in
        let! bytes := write_subslice (list_repeat Uninit (2 * PTR_SIZE T)) 0 b1 in
        let! b2 := encode_meta_m (ptr_meta_kind pt) (p_meta p) in
        write_subslice bytes (PTR_SIZE T) b2
      end
    else match p_meta p with Some _ => Panic | None => encode_ptr T (p_thin p) end.
  Proof.
    unfold encode_pointer. rewrite (as_wide_pair_ok T Tok). cbn [obind].
    destruct (wide pt) eqn:Hw; [|done].
    rewrite (wide_size T Tok).
    destruct (ptr_meta_kind pt), (p_meta p) as [[c|q]|]; simpl; try done.
    - destruct (encode_int T (usize_ty T) c); simpl; done.
    - destruct (encode_ptr T q); simpl; done.
  Qed.

  Lemma encode_meta_total mk (m : option (PtrMeta P)) :
    meta_shape T mk m -> mk <> MKNone ->
    exists b, encode_meta_m mk m = Ret b /\ N.of_nat (length b) = PTR_SIZE T.
  Proof.
    intros Hm Hk. destruct Hm as [|c Hc|tn q Hq]; [done|..]; simpl.
    - apply (encode_int_total T (usize_ty T)). by apply in_bounds_usize.
    - apply encode_ptr_total. by apply in_bounds_usize.
  Qed.

  Lemma wide_kind pt : wide pt = true <-> ptr_meta_kind pt <> MKNone.
  Proof. unfold wide. destruct (ptr_meta_kind pt); split; done. Qed.

  Lemma encode_pointer_wide pt (p : Pointer P) b1 b2 :
    wide pt = true -> encode_ptr T (p_thin p) = Ret b1 ->
    encode_meta_m (ptr_meta_kind pt) (p_meta p) = Ret b2 ->
    encode_pointer T pt p = Ret (b1 ++ b2).
  Proof.
    intros Hw H1 H2. rewrite encode_pointer_eq, Hw, H2, H1. simpl.
    pose proof (encode_ptr_length T _ _ H1) as L1.
    assert (N.of_nat (length b2) = PTR_SIZE T) as L2.
    { destruct (ptr_meta_kind pt), (p_meta p) as [[c|q]|]; simpl in H2; try done.
      - by apply encode_int_length in H2.
      - by apply encode_ptr_length in H2. }
    destruct (write_subslice_total (list_repeat (@Uninit P) (2 * PTR_SIZE T)) 0 b1) as [r Hr].
    { rewrite list_repeat_length. lia. }
    rewrite Hr; simpl. apply write_subslice_ret in Hr as [_ ->]. simpl.
    apply write_subslice_ret. rewrite app_length, drop_length, list_repeat_length. split; [lia|].
    rewrite take_app_alt by lia. f_equal.
    rewrite drop_ge by (rewrite app_length, drop_length, list_repeat_length; lia).
    by rewrite app_nil_r.
  Qed.

  Lemma encode_pointer_total pt (p : Pointer P) :
    0 <= tp_addr (p_thin p) < 2 ^ (8 * Z.of_N (PTR_SIZE T)) ->
    meta_shape T (ptr_meta_kind pt) (p_meta p) ->
    exists b, encode_pointer T pt p = Ret b /\ N.of_nat (length b) = tsize T (TPtr pt).
  Proof.
    intros Ha%in_bounds_usize Hm. destruct (encode_ptr_total T _ Ha) as (b1 & H1 & L1).
    rewrite ptr_tsize. destruct (wide pt) eqn:Hw.
    - destruct (encode_meta_total _ _ Hm) as (b2 & H2 & L2); [by apply wide_kind|].
      rewrite (encode_pointer_wide _ _ _ _ Hw H1 H2). eexists. split; [done|].
      rewrite app_length. lia.
    - rewrite encode_pointer_eq, Hw. unfold wide in Hw.
      destruct Hm; try discriminate. eauto.
  Qed.

  (** the result of encoding a pointer, decomposed *)
  Lemma encode_pointer_inv pt (p : Pointer P) b :
    encode_pointer T pt p = Ret b ->
    exists b1, encode_ptr T (p_thin p) = Ret b1 /\
    ((wide pt = false /\ p_meta p = None /\ b = b1) \/
     (wide pt = true /\ exists b2, encode_meta_m (ptr_meta_kind pt) (p_meta p) = Ret b2 /\
        b = b1 ++ b2)).
  Proof.
    intros He. destruct (wide pt) eqn:Hw.
    - assert (exists b1 b2, encode_ptr T (p_thin p) = Ret b1 /\
        encode_meta_m (ptr_meta_kind pt) (p_meta p) = Ret b2) as (b1 & b2 & H1 & H2).
      { unfold encode_pointer in He. rewrite (as_wide_pair_ok T Tok), Hw in He. cbn [obind] in He.
        rewrite (wide_size T Tok) in He. inv. unfold wide in Hw.
        destruct (ptr_meta_kind pt), (p_meta p) as [[c|q]|]; simpl in *; inv; subst; try done; eauto. }
      exists b1. split; [done|]. right. split; [done|]. exists b2. split; [done|].
      rewrite (encode_pointer_wide _ _ _ _ Hw H1 H2) in He. congruence.
    - rewrite encode_pointer_eq, Hw in He. destruct (p_meta p); [discriminate|]. eauto 10.
  Qed.

  Lemma decode_encode_meta mk (m : option (PtrMeta P)) b :
    encode_meta_m mk m = Ret b -> exists m', m = Some m' /\ decode_meta_m mk b = Ret (Some m').
  Proof.
    destruct mk, m as [[c|q]|]; simpl; try discriminate; intros He; eexists; (split; [done|]).
    - by rewrite (decode_encode_int T _ _ _ He).
    - by rewrite (decode_encode_ptr T _ _ (ptr_size_pos T Tok) He).
  Qed.

  Lemma encode_meta_length mk (m : option (PtrMeta P)) b :
    encode_meta_m mk m = Ret b -> N.of_nat (length b) = PTR_SIZE T.
  Proof.
    destruct mk, m as [[c|q]|]; simpl; try discriminate; intros He.
    - by apply encode_int_length in He.
    - by apply encode_ptr_length in He.
  Qed.

  Lemma subslice_app_l (b1 b2 : list AB) n :
    N.of_nat (length b1) = n -> subslice (b1 ++ b2) 0 n = Ret b1.
  Proof.
    intros <-. apply subslice_ret. rewrite app_length. split; [lia|]. simpl.
    rewrite Nat2N.id, drop_0, take_app. done.
  Qed.
  Lemma subslice_app_r (b1 b2 : list AB) n m :
    N.of_nat (length b1) = n -> N.of_nat (length b2) = m -> subslice (b1 ++ b2) n m = Ret b2.
  Proof.
    intros <- <-. apply subslice_ret. rewrite app_length. split; [lia|].
    rewrite !Nat2N.id, drop_app, take_ge; done.
  Qed.

  Theorem decode_encode_pointer pt (p : Pointer P) b :
    encode_pointer T pt p = Ret b -> decode_pointer T pt b = Ret (Some (VPtr p)).
  Proof.
    intros (b1 & H1 & [(Hw & Hm & ->)|(Hw & b2 & H2 & ->)])%encode_pointer_inv;
      rewrite decode_pointer_eq, Hw.
    - rewrite (decode_encode_ptr T _ _ (ptr_size_pos T Tok) H1). simpl. destruct p; simpl in *. by subst.
    - pose proof (encode_ptr_length T _ _ H1) as L1. pose proof (encode_meta_length _ _ _ H2) as L2.
      rewrite app_length. replace (N.of_nat (length b1 + length b2) =? 2 * PTR_SIZE T)%N with true by lia.
      rewrite (subslice_app_l b1 b2 _ L1). simpl.
      rewrite (decode_encode_ptr T _ _ (ptr_size_pos T Tok) H1). simpl.
      rewrite (subslice_app_r b1 b2 _ _ L1 L2). simpl.
      destruct (decode_encode_meta _ _ _ H2) as (m & Hm & ->). simpl. rewrite <- Hm.
      destruct p; done.
  Qed.

  Lemma decode_meta_total mk (b : list AB) :
    mk <> MKNone -> N.of_nat (length b) = PTR_SIZE T -> exists o, decode_meta_m mk b = Ret o.
  Proof.
    intros Hk Hl. destruct mk; simpl; [done|..].
    - destruct (decode_int_total T (usize_ty T) b Hl) as [o ->]. simpl. eauto.
    - destruct (decode_ptr_total T b (ptr_size_pos T Tok) Hl) as [o ->]. simpl. eauto.
  Qed.

  Lemma decode_pointer_total pt (b : list AB) :
    N.of_nat (length b) = tsize T (TPtr pt) -> exists o, decode_pointer T pt b = Ret o.
  Proof.
    rewrite ptr_tsize, decode_pointer_eq. destruct (wide pt) eqn:Hw; intros Hl.
    - rewrite Hl, N.eqb_refl.
      destruct (subslice_total b 0 (PTR_SIZE T)) as [b1 H1]; [lia|]. rewrite H1; simpl.
      destruct (decode_ptr_total T b1 (ptr_size_pos T Tok)) as [o1 ->];
        [by eapply subslice_length|]. simpl. destruct o1 as [p|]; [|eauto].
      destruct (subslice_total b (PTR_SIZE T) (PTR_SIZE T)) as [b2 H2]; [lia|]. rewrite H2; simpl.
      destruct (decode_meta_total (ptr_meta_kind pt) b2) as [o2 ->];
        [by apply wide_kind|by eapply subslice_length|]. simpl. eauto.
    - destruct (decode_ptr_total T b (ptr_size_pos T Tok) Hl) as [o ->]. simpl. eauto.
  Qed.

  Lemma decode_meta_shape mk (b : list AB) m :
    decode_meta_m mk b = Ret (Some m) -> meta_shape T mk (Some m).
  Proof.
    destruct mk; simpl; intros Hd; inv; destruct x as [c|]; simpl in *; inv; subst; constructor.
    - apply decode_int_in_bounds in H. by apply in_bounds_usize.
    - apply decode_ptr_in_bounds in H. by apply in_bounds_usize.
  Qed.

  (** decoding a pointer, decomposed *)
  Lemma decode_pointer_inv pt (b : list AB) v :
    decode_pointer T pt b = Ret (Some v) ->
    (wide pt = false /\ exists p, decode_ptr T b = Ret (Some p) /\ v = VPtr (mkPtr p None)) \/
    (wide pt = true /\ exists b1 b2 p m, b = b1 ++ b2 /\ N.of_nat (length b1) = PTR_SIZE T /\
       N.of_nat (length b2) = PTR_SIZE T /\ decode_ptr T b1 = Ret (Some p) /\
       decode_meta_m (ptr_meta_kind pt) b2 = Ret (Some m) /\ v = VPtr (mkPtr p (Some m))).
  Proof.
    rewrite decode_pointer_eq. destruct (wide pt) eqn:Hw.
    - destruct (N.eqb_spec (N.of_nat (length b)) (2 * PTR_SIZE T)) as [Hl|]; [|discriminate].
      intros Hd. right. split; [done|]. inv.
      destruct x0 as [p|]; [|discriminate]. inv. destruct x1 as [m|]; simpl in *; [|discriminate].
      inv. subst. exists x, x0, p, m.
      pose proof (subslice_length _ _ _ _ H). pose proof (subslice_length _ _ _ _ H0).
      repeat split; auto.
      apply subslice_ret in H as [_ ->]. apply subslice_ret in H0 as [_ ->]. simpl. rewrite drop_0.
      rewrite (take_ge (drop _ _)) by (rewrite drop_length; lia). by rewrite take_drop.
    - intros Hd. left. split; [done|]. inv. destruct x as [p|]; simpl in *; [|discriminate].
      inv. subst. eauto.
  Qed.

  Lemma decode_pointer_shape pt (b : list AB) v :
    decode_pointer T pt b = Ret (Some v) -> shape T (TPtr pt) v.
  Proof.
    intros [(Hw & p & Hp & ->)|(Hw & b1 & b2 & p & m & -> & _ & _ & Hp & Hm & ->)]%decode_pointer_inv;
      apply decode_ptr_in_bounds in Hp; apply in_bounds_usize in Hp; constructor; auto; simpl.
    - unfold wide in Hw. destruct (ptr_meta_kind pt); try discriminate. constructor.
    - by eapply decode_meta_shape.
  Qed.

  Lemma encode_decode_meta mk (b : list AB) m :
    decode_meta_m mk b = Ret (Some m) ->
    exists b', encode_meta_m mk (Some m) = Ret b' /\ bytes_le b' b.
  Proof.
    destruct mk; simpl; intros Hd; inv; destruct x as [c|]; simpl in *; inv; subst.
    - by apply encode_decode_int.
    - by apply encode_decode_ptr.
  Qed.

  Theorem encode_decode_pointer pt (b : list AB) p :
    decode_pointer T pt b = Ret (Some (VPtr p)) ->
    exists b', encode_pointer T pt p = Ret b' /\ bytes_le b' b.
  Proof.
    intros [(Hw & q & Hp & Hv)|(Hw & b1 & b2 & q & m & -> & _ & _ & Hp & Hm & Hv)]%decode_pointer_inv;
      injection Hv as ->.
    - rewrite encode_pointer_eq, Hw. simpl. by apply encode_decode_ptr.
    - destruct (encode_decode_ptr T _ _ Hp) as (b1' & H1 & Hle1).
      destruct (encode_decode_meta _ _ _ Hm) as (b2' & H2 & Hle2).
      rewrite (encode_pointer_wide pt (mkPtr q (Some m)) _ _ Hw H1 H2). eexists. split; [done|].
      by apply Forall2_app.
  Qed.

  Lemma decode_meta_mono mk (b1 b2 : list AB) m1 :
    bytes_le b1 b2 -> decode_meta_m mk b1 = Ret (Some m1) ->
    exists m2, decode_meta_m mk b2 = Ret (Some m2) /\ meta_less (Some m1) (Some m2).
  Proof.
    intros Hle. destruct mk; simpl; intros Hd; inv; destruct x as [c|]; simpl in *; inv; subst.
    - rewrite (decode_int_mono T _ _ _ _ Hle H). simpl. eexists. split; [done|]. constructor.
    - destruct (decode_ptr_mono T _ _ _ Hle H) as (q & -> & Hq). simpl. eexists. split; [done|].
      by constructor.
  Qed.

  Lemma decode_pointer_mono pt (b1 b2 : list AB) v1 :
    bytes_le b1 b2 -> decode_pointer T pt b1 = Ret (Some v1) ->
    exists v2, decode_pointer T pt b2 = Ret (Some v2) /\ value_le v1 v2.
  Proof.
    intros Hle [(Hw & p & Hp & ->)|(Hw & a1 & a2 & p & m & -> & L1 & L2 & Hp & Hm & ->)]%decode_pointer_inv;
      rewrite decode_pointer_eq, Hw.
    - destruct (decode_ptr_mono T _ _ _ Hle Hp) as (q & -> & Hq). simpl. eexists. split; [done|].
      constructor; [done|constructor].
    - apply Forall2_app_inv_l in Hle as (c1 & c2 & Hc1 & Hc2 & ->).
      pose proof (bytes_le_length _ _ Hc1). pose proof (bytes_le_length _ _ Hc2).
      rewrite app_length. replace (N.of_nat (length c1 + length c2) =? 2 * PTR_SIZE T)%N with true by lia.
      rewrite (subslice_app_l c1 c2) by lia. simpl.
      destruct (decode_ptr_mono T _ _ _ Hc1 Hp) as (q & -> & Hq). simpl.
      rewrite (subslice_app_r c1 c2) by lia. simpl.
      destruct (decode_meta_mono _ _ _ _ Hc2 Hm) as (m2 & -> & Hm2). simpl.
      eexists. split; [done|]. by constructor.
  Qed.

  Lemma encode_pointer_mono pt (p q : Pointer P) bp bq :
    thin_less (p_thin p) (p_thin q) -> meta_less (p_meta p) (p_meta q) ->
    encode_pointer T pt p = Ret bp -> encode_pointer T pt q = Ret bq -> bytes_le bp bq.
  Proof.
    intros Ht Hm (b1 & H1 & Hp)%encode_pointer_inv (c1 & K1 & Hq)%encode_pointer_inv.
    pose proof (encode_ptr_mono T _ _ _ _ Ht H1 K1) as Hle.
    destruct Hp as [(Hw & _ & ->)|(Hw & b2 & H2 & ->)], Hq as [(Hw' & _ & ->)|(Hw' & c2 & K2 & ->)];
      try congruence.
    apply Forall2_app; [done|].
    destruct Hm as [m|c|r s Hrs]; destruct (ptr_meta_kind pt); simpl in *; try discriminate.
    - assert (b2 = c2) as -> by congruence. apply bytes_le_refl.
    - eapply encode_ptr_mono; eauto.
  Qed.
End ReprPtr.
