(** Proofs about the value representation. *)
From Verif Require Export ReprSpec WfTypesProofs.
From Coq Require Import ZifyBool ZifyN ZifyNat.

Lemma ensure_else_ub_ret b msg u : ensure_else_ub b msg = Ret u -> b = true.
Proof. unfold ensure_else_ub. destruct b; [done|discriminate]. Qed.

Lemma is_ok_ret {A} (o : Outcome A) : is_ok o = Ret true -> exists a, o = Ret a.
Proof. destruct o; simpl; try discriminate. eauto. Qed.

Ltac inv_ub1 :=
  match goal with
  | H : ensure_else_ub _ _ = Ret _ |- _ => apply ensure_else_ub_ret in H
  end.
Ltac inv ::= repeat (inv1 || inv_wf1 || inv_ub1).

Section ReprProofs.
  Context {P : Type} `{EqDecision P}.
  Variable T : Target.

  Notation AB := (AByte P).
  Notation Val := (Value P).

  (** ** Byte data *)

  Lemma bytes_data_some (l : list AB) ds :
    bytes_data l = Some ds <-> List.map ab_data l = List.map Some ds.
  Proof.
    revert ds. induction l as [|b r IH]; intros ds; simpl.
    - split; [intros [= <-]; done|]. destruct ds; done.
    - split.
      + destruct (ab_data b) as [d|]; [|discriminate].
        destruct (bytes_data r) as [ds'|]; [|discriminate]. intros [= <-]. simpl. f_equal.
        by apply IH.
      + destruct ds as [|d ds]; [done|]. simpl. intros [= -> Hr]. apply IH in Hr. by rewrite Hr.
  Qed.

  Lemma bytes_data_length (l : list AB) ds : bytes_data l = Some ds -> length ds = length l.
  Proof.
    intros Hd%bytes_data_some. apply (f_equal length) in Hd. rewrite !map_length in Hd. done.
  Qed.

  Lemma bytes_data_init ds : bytes_data (List.map (fun b => @Init P b None) ds) = Some ds.
  Proof.
    apply bytes_data_some. rewrite map_map. done.
  Qed.

  Lemma bytes_data_frags (pr : option P) idx ds : bytes_data (encode_frags pr idx ds) = Some ds.
  Proof.
    revert idx. induction ds as [|d ds IH]; intros idx; simpl; [done|]. by rewrite IH.
  Qed.

  Lemma byte_le_data (a b : AB) d : byte_le a b -> ab_data a = Some d -> ab_data b = Some d.
  Proof. intros Hle Hd. destruct Hle; simpl in *; congruence. Qed.

  Lemma bytes_data_le (l1 l2 : list AB) ds :
    bytes_le l1 l2 -> bytes_data l1 = Some ds -> bytes_data l2 = Some ds.
  Proof.
    intros Hle Hd. apply bytes_data_some. apply bytes_data_some in Hd.
    revert ds Hd. induction Hle as [|a b l1 l2 Hab Hle IH]; intros [|d ds]; simpl; try done.
    intros [= Ha Hl]. f_equal; [by eapply byte_le_data|]. by apply IH.
  Qed.

  (** Bytes with the same data and no provenance are below. *)
  Lemma init_le (l : list AB) ds :
    bytes_data l = Some ds -> bytes_le (List.map (fun b => Init b None) ds) l.
  Proof.
    intros Hd%bytes_data_some. revert ds Hd.
    induction l as [|b l IH]; intros [|d ds]; simpl; try done; [constructor|].
    intros [= Hb Hl]. constructor; [|by apply IH].
    destruct b; simpl in Hb; [done|]. injection Hb as ->. constructor.
  Qed.

  Lemma byte_le_refl (b : AB) : byte_le b b.
  Proof. destruct b; constructor. Qed.
  Lemma bytes_le_refl (l : list AB) : bytes_le l l.
  Proof. induction l; constructor; auto using byte_le_refl. Qed.
  Lemma byte_le_trans (a b c : AB) : byte_le a b -> byte_le b c -> byte_le a c.
  Proof. intros Hab Hbc. destruct Hab; inversion Hbc; subst; constructor. Qed.
  Lemma bytes_le_length (l1 l2 : list AB) : bytes_le l1 l2 -> length l1 = length l2.
  Proof. apply Forall2_length. Qed.
  Lemma bytes_le_subslice (l1 l2 : list AB) off len s1 :
    bytes_le l1 l2 -> subslice l1 off len = Ret s1 ->
    exists s2, subslice l2 off len = Ret s2 /\ bytes_le s1 s2.
  Proof.
    intros Hle [Hb ->]%subslice_ret. eexists. split.
    - apply subslice_ret. rewrite <- (bytes_le_length _ _ Hle). done.
    - apply Forall2_take, Forall2_drop, Hle.
  Qed.

  (** ** Integers *)

  Lemma encode_int_total it i :
    in_bounds (it_signed it) (it_size it) i = true ->
    exists b, encode_int T it i = @Ret (list AB) b /\ N.of_nat (length b) = it_size it.
  Proof.
    intros Hb. destruct (proj1 (endian_encode_some (ENDIANNESS T) _ _ _) Hb) as [l Hl].
    unfold encode_int. rewrite Hl. simpl. eexists. split; [done|].
    rewrite map_length. by eapply endian_encode_length.
  Qed.

  Lemma encode_int_length it i (b : list AB) :
    encode_int T it i = Ret b -> N.of_nat (length b) = it_size it.
  Proof.
    unfold encode_int. intros E. inv. subst. rewrite map_length.
    by eapply endian_encode_length.
  Qed.

  Lemma encode_int_in_bounds it i (b : list AB) :
    encode_int T it i = Ret b -> in_bounds (it_signed it) (it_size it) i = true.
  Proof.
    unfold encode_int. intros E. inv. eapply endian_encode_some. eauto.
  Qed.

  Lemma decode_encode_int it i (b : list AB) :
    encode_int T it i = Ret b -> decode_int_opt T it b = Ret (Some i).
  Proof.
    intros He. pose proof (encode_int_length _ _ _ He) as Hl. unfold encode_int in He. inv. subst.
    unfold decode_int_opt. rewrite Hl, N.eqb_refl. rewrite bytes_data_init. do 2 f_equal.
    by eapply endian_decode_encode.
  Qed.

  Lemma decode_int_opt_ret it (b : list AB) o :
    decode_int_opt T it b = Ret o -> N.of_nat (length b) = it_size it.
  Proof. unfold decode_int_opt. destruct (N.eqb_spec (N.of_nat (length b)) (it_size it)); done. Qed.

  Lemma decode_int_total it (b : list AB) :
    N.of_nat (length b) = it_size it -> exists o, decode_int_opt T it b = Ret o.
  Proof.
    intros Hl. unfold decode_int_opt. rewrite Hl, N.eqb_refl. destruct (bytes_data b); eauto.
  Qed.

  Lemma decode_int_in_bounds it (b : list AB) i :
    decode_int_opt T it b = Ret (Some i) -> in_bounds (it_signed it) (it_size it) i = true.
  Proof.
    intros Hd. pose proof (decode_int_opt_ret _ _ _ Hd) as Hl. unfold decode_int_opt in Hd.
    rewrite Hl, N.eqb_refl in Hd. destruct (bytes_data b) as [ds|] eqn:E; [|discriminate].
    inv. subst. apply bytes_data_length in E. rewrite <- Hl, <- E. apply endian_decode_in.
  Qed.

  Lemma encode_decode_int it (b : list AB) i :
    decode_int_opt T it b = Ret (Some i) ->
    exists b', encode_int T it i = Ret b' /\ bytes_le b' b.
  Proof.
    intros Hd. pose proof (decode_int_opt_ret _ _ _ Hd) as Hl. unfold decode_int_opt in Hd.
    rewrite Hl, N.eqb_refl in Hd. destruct (bytes_data b) as [ds|] eqn:E; [|discriminate].
    inv. subst. pose proof (bytes_data_length _ _ E) as Hds. unfold encode_int.
    rewrite <- Hl, <- Hds, endian_encode_decode. simpl. eexists. split; [done|].
    by apply init_le.
  Qed.

  Lemma decode_int_mono it (b1 b2 : list AB) i :
    bytes_le b1 b2 -> decode_int_opt T it b1 = Ret (Some i) -> decode_int_opt T it b2 = Ret (Some i).
  Proof.
    intros Hle Hd. unfold decode_int_opt in *. rewrite <- (bytes_le_length _ _ Hle).
    destruct (_ =? _)%N; [|done].
    destruct (bytes_data b1) as [ds|] eqn:E; [|discriminate].
    by rewrite (bytes_data_le _ _ _ Hle E).
  Qed.

  (** ** Thin pointers *)

  Lemma prov_fold_none idx (l : list AB) : prov_fold None idx l = None.
  Proof.
    revert idx. induction l as [|b l IH]; intros idx; simpl; [done|].
    destruct (ab_frag b) as [f|]; [|apply IH].
    destruct (_ && _); apply IH.
  Qed.

  (** The provenance survives exactly if every byte carries the right fragment. *)
  Lemma prov_fold_some p idx (l : list AB) q :
    prov_fold (Some p) idx l = Some q <->
    q = p /\ forall i b, l !! i = Some b -> ab_frag b = Some (mkFrag p (idx + Z.of_nat i)).
  Proof.
    revert idx. induction l as [|b l IH]; intros idx; simpl.
    - split; [intros [= ->]; split; [done|]; intros i b; rewrite lookup_nil; done|].
      intros [-> _]; done.
    - split.
      + destruct (ab_frag b) as [f|] eqn:Hf; [|by rewrite prov_fold_none].
        destruct (Z.eqb_spec (frag_pos f) idx) as [Hp|]; simpl; [|by rewrite prov_fold_none].
        case_bool_decide as Hpr; [|by rewrite prov_fold_none].
        intros [-> Hl]%IH. split; [done|]. intros [|i] b' Hb'; simpl in Hb'.
        * injection Hb' as <-. rewrite Hf. destruct f as [fp fi]; simpl in *.
          replace (idx + Z.of_nat 0) with fi by lia. congruence.
        * apply Hl in Hb'. rewrite Hb'. do 2 f_equal. lia.
      + intros [-> Hl]. pose proof (Hl 0%nat b eq_refl) as Hb. rewrite Hb; simpl.
        rewrite bool_decide_eq_true_2 by done.
        replace (idx + Z.of_nat 0 =? idx) with true by lia. cbn [andb]. apply IH. split; [done|].
        intros i b' Hb'. rewrite (Hl (S i) b' Hb'). do 2 f_equal. lia.
  Qed.

  Lemma encode_frags_length (pr : option P) idx ds : length (encode_frags pr idx ds) = length ds.
  Proof. revert idx; induction ds; intros; simpl; auto. Qed.

  Lemma encode_frags_lookup (pr : option P) idx ds i b :
    encode_frags pr idx ds !! i = Some b ->
    ab_frag b = option_map (fun p => mkFrag p (idx + Z.of_nat i)) pr.
  Proof.
    revert idx i. induction ds as [|d ds IH]; intros idx [|i]; simpl; try done.
    - intros [= <-]. simpl. by rewrite Z.add_0_r.
    - intros Hb. rewrite (IH _ _ Hb). destruct pr; simpl; [|done]. do 2 f_equal. lia.
  Qed.

  Lemma encode_ptr_total (p : ThinPtr P) :
    in_bounds Unsigned (PTR_SIZE T) (tp_addr p) = true ->
    exists b, encode_ptr T p = Ret b /\ N.of_nat (length b) = PTR_SIZE T.
  Proof.
    intros Hb. destruct (proj1 (endian_encode_some (ENDIANNESS T) _ _ _) Hb) as [l Hl].
    unfold encode_ptr. rewrite Hl. simpl. eexists. split; [done|].
    rewrite encode_frags_length. by eapply endian_encode_length.
  Qed.

  Lemma encode_ptr_length (p : ThinPtr P) b :
    encode_ptr T p = Ret b -> N.of_nat (length b) = PTR_SIZE T.
  Proof.
    unfold encode_ptr. intros E. inv. subst. rewrite encode_frags_length.
    by eapply endian_encode_length.
  Qed.

  Lemma decode_encode_ptr (p : ThinPtr P) b :
    PTR_SIZE T <> 0%N -> encode_ptr T p = Ret b -> decode_ptr T b = Ret (Some p).
  Proof.
    intros Hpos He. pose proof (encode_ptr_length _ _ He) as Hl. unfold encode_ptr in He. inv. subst.
    unfold decode_ptr. rewrite Hl, N.eqb_refl, bytes_data_frags.
    rewrite (endian_decode_encode _ _ _ _ _ H).
    destruct x as [|d ds]; [simpl in Hl; lia|].
    destruct (encode_frags (tp_prov p) 0 (d :: ds)) as [|b0 br] eqn:E; [discriminate|].
    rewrite <- E. simpl in E. injection E as <- _.
    destruct p as [a [pr|]]; simpl.
    - do 3 f_equal. destruct (prov_fold_some pr 0 (encode_frags (Some pr) 0 (d :: ds)) pr) as [_ Hf].
      apply Hf. split; [done|]. intros i b Hb. by rewrite (encode_frags_lookup _ _ _ _ _ Hb).
    - do 3 f_equal. apply prov_fold_none.
  Qed.

  Lemma decode_ptr_ret (b : list AB) o :
    decode_ptr T b = Ret o -> N.of_nat (length b) = PTR_SIZE T.
  Proof. unfold decode_ptr. destruct (N.eqb_spec (N.of_nat (length b)) (PTR_SIZE T)); done. Qed.

  Lemma decode_ptr_total (b : list AB) :
    PTR_SIZE T <> 0%N -> N.of_nat (length b) = PTR_SIZE T -> exists o, decode_ptr T b = Ret o.
  Proof.
    intros Hpos Hl. unfold decode_ptr. rewrite Hl, N.eqb_refl. destruct (bytes_data b); [|eauto].
    destruct b; [simpl in Hl; lia|]. eauto.
  Qed.

  Lemma decode_ptr_in_bounds (b : list AB) p :
    decode_ptr T b = Ret (Some p) -> in_bounds Unsigned (PTR_SIZE T) (tp_addr p) = true.
  Proof.
    intros Hd. pose proof (decode_ptr_ret _ _ Hd) as Hl. unfold decode_ptr in Hd.
    rewrite Hl, N.eqb_refl in Hd. destruct (bytes_data b) as [ds|] eqn:E; [|discriminate].
    destruct b as [|b0 br]; [discriminate|]. inv. subst. simpl.
    apply bytes_data_length in E. rewrite <- Hl, <- E. apply endian_decode_in.
  Qed.

  Lemma encode_frags_le (l : list AB) ds pr :
    bytes_data l = Some ds ->
    (forall p, pr = Some p -> forall i b, l !! i = Some b -> ab_frag b = Some (mkFrag p (0 + Z.of_nat i))) ->
    bytes_le (encode_frags pr 0 ds) l.
  Proof.
    intros Hd%bytes_data_some. generalize 0. revert ds Hd.
    induction l as [|b l IH]; intros [|d ds]; simpl; try done; [constructor|].
    intros [= Hb Hl] idx Hf. constructor.
    - destruct b as [|d' f]; simpl in Hb; [done|]. injection Hb as ->.
      destruct pr as [p|]; simpl; [|constructor].
      specialize (Hf p eq_refl 0%nat _ eq_refl). simpl in Hf. subst f. rewrite Z.add_0_r. constructor.
    - apply IH; [done|]. intros p Hp i b' Hb'. rewrite (Hf p Hp (S i) b' Hb').
      do 2 f_equal. lia.
  Qed.

  (** What provenance a decoded pointer has. *)
  Lemma decode_ptr_prov (b : list AB) p :
    decode_ptr T b = Ret (Some p) ->
    forall pr, tp_prov p = Some pr <->
      forall i x, b !! i = Some x -> ab_frag x = Some (mkFrag pr (Z.of_nat i)).
  Proof.
    unfold decode_ptr. destruct (_ =? _)%N; [|discriminate].
    destruct (bytes_data b) as [ds|]; [|discriminate].
    destruct b as [|b0 br]; [discriminate|].
    set (l := b0 :: br). intros Hd pr.
    assert (tp_prov p = prov_fold (option_map frag_prov (ab_frag b0)) 0 l) as -> by (by inv; subst p).
    clear Hd.
    split.
    - destruct (option_map frag_prov (ab_frag b0)) as [q|]; [|by rewrite prov_fold_none].
      rewrite prov_fold_some. intros [-> Hf]. intros i x Hx. by rewrite (Hf i x Hx).
    - intros Hf. pose proof (Hf 0%nat b0 eq_refl) as Hb0. rewrite Hb0. cbn [option_map frag_prov].
      apply prov_fold_some. split; [done|]. intros i x Hx. by rewrite (Hf i x Hx).
  Qed.

  Lemma decode_ptr_addr (b : list AB) p :
    decode_ptr T b = Ret (Some p) ->
    exists ds, bytes_data b = Some ds /\ tp_addr p = endian_decode (ENDIANNESS T) Unsigned ds.
  Proof.
    unfold decode_ptr. destruct (_ =? _)%N; [|discriminate].
    destruct (bytes_data b) as [ds|]; [|discriminate].
    destruct b as [|b0 br]; [discriminate|]. intros [= <-]. eauto.
  Qed.

  Lemma encode_decode_ptr (b : list AB) p :
    decode_ptr T b = Ret (Some p) ->
    exists b', encode_ptr T p = Ret b' /\ bytes_le b' b.
  Proof.
    intros Hd. pose proof (decode_ptr_ret _ _ Hd) as Hl.
    pose proof (decode_ptr_prov _ _ Hd) as Hpr.
    destruct (decode_ptr_addr _ _ Hd) as (ds & Hds & Ha).
    pose proof (bytes_data_length _ _ Hds) as Hlen. unfold encode_ptr.
    rewrite Ha, <- Hl, <- Hlen, endian_encode_decode. simpl. eexists. split; [done|].
    apply encode_frags_le; [done|]. intros q Hq i x Hx. by rewrite (proj1 (Hpr q) Hq i x Hx).
  Qed.

  Lemma byte_le_frag (a b : AB) f : byte_le a b -> ab_frag a = Some f -> ab_frag b = Some f.
  Proof. intros Hle Hf. destruct Hle; simpl in *; congruence. Qed.

  Lemma decode_ptr_mono (b1 b2 : list AB) p1 :
    bytes_le b1 b2 -> decode_ptr T b1 = Ret (Some p1) ->
    exists p2, decode_ptr T b2 = Ret (Some p2) /\ thin_less p1 p2.
  Proof.
    intros Hle Hd. pose proof (decode_ptr_ret _ _ Hd) as Hl.
    pose proof (decode_ptr_prov _ _ Hd) as Hpr.
    destruct (decode_ptr_addr _ _ Hd) as (ds & Hds & Ha).
    pose proof (bytes_data_le _ _ _ Hle Hds) as Hds2.
    assert (exists p2, decode_ptr T b2 = Ret (Some p2)) as [p2 Hp2].
    { unfold decode_ptr. rewrite <- (bytes_le_length _ _ Hle), Hl, N.eqb_refl, Hds2.
      destruct Hle; [|eauto]. unfold decode_ptr in Hd. simpl in Hd.
      destruct (PTR_SIZE T); done. }
    exists p2. split; [done|].
    destruct (decode_ptr_addr _ _ Hp2) as (ds' & Hds' & Ha').
    assert (ds' = ds) as -> by congruence. split; [congruence|].
    destruct (tp_prov p1) as [q|] eqn:E; [|constructor].
    assert (tp_prov p2 = Some q) as ->; [|constructor].
    apply (decode_ptr_prov _ _ Hp2). intros i x Hx.
    destruct (Forall2_lookup_r _ _ _ _ _ Hle Hx) as (y & Hy & Hyx).
    eapply byte_le_frag; [exact Hyx|]. by eapply Hpr.
  Qed.

  Lemma encode_frags_mono (p q : option P) idx ds :
    prov_le p q -> bytes_le (encode_frags p idx ds) (encode_frags q idx ds).
  Proof.
    intros Hle. revert idx. induction ds as [|d ds IH]; intros idx; simpl; constructor; [|apply IH].
    destruct Hle as [p|p]; simpl; [constructor|]. apply byte_le_refl.
  Qed.

  Lemma encode_ptr_mono (p q : ThinPtr P) bp bq :
    thin_less p q -> encode_ptr T p = Ret bp -> encode_ptr T q = Ret bq -> bytes_le bp bq.
  Proof.
    intros [Ha Hp] H1 H2. unfold encode_ptr in *. rewrite Ha in H1.
    destruct (endian_encode _ _ _ _); simpl in *; [|discriminate]. inv. subst.
    by apply encode_frags_mono.
  Qed.
End ReprProofs.
