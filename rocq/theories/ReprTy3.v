(** Encode after decode, monotonicity, leaves, the boolean definedness order, wide pairs. *)
From Verif Require Export ReprTy2.
From Coq Require Import ZifyBool ZifyN ZifyNat.

Section ReprTy3.
  Context {P : Type} `{EqDecision P}.
  Variable T : Target.

  Notation AB := (AByte P).
  Notation Val := (Value P).
  Notation wf ht := (ty_check_wf T ht).

  Lemma uninit_le (l : list AB) n :
    N.to_nat n = length l -> bytes_le (list_repeat Uninit n) l.
  Proof.
    intros Hl. unfold bytes_le. apply Forall2_same_length_lookup_2.
    - rewrite list_repeat_length. done.
    - intros i x y Hx _.
      assert (x = Uninit) as ->; [|constructor].
      unfold list_repeat in Hx. by apply lookup_replicate in Hx as [? _].
  Qed.

  Lemma concat_Forall2 {A B} (R : A -> B -> Prop) l k :
    Forall2 (Forall2 R) l k -> Forall2 R (concat l) (concat k).
  Proof. induction 1; simpl; [constructor|]. by apply Forall2_app. Qed.

  Lemma array_bytes_concat (bytes : list AB) s count cs :
    0 <= count -> Z.of_nat (length bytes) = Z.of_N s * count ->
    Forall2 (fun i c => subslice bytes (i * s) s = Ret c) (indices count) cs ->
    concat cs = bytes.
  Proof.
    intros Hc Hl HF. unfold indices in HF. rewrite (chunks_concat _ _ _ _ _ HF).
    rewrite Nat.mul_0_l, drop_0. apply take_ge. nia.
  Qed.

  (** ** Encode after decode (C03) *)

  Theorem encode_decode (Tok : target_ok T) ht ty (bytes : list AB) v :
    wf ht ty = Ret tt -> coherent T (P := P) ty -> decode T ty bytes = Ret (Some v) ->
    exists b, encode T ty v = Ret b /\ bytes_le b bytes.
  Proof.
    revert bytes v.
    induction ty as [it| |pt|fields head u IHf IHu|elem count IHe|elem IHe|fields chunks size align IHf
                    |variants dty discr size align IHv|tn] using Ty_ind'; intros bytes v Hwf Hco Hd.
    - cbn [decode] in Hd. unfold decode_int in Hd. apply obind_ret in Hd as (o & Ho & Hd).
      destruct o as [i|]; [|discriminate]. simpl in Hd. injection Hd as <-.
      cbn [encode]. by apply encode_decode_int.
    - cbn [decode] in Hd. unfold decode_bool in Hd.
      destruct bytes as [|[|[] f] [|]]; try discriminate; injection Hd as <-; simpl;
        eexists; (split; [done|]); repeat constructor.
    - cbn [decode] in Hd. pose proof (decode_pointer_shape T Tok _ _ _ Hd) as Hs.
      apply shape_ptr in Hs as (p & -> & _). cbn [encode]. by apply encode_decode_pointer.
    - destruct u as [u|]; [discriminate|]. pose proof Hwf as (Hfs & _)%wf_tuple.
      inversion Hco as [| | |? ? ? Hcof _| | | | |]; subst.
      pose proof (decode_shape T Tok ht _ _ _ Hwf Hd) as Hsh.
      destruct (encode_total T Tok ht _ _ Hwf Hsh) as (b & Hb & _). exists b. split; [done|].
      apply decode_tuple_some in Hd as (Hl & vs & -> & HF).
      apply encode_tuple_ret in Hb as (vs' & es & [= <-] & Hlv & Hes & Hw).
      eapply write_all_below; [| |exact Hw].
      { apply uninit_le. lia. }
      apply Forall_lookup. intros i [o e] Hi. apply zip_lookup in Hi as [Ho He].
      rewrite list_lookup_fmap in Ho. destruct (fields !! i) as [f|] eqn:Hf; [|discriminate].
      injection Ho as <-. simpl.
      destruct (Forall2_lookup_r _ _ _ _ _ Hes He) as ([f' v] & Hz & Henc).
      apply zip_lookup in Hz as [Hf' Hv]. simpl in Henc. assert (f' = f) as -> by congruence.
      destruct (Forall2_lookup_lr _ _ _ _ _ _ HF Hf Hv) as (s & sub & Hs & Hsub & Hd).
      rewrite Forall_lookup in IHf, Hfs, Hcof.
      destruct (IHf i f Hf sub v) as (e' & He' & Hle); auto.
      { apply (Hfs i f Hf). }
      { apply (Hcof i f Hf). }
      assert (e' = e) as -> by congruence. exists sub. split; [|done].
      rewrite <- Hsub. f_equal. rewrite (bytes_le_length _ _ Hle).
      by eapply subslice_length.
    - pose proof Hwf as (Hc & Hwe & Hse & _ & Htot)%wf_array.
      inversion Hco as [| | | |? ? Hcoe| | | |]; subst.
      apply decode_array_some in Hd as (s & vs & Hs & Hl & -> & HF); [|done].
      assert (exists cs, Forall2 (fun i c => subslice bytes (i * s) s = Ret c) (indices count) cs /\
        Forall2 (fun v c => decode T elem c = Ret (Some v)) vs cs) as (cs & H1 & H2).
      { clear -HF. induction HF as [|i v is vs (sub & Hsub & Hd) HF (cs & H1 & H2)].
        - exists []. split; constructor.
        - exists (sub :: cs). split; constructor; auto. }
      assert (exists parts, Forall2 (fun v b => encode T elem v = Ret b) vs parts /\
        Forall2 bytes_le parts cs) as (parts & H3 & H4).
      { clear HF H1. induction H2 as [|v c vs cs Hvc H2 (ps & H3 & H4)].
        - exists []. split; constructor.
        - destruct (IHe c v Hwe Hcoe Hvc) as (b & Hb & Hle). exists (b :: ps).
          split; constructor; auto. }
      exists (concat parts). split.
      + apply encode_array_ret. exists vs, parts. split; [done|].
        pose proof (Forall2_length _ _ _ HF) as Hlen. unfold indices in Hlen.
        rewrite map_length, seq_length in Hlen. split; [lia|]. split; [|done].
        apply Forall2_same_length_lookup_2; [by eapply Forall2_length|].
        intros i v b Hv Hb. split; [exact (Forall2_lookup_lr _ _ _ _ _ _ H3 Hv Hb)|].
        exists s. split; [done|].
        destruct (Forall2_lookup_l _ _ _ _ _ H4 Hb) as (c & Hci & Hle).
        destruct (Forall2_lookup_r _ _ _ _ _ H1 Hci) as (k & _ & Hk).
        rewrite (bytes_le_length _ _ Hle). by eapply subslice_length.
      + rewrite <- (array_bytes_concat bytes s count cs) by done. by apply concat_Forall2.
    - discriminate.
    - apply decode_union_some in Hd as (Hl & data & -> & HF).
      pose proof Hwf as (_ & Hfit & _)%wf_union.
      assert (Forall2 (fun c d => N.of_nat (length d) = snd c) chunks data) as Hdl.
      { eapply Forall2_impl; [exact HF|]. simpl. intros c d Hd. by eapply subslice_length. }
      destruct (encode_total T Tok ht _ _ Hwf (sh_union T fields chunks size align data Hdl))
        as (b & Hb & _).
      exists b. split; [done|]. apply encode_union_ret in Hb as (data' & [= <-] & _ & Hw).
      eapply write_all_below; [| |exact Hw].
      { apply uninit_le. lia. }
      apply Forall_lookup. intros i [o e] Hi. apply zip_lookup in Hi as [Ho He].
      rewrite list_lookup_fmap in Ho. destruct (chunks !! i) as [c|] eqn:Hf; [|discriminate].
      injection Ho as <-. simpl. pose proof (Forall2_lookup_lr _ _ _ _ _ _ HF Hf He) as Hs.
      simpl in Hs. exists e. split; [|apply bytes_le_refl].
      by rewrite (subslice_length _ _ _ _ Hs).
    - pose proof Hwf as (Hvs & _)%wf_enum.
      inversion Hco as [| | | | | | |? ? ? ? ? Hcov _ _ Himp|]; subst.
      pose proof (decode_shape T Tok ht _ _ _ Hwf Hd) as Hsh.
      destruct (encode_total T Tok ht _ _ Hwf Hsh) as (b & Hb & _). exists b. split; [done|].
      apply decode_enum_some in Hd as (Hl & d & t & tg & w & -> & Hdd & E & Hd).
      apply encode_enum_ret in Hb as (d' & w' & t' & tg' & enc & [= <- <-] & E' & Henc & He).
      rewrite E in E'. injection E' as <- <-.
      pose proof (map_get_in _ _ _ E) as Hin.
      pose proof (in_fields_Forall _ _ _ IHv Hin) as IH.
      pose proof (in_fields_Forall _ _ _ Hcov Hin) as Hcot.
      pose proof (in_fields_Forall _ _ _ Hvs Hin) as (_ & Hwt & _).
      simpl in IH, Hwt, Hcot. destruct (IH bytes w Hwt Hcot Hd) as (enc' & Henc' & Hle).
      assert (enc' = enc) as -> by congruence.
      apply encode_discr_parts in He as (es & Hes & Hwr).
      eapply write_all_below; [exact Hle| |exact Hwr].
      apply Forall_lookup. intros i [o e] Hi. apply zip_lookup in Hi as [Ho He].
      rewrite list_lookup_fmap in Ho. destruct (tg !! i) as [[o' [it val]]|] eqn:Htg; [|discriminate].
      simpl in Ho. injection Ho as ->. simpl.
      pose proof (Forall2_lookup_lr _ _ _ _ _ _ Hes Htg He) as Hie. simpl in Hie.
      destruct (Himp bytes d Hl Hdd t tg E o it val) as (sub & Hsub & Hdec).
      { apply elem_of_list_In. by eapply elem_of_list_lookup_2. }
      apply encode_decode_int in Hdec as (e' & He' & Hle').
      assert (e' = e) as -> by congruence. exists sub. split; [|done].
      by rewrite (encode_int_length _ _ _ _ Hie).
    - discriminate.
  Qed.

  (** ** Monotonicity (C04, C05) *)

  Lemma decode_mono_some ht ty (b1 b2 : list AB) v1 :
    target_ok T -> wf ht ty = Ret tt -> bytes_le b1 b2 -> decode T ty b1 = Ret (Some v1) ->
    exists v2, decode T ty b2 = Ret (Some v2) /\ value_le v1 v2.
  Proof.
    intros Tok. revert b1 b2 v1.
    induction ty as [it| |pt|fields head u IHf IHu|elem count IHe|elem IHe|fields chunks size align IHf
                    |variants dty discr size align IHv|tn] using Ty_ind'; intros b1 b2 v1 Hwf Hle Hd.
    - cbn [decode] in *. unfold decode_int in *. apply obind_ret in Hd as (o & Ho & Hd).
      destruct o as [i|]; [|discriminate]. simpl in Hd. injection Hd as <-.
      rewrite (decode_int_mono _ _ _ _ _ Hle Ho). simpl. eexists. split; [done|]. constructor.
    - cbn [decode] in *. unfold decode_bool in Hd.
      destruct b1 as [|[|[] f] [|]]; try discriminate; injection Hd as <-;
        inversion Hle as [|? ? ? ? Hb Hle']; subst; inversion Hle'; subst; inversion Hb; subst;
        eexists; (split; [done|]); constructor.
    - cbn [decode] in *. by eapply decode_pointer_mono.
    - destruct u as [u|]; [discriminate|]. pose proof Hwf as (Hfs & _)%wf_tuple.
      apply decode_tuple_some in Hd as (Hl & vs & -> & HF).
      assert (exists ws, Forall2 (fun f v => exists s sub, size_of T (snd f) = Ret s /\
                 subslice b2 (fst f) s = Ret sub /\
                 decode T (snd f) sub = Ret (Some v)) fields ws /\ Forall2 value_le vs ws)
        as (ws & H1 & H2).
      { clear Hwf IHu. induction HF as [|f v fs vs (s & sub & Hs & Hsub & Hd) HF IH].
        - exists []. split; constructor.
        - inversion IHf as [|? ? IHf1 IHf2]; inversion Hfs as [|? ? (Hw & _) Hfs2]; subst.
          destruct (IH IHf2 Hfs2) as (ws & H1 & H2).
          destruct (bytes_le_subslice _ _ _ _ _ Hle Hsub) as (sub2 & Hsub2 & Hle2).
          destruct (IHf1 sub sub2 v Hw Hle2 Hd) as (w & Hw2 & Hvw).
          exists (w :: ws). split; constructor; eauto 10. }
      exists (VTuple ws). split; [|by constructor].
      apply decode_tuple_some. rewrite <- (bytes_le_length _ _ Hle). split; [done|]. eauto.
    - pose proof Hwf as (Hc & Hwe & _)%wf_array.
      apply decode_array_some in Hd as (s & vs & Hs & Hl & -> & HF); [|done].
      assert (exists ws, Forall2 (fun i v => exists sub, subslice b2 (i * s) s = Ret sub /\
                 decode T elem sub = Ret (Some v)) (indices count) ws /\ Forall2 value_le vs ws)
        as (ws & H1 & H2).
      { clear Hl. induction HF as [|i v is vs (sub & Hsub & Hd) HF (ws & H1 & H2)].
        - exists []. split; constructor.
        - destruct (bytes_le_subslice _ _ _ _ _ Hle Hsub) as (sub2 & Hsub2 & Hle2).
          destruct (IHe sub sub2 v Hwe Hle2 Hd) as (w & Hw2 & Hvw).
          exists (w :: ws). split; constructor; eauto. }
      exists (VTuple ws). split; [|by constructor].
      apply decode_array_some; [done|]. exists s, ws. rewrite <- (bytes_le_length _ _ Hle). done.
    - discriminate.
    - apply decode_union_some in Hd as (Hl & data & -> & HF).
      assert (exists data2, Forall2 (fun c d => subslice b2 (fst c) (snd c) = Ret d) chunks data2 /\
        Forall2 bytes_le data data2) as (data2 & H1 & H2).
      { clear Hwf. induction HF as [|c d cs ds Hcd HF (ds2 & H1 & H2)].
        - exists []. split; constructor.
        - destruct (bytes_le_subslice _ _ _ _ _ Hle Hcd) as (d2 & Hd2 & Hle2).
          exists (d2 :: ds2). split; constructor; auto. }
      exists (VUnion data2). split; [|by constructor].
      apply decode_union_some. rewrite <- (bytes_le_length _ _ Hle). eauto.
    - pose proof Hwf as (Hvs & _)%wf_enum.
      apply decode_enum_some in Hd as (Hl & d & t & tg & w & -> & Hdd & E & Hd).
      pose proof (map_get_in _ _ _ E) as Hin.
      pose proof (in_fields_Forall _ _ _ IHv Hin) as IH.
      pose proof (in_fields_Forall _ _ _ Hvs Hin) as (_ & Hwt & _). simpl in IH, Hwt.
      destruct (IH b1 b2 w Hwt Hle Hd) as (w2 & Hw2 & Hww).
      exists (VVariant d w2). split; [|by constructor].
      apply decode_enum_some. rewrite <- (bytes_le_length _ _ Hle). split; [done|].
      exists d, t, tg, w2. split; [done|]. split; [by eapply decode_discr_mono|]. done.
    - discriminate.
  Qed.

  Theorem decode_mono (Tok : target_ok T) ht ty (b1 b2 : list AB) :
    wf ht ty = Ret tt -> sized T ty -> N.of_nat (length b1) = tsize T ty -> bytes_le b1 b2 ->
    exists o1 o2, decode T ty b1 = Ret o1 /\ decode T ty b2 = Ret o2 /\ optval_le o1 o2.
  Proof.
    intros Hwf Hsz Hl Hle.
    destruct (decode_total T Tok ht ty b1 Hwf Hsz Hl) as [o1 H1].
    destruct (decode_total T Tok ht ty b2 Hwf Hsz) as [o2 H2].
    { by rewrite <- (bytes_le_length _ _ Hle). }
    exists o1, o2. split; [done|]. split; [done|]. destruct o1 as [v1|]; [|constructor].
    destruct (decode_mono_some ht ty b1 b2 v1 Tok Hwf Hle H1) as (v2 & Hv2 & Hvv).
    assert (o2 = Some v2) as -> by congruence. by constructor.
  Qed.

  Theorem encode_mono (Tok : target_ok T) ty (v1 v2 : Val) b1 b2 :
    value_le v1 v2 -> encode T ty v1 = Ret b1 -> encode T ty v2 = Ret b2 -> bytes_le b1 b2.
  Proof.
    revert v1 v2 b1 b2.
    induction ty as [it| |pt|fields head u IHf IHu|elem count IHe|elem IHe|fields chunks size align IHf
                    |variants dty discr size align IHv|tn] using Ty_ind'; intros v1 v2 b1 b2 Hle H1 H2.
    - cbn [encode] in *. destruct v1, v2; try discriminate. inversion Hle; subst.
      assert (b1 = b2) as -> by congruence. apply bytes_le_refl.
    - cbn [encode] in *. destruct v1, v2; try discriminate. inversion Hle; subst.
      assert (b1 = b2) as -> by congruence. apply bytes_le_refl.
    - cbn [encode] in *. destruct v1, v2; try discriminate. inversion Hle; subst.
      by eapply encode_pointer_mono.
    - destruct u as [u|]; [discriminate|].
      apply encode_tuple_ret in H1 as (vs & es1 & -> & Hl1 & He1 & Hw1).
      apply encode_tuple_ret in H2 as (ws & es2 & -> & Hl2 & He2 & Hw2).
      inversion Hle as [| | |? ? HF| |]; subst.
      eapply (write_all_rel byte_le); [apply bytes_le_refl| |exact Hw1|exact Hw2].
      pose proof (Forall2_length _ _ _ He1) as L1. pose proof (Forall2_length _ _ _ He2) as L2.
      rewrite zip_with_length in L1, L2.
      apply Forall2_same_length_lookup_2.
      { rewrite !zip_with_length, !map_length. lia. }
      intros i [o1 e1] [o2 e2] Hi1 Hi2. apply zip_lookup in Hi1 as [Ho1 Hi1], Hi2 as [Ho2 Hi2].
      simpl. split; [congruence|].
      destruct (Forall2_lookup_r _ _ _ _ _ He1 Hi1) as ([f1 v] & Hz1 & Henc1).
      destruct (Forall2_lookup_r _ _ _ _ _ He2 Hi2) as ([f2 w] & Hz2 & Henc2).
      apply zip_lookup in Hz1 as [Hf1 Hv], Hz2 as [Hf2 Hw]. assert (f2 = f1) as -> by congruence.
      rewrite Forall_lookup in IHf. apply (IHf i f1 Hf1 v w); auto.
      exact (Forall2_lookup_lr _ _ _ _ _ _ HF Hv Hw).
    - apply encode_array_ret in H1 as (vs & p1 & -> & Hl1 & He1 & ->).
      apply encode_array_ret in H2 as (ws & p2 & -> & Hl2 & He2 & ->).
      inversion Hle as [| | |? ? HF| |]; subst. apply concat_Forall2.
      pose proof (Forall2_length _ _ _ He1) as L1. pose proof (Forall2_length _ _ _ He2) as L2.
      apply Forall2_same_length_lookup_2; [lia|]. intros i x y Hx Hy.
      destruct (Forall2_lookup_r _ _ _ _ _ He1 Hx) as (v & Hv & Henc1 & _).
      destruct (Forall2_lookup_r _ _ _ _ _ He2 Hy) as (w & Hw & Henc2 & _).
      apply (IHe v w); auto. exact (Forall2_lookup_lr _ _ _ _ _ _ HF Hv Hw).
    - discriminate.
    - apply encode_union_ret in H1 as (d1 & -> & Hl1 & Hw1).
      apply encode_union_ret in H2 as (d2 & -> & Hl2 & Hw2).
      inversion Hle as [| | | | |? ? HF]; subst.
      eapply (write_all_rel byte_le); [apply bytes_le_refl| |exact Hw1|exact Hw2].
      pose proof (Forall2_length _ _ _ Hl1) as L1. pose proof (Forall2_length _ _ _ Hl2) as L2.
      apply Forall2_same_length_lookup_2.
      { rewrite !zip_with_length, !map_length. lia. }
      intros i [o1 e1] [o2 e2] Hi1 Hi2. apply zip_lookup in Hi1 as [Ho1 Hi1], Hi2 as [Ho2 Hi2].
      simpl. split; [congruence|]. exact (Forall2_lookup_lr _ _ _ _ _ _ HF Hi1 Hi2).
    - apply encode_enum_ret in H1 as (d & w1 & t & tg & enc1 & -> & E1 & Henc1 & Ht1).
      apply encode_enum_ret in H2 as (d' & w2 & t' & tg' & enc2 & -> & E2 & Henc2 & Ht2).
      inversion Hle as [| | | |? ? ? Hww|]; subst. rewrite E1 in E2. injection E2 as <- <-.
      pose proof (map_get_in _ _ _ E1) as Hin. pose proof (in_fields_Forall _ _ _ IHv Hin) as IH.
      simpl in IH. apply encode_discr_parts in Ht1 as (es1 & Hes1 & Hw1), Ht2 as (es2 & Hes2 & Hw2).
      assert (es2 = es1) as ->.
      { clear -Hes1 Hes2. revert es2 Hes2.
        induction Hes1 as [|e b tg es1 Heb Hes1 IH]; intros es2 Hes2; inversion Hes2; subst; [done|].
        f_equal; [congruence|auto]. }
      eapply (write_all_rel byte_le); [by eapply IH| |exact Hw1|exact Hw2].
      apply Forall_Forall2_diag. apply Forall_true. intros p. split; [done|]. apply bytes_le_refl.
    - discriminate.
  Qed.

  (** ** check_value is shape plus checks of the pointers at the leaves (C08) *)

  Theorem check_value_leaves env ty (v : Val) :
    check_value T env ty v = Ret tt <->
    shape T ty v /\ forall pt p, leaf ty v pt p -> check_ptr T env p pt = Ret tt.
  Proof.
    split.
    - intros Hc. split; [by eapply check_value_shape|].
      intros pt p Hlf. revert Hc. induction Hlf as [|fields head vals i o t v pt p Hf Hv Hlf IH
        |elem count vals i v pt p Hv Hlf IH|variants dty discr size align d ty tg v pt p E Hlf IH].
      + done.
      + intros Hc. apply check_tuple_ret in Hc as (_ & vs & [= <-] & HF). apply IH.
        exact (Forall2_lookup_lr _ _ _ _ _ _ HF Hf Hv).
      + intros Hc. apply check_array_ret in Hc as (vs & [= <-] & _ & HF). apply IH.
        rewrite Forall_lookup in HF. eauto.
      + intros Hc. apply check_enum_ret in Hc as (d' & w & t & tg' & [= <- <-] & E' & Hw).
        rewrite E in E'. injection E' as <- <-. auto.
    - intros [Hs Hlf]. revert v Hs Hlf.
      induction ty as [it| |pt|fields head u IHf IHu|elem count IHe|elem IHe|fields chunks size align IHf
                      |variants dty discr size align IHv|tn] using Ty_ind'; intros v Hs Hlf.
      + apply shape_int in Hs as (i & -> & Hi). cbn [check_value]. unfold can_represent. by rewrite Hi.
      + apply shape_bool in Hs as (b & ->). done.
      + apply shape_ptr in Hs as (p & -> & _). cbn [check_value]. apply Hlf. constructor.
      + apply shape_tuple in Hs as (-> & vs & -> & HF). apply check_tuple_ret. split; [done|].
        exists vs. split; [done|].
        apply Forall2_same_length_lookup_2; [by eapply Forall2_length|].
        intros i [o t] v Hf Hv. rewrite Forall_lookup in IHf. apply (IHf i _ Hf).
        * exact (Forall2_lookup_lr _ _ _ _ _ _ HF Hf Hv).
        * intros pt p Hp. apply Hlf. by eapply lf_tuple.
      + apply shape_array in Hs as (vs & -> & Hl & HF). apply check_array_ret.
        exists vs. split; [done|]. split; [done|]. rewrite Forall_lookup in HF |- *.
        intros i v Hv. apply IHe; [eauto|]. intros pt p Hp. apply Hlf. by eapply lf_array.
      + inversion Hs.
      + apply shape_union in Hs as (data & -> & HF). apply check_union_ret. eauto.
      + apply shape_enum in Hs as (d & w & t & tg & -> & E & Hw). apply check_enum_ret.
        exists d, w, t, tg. split; [done|]. split; [done|]. apply map_get_in in E as Hin.
        pose proof (in_fields_Forall _ _ _ IHv Hin) as IH. simpl in IH. apply IH; [done|].
        intros pt p Hp. apply Hlf. by eapply lf_enum.
      + inversion Hs.
  Qed.

  (** ** The boolean order of the code is the relation of the specification *)

  Lemma ab_le_spec (a b : AB) : ab_le a b = true <-> byte_le a b.
  Proof.
    destruct a as [|d1 [p1|]], b as [|d2 [p2|]]; simpl; split; intros H;
      try discriminate; try constructor; try (by inversion H).
    - apply andb_true_iff in H as [H1 H2]. apply Byte.byte_dec_bl in H1.
      apply bool_decide_eq_true in H2. subst. constructor.
    - inversion H; subst. apply andb_true_iff. split; [by apply Byte.byte_dec_lb|].
      by apply bool_decide_eq_true.
    - apply Byte.byte_dec_bl in H. subst. constructor.
    - inversion H; subst. by apply Byte.byte_dec_lb.
    - apply Byte.byte_dec_bl in H. subst. constructor.
    - inversion H; subst; by apply Byte.byte_dec_lb.
  Qed.

  Lemma bytes_le_spec (a b : list AB) : list_le ab_le a b = true <-> bytes_le a b.
  Proof.
    unfold list_le. rewrite forall2b_Forall2. unfold bytes_le.
    split; intros H; (eapply Forall2_impl; [exact H|]); intros x y; apply ab_le_spec.
  Qed.

  Lemma thin_le_spec (a b : ThinPtr P) : thin_le a b = true <-> thin_less a b.
  Proof.
    unfold thin_le, thin_less. rewrite andb_true_iff, Z.eqb_eq.
    destruct (tp_prov a) as [p1|], (tp_prov b) as [p2|]; split; intros [H1 H2]; split; auto;
      try discriminate; try constructor; try (by inversion H2).
    - apply bool_decide_eq_true in H2 as ->. constructor.
    - inversion H2; subst. by apply bool_decide_eq_true.
  Qed.

  Lemma meta_le_spec (a b : option (PtrMeta P)) : opt_le meta_le a b = true <-> meta_less a b.
  Proof.
    destruct a as [[c1|p1]|], b as [[c2|p2]|]; simpl; split; intros H;
      try discriminate; try constructor; try (by inversion H).
    - apply bool_decide_eq_true in H. injection H as ->. constructor.
    - inversion H; subst. by apply bool_decide_eq_true.
    - by apply thin_le_spec.
    - inversion H; subst. by apply thin_le_spec.
  Qed.

  Theorem val_le_spec (a b : Val) : val_le a b = true <-> value_le a b.
  Proof.
    revert b. induction a as [i|b0|p|vs IH|d v IH|cs] using Value_ind'; intros [i2|b2|p2|ws|d2 w|cs2];
      cbn [val_le]; split; intros H; try discriminate; try (by inversion H).
    - apply Z.eqb_eq in H as ->. constructor.
    - inversion H; subst. apply Z.eqb_refl.
    - apply Bool.eqb_prop in H as ->. constructor.
    - inversion H; subst. apply Bool.eqb_reflx.
    - unfold ptr_le in H. apply andb_true_iff in H as [H1 H2]. constructor.
      + by apply thin_le_spec.
      + by apply meta_le_spec.
    - inversion H; subst. unfold ptr_le. apply andb_true_iff. split.
      + by apply thin_le_spec.
      + by apply meta_le_spec.
    - constructor. unfold list_le in H. apply forall2b_Forall2 in H.
      apply Forall2_same_length_lookup_2; [by eapply Forall2_length|]. intros k x y Hx Hy.
      rewrite Forall_lookup in IH. apply (IH k x Hx). exact (Forall2_lookup_lr _ _ _ _ _ _ H Hx Hy).
    - inversion H as [| | |? ? HF| |]; subst. unfold list_le. apply forall2b_Forall2.
      apply Forall2_same_length_lookup_2; [by eapply Forall2_length|]. intros k x y Hx Hy.
      rewrite Forall_lookup in IH. apply (IH k x Hx). exact (Forall2_lookup_lr _ _ _ _ _ _ HF Hx Hy).
    - apply andb_true_iff in H as [H1 H2]. apply Z.eqb_eq in H1 as ->. constructor. by apply IH.
    - inversion H; subst. apply andb_true_iff. split; [apply Z.eqb_refl|]. by apply IH.
    - constructor. unfold list_le in H. apply forall2b_Forall2 in H.
      eapply Forall2_impl; [exact H|]. intros x y. apply bytes_le_spec.
    - inversion H as [| | | | |? ? HF]; subst. unfold list_le. apply forall2b_Forall2.
      eapply Forall2_impl; [exact HF|]. intros x y. apply bytes_le_spec.
  Qed.

  (** ** The wide pair of the model is the recursive call of the source *)

  Lemma decode_ptr_as_wide_pair (Tok : target_ok T) pt (bytes : list AB) :
    wide pt = true ->
    decode T (TPtr pt) bytes =
    let! o := decode T (wide_pair_ty T pt) bytes in
    match o with
    | None => Ret None
    | Some (VTuple [VPtr p; mv]) =>
        let! m := meta_decode_value (ptr_meta_kind pt) mv in
        match m with None => Panic | Some m => Ret (Some (VPtr (widen (p_thin p) (Some m)))) end
    | Some _ => Panic
    end.
  Proof.
    intros Hw. cbn [decode wide_pair_ty]. rewrite (decode_pointer_eq T Tok), Hw.
    rewrite (wide_size T Tok). destruct (_ =? _)%N; [|done].
    cbn [try_map fst snd].
    rewrite (sized_tsize T _ (ptr_sized T _)). rewrite (ptr_tsize T). cbn [wide ptr_meta_kind obind].
    destruct (subslice bytes 0 (PTR_SIZE T)) as [s1| | |]; cbn [obind]; try done.
    cbn [decode]. rewrite (decode_pointer_eq T Tok). cbn [wide ptr_meta_kind].
    destruct (decode_ptr T s1) as [[p|]| | |]; cbn [obind option_map]; try done.
    unfold wide in Hw. destruct (ptr_meta_kind pt) as [| |tn] eqn:Ek; [discriminate| |].
    - cbn [meta_kind_ty]. unfold size_of. rewrite (usize_layout T Tok). cbn [obind expect_size].
      destruct (subslice bytes (PTR_SIZE T) (PTR_SIZE T)) as [s2| | |]; cbn [obind]; try done.
      cbn [decode decode_meta_m]. unfold decode_int.
      destruct (decode_int_opt T (usize_ty T) s2) as [[c|]| | |]; done.
    - cbn [meta_kind_ty]. rewrite (sized_tsize T _ (ptr_sized T _)), (ptr_tsize T).
      cbn [wide ptr_meta_kind obind].
      destruct (subslice bytes (PTR_SIZE T) (PTR_SIZE T)) as [s2| | |]; cbn [obind]; try done.
      cbn [decode decode_meta_m]. rewrite (decode_pointer_eq T Tok). cbn [wide ptr_meta_kind].
      destruct (decode_ptr T s2) as [[q|]| | |]; done.
  Qed.

  Lemma encode_ptr_as_wide_pair (Tok : target_ok T) pt (p : Pointer P) mv :
    wide pt = true -> meta_encode_as_value (ptr_meta_kind pt) (p_meta p) = Ret mv ->
    encode T (TPtr pt) (VPtr p) =
    encode T (wide_pair_ty T pt) (VTuple [VPtr (widen (p_thin p) None); mv]).
  Proof.
    intros Hw Hm. cbn [encode wide_pair_ty]. unfold encode_pointer at 1.
    rewrite (as_wide_pair_ok T Tok), Hw. cbn [obind]. rewrite Hm. cbn [obind].
    rewrite (wide_size T Tok). cbn [length Nat.eqb assert_ obind fold_m2 fst snd encode].
    rewrite (encode_pointer_eq T Tok (PRaw MKNone)). cbn [wide ptr_meta_kind p_meta widen p_thin].
    destruct (encode_ptr T (p_thin p)) as [b1| | |]; cbn [obind]; try done.
    destruct (write_subslice _ 0 b1) as [b| | |]; cbn [obind]; try done.
    unfold wide in Hw. destruct (ptr_meta_kind pt) as [| |tn] eqn:Ek; [discriminate| |].
    - destruct (p_meta p) as [[c|q]|]; try discriminate. injection Hm as <-.
      cbn [meta_kind_ty encode encode_meta]. by destruct (encode_int T _ _); cbn [obind];
        try destruct (write_subslice _ _ _).
    - destruct (p_meta p) as [[c|q]|]; try discriminate. injection Hm as <-.
      cbn [meta_kind_ty encode encode_meta]. rewrite (encode_pointer_eq T Tok).
      cbn [wide ptr_meta_kind p_meta widen p_thin].
      by destruct (encode_ptr T q); cbn [obind]; try destruct (write_subslice _ _ _).
  Qed.

  (** ** Transmute (C10) *)

  Theorem transmute_spec (Tok : target_ok T) ht env (v : Val) t1 t2 :
    wf ht t1 = Ret tt -> wf ht t2 = Ret tt -> sized T t1 -> sized T t2 -> tsize T t1 = tsize T t2 ->
    check_value T env t1 v = Ret tt ->
    exists bytes, encode T t1 v = Ret bytes /\
      exists o, decode T t2 bytes = Ret o /\
      transmute T env v t1 t2 =
        match o with
        | Some w => let! _ := check_value T env t2 w in Ret w
        | None => throw_ub "transmuted value is not valid at new type"
        end.
  Proof.
    intros Hw1 Hw2 Hs1 Hs2 Heq Hc.
    destruct (encode_total T Tok ht t1 v Hw1 (check_value_shape T _ _ _ Hc)) as (b & Hb & Hl).
    destruct (decode_total T Tok ht t2 b Hw2 Hs2) as [o Ho]; [congruence|].
    exists b. split; [done|]. exists o. split; [done|].
    unfold transmute. rewrite (sized_tsize T _ Hs1), (sized_tsize T _ Hs2). cbn [obind].
    rewrite Heq, N.eqb_refl. cbn [assert_ obind]. rewrite Hb. cbn [obind]. by rewrite Ho.
  Qed.
End ReprTy3.
