(** Enums as minimize translates them are coherent. *)
From Verif Require Export Enums ReprTy3.
From Coq Require Import ZifyBool ZifyN ZifyNat.

Lemma in_range_single v z : in_range z (v, v + 1) = true <-> z = v.
Proof. unfold in_range. simpl. lia. Qed.

Lemma map_get_cons {K V} `{EqDecision K} (m : list (K * V)) k v k' :
  map_get ((k, v) :: m) k' = if bool_decide (k = k') then Some v else map_get m k'.
Proof. unfold map_get. simpl. by destruct (bool_decide (k = k')). Qed.

Lemma map_get_map {K V W} `{EqDecision K} (f : K -> V -> W) (m : list (K * V)) k :
  map_get (List.map (fun e => (fst e, f (fst e) (snd e))) m) k = option_map (f k) (map_get m k).
Proof.
  induction m as [|[k' v] m IH]; [done|]. cbn [List.map fst snd]. rewrite !map_get_cons.
  case_bool_decide; [by subst|done].
Qed.

Lemma map_get_nodup {K V} `{EqDecision K} (m : list (K * V)) k v :
  NoDup (List.map fst m) -> In (k, v) m -> map_get m k = Some v.
Proof.
  induction m as [|[k' v'] m IH]; simpl; [done|]. intros Hnd. apply NoDup_cons in Hnd as [Hn Hnd].
  rewrite map_get_cons. intros [[= -> ->]|Hin].
  - by rewrite bool_decide_eq_true_2.
  - rewrite bool_decide_eq_false_2; [auto|]. intros ->. apply Hn.
    apply elem_of_list_In, List.in_map_iff. by exists (k, v).
Qed.

(** a list of singleton branches with distinct keys *)
Lemma find_child_singles (tag : Z -> Z) (vs : list (Z * Ty)) rest d t :
  (forall x y, In x (List.map fst vs) -> In y (List.map fst vs) -> tag x = tag y -> x = y) ->
  In (d, t) vs ->
  find_child id (tag d)
    (List.map (fun v => ((tag (fst v), tag (fst v) + 1), DKnown (fst v))) vs ++ rest) = Some (DKnown d).
Proof.
  intros Hinj Hin. induction vs as [|[d' t'] vs IH]; [done|]. cbn [List.map app find_child fst snd].
  destruct (in_range (tag d) (tag d', tag d' + 1)) eqn:E.
  - apply in_range_single in E. unfold id. do 2 f_equal. symmetry. apply Hinj; [|by left|done].
    apply List.in_map_iff. by exists (d, t).
  - apply IH.
    + intros x y Hx Hy. apply Hinj; by right.
    + destruct Hin as [[= -> ->]|]; [|done]. exfalso.
      assert (in_range (tag d) (tag d, tag d + 1) = true) by by apply in_range_single. congruence.
Qed.

Section Enums.
  Context {P : Type} `{EqDecision P}.
  Variable T : Target.

  Notation AB := (AByte P).
  Notation Val := (Value P).
  Notation wf ht := (ty_check_wf T ht).

  (** A discriminator that branches once. *)
  Lemma coherent_branch ht variants dty off it fb ch size align :
    wf ht (TEnum variants dty (DBranch off it fb ch) size align) = Ret tt ->
    Forall (fun v => coherent T (P := P) (fst (snd v))) variants ->
    (forall d t tg, map_get variants d = Some (t, tg) ->
       (exists val, tg = [(off, (it, val))] /\ find_child id val ch = Some (DKnown d) /\
          forall i, (off <= i < off + it_size it)%N -> ~ uses T t i) \/
       (tg = [] /\ fb = DKnown d /\
          forall env (v : Val) enc, check_value T env t v = Ret tt -> encode T t v = Ret enc ->
          exists sub val, subslice enc off (it_size it) = Ret sub /\
            decode_int_opt T it sub = Ret (Some val) /\ find_child id val ch = None)) ->
    (forall rg c, In (rg, c) ch ->
       c = DInvalid \/ exists d t, c = DKnown d /\ snd rg = fst rg + 1 /\
                                  map_get variants d = Some (t, [(off, (it, fst rg))])) ->
    (fb = DInvalid \/ exists d t, fb = DKnown d /\ map_get variants d = Some (t, [])) ->
    coherent T (P := P) (TEnum variants dty (DBranch off it fb ch) size align).
  Proof.
    intros Hwf Hcov Hvar Hch Hfb. pose proof Hwf as (Hvs & Hd)%wf_enum.
    apply discr_wf_branch in Hd as (_ & Hfit & _). constructor; [done| | |].
    - intros d t tg E off' it' val' i Hin Hi.
      destruct (Hvar d t tg E) as [(val & -> & _ & Hn)|(-> & _)]; [|done].
      destruct Hin as [[= <- <- <-]|[]]. auto.
    - intros env d t tg E v enc bytes Hc Henc He.
      destruct (Hvar d t tg E) as [(val & -> & Hf & Hn)|(-> & -> & Hu)].
      + apply encode_discr_parts in He as (es & Hes & Hw).
        inversion Hes as [|? e ? es' Hie Hes']; subst. inversion Hes'; subst.
        simpl in Hie, Hw. apply obind_ret in Hw as (b & Hb & [= <-]). simpl in Hb.
        rewrite decode_discr_branch.
        pose proof (subslice_write_same _ _ _ _ Hb) as Hs.
        rewrite (encode_int_length _ _ _ _ Hie) in Hs. rewrite Hs. cbn [obind].
        rewrite (decode_encode_int _ _ _ _ Hie). cbn [obind]. rewrite Hf. done.
      + injection He as <-. destruct (Hu env v enc Hc Henc) as (sub & val & Hs & Hdec & Hf).
        rewrite decode_discr_branch, Hs. cbn [obind]. rewrite Hdec. cbn [obind]. rewrite Hf. done.
    - intros bytes d Hl Hdd t tg E off' it' val' Hin.
      rewrite decode_discr_branch in Hdd. apply obind_ret in Hdd as (sub & Hs & Hdd).
      apply obind_ret in Hdd as (o & Ho & Hdd). destruct o as [val|]; [|discriminate].
      destruct (find_child id val ch) as [c|] eqn:Hf.
      + apply find_child_in in Hf as (rg & c' & Hc & Hr & ->). unfold id in Hdd.
        destruct (Hch rg c' Hc) as [->|(d' & t' & -> & Hsz & E')]; [discriminate|].
        simpl in Hdd. injection Hdd as ->. rewrite E in E'. injection E' as <- ->.
        destruct Hin as [[= <- <- <-]|[]]. exists sub. split; [done|].
        rewrite Ho. do 2 f_equal. unfold in_range in Hr. lia.
      + destruct Hfb as [->|(d' & t' & -> & E')]; [discriminate|].
        simpl in Hdd. injection Hdd as ->. rewrite E in E'. injection E' as <- ->. done.
  Qed.

  Theorem single_enum_coherent ht t d dty size align :
    wf ht (single_enum [(d, t)] d dty size align) = Ret tt ->
    coherent T (P := P) t -> coherent T (P := P) (single_enum [(d, t)] d dty size align).
  Proof.
    intros _ Hc. unfold single_enum. simpl. constructor.
    - by repeat constructor.
    - intros d' t' tg E off it val i Hin. rewrite map_get_cons in E.
      case_bool_decide; [|discriminate]. injection E as <- <-. done.
    - intros env d' t' tg E v enc bytes _ _ _. rewrite map_get_cons in E.
      case_bool_decide; [|discriminate]. subst. done.
    - intros bytes d' _ _ t' tg E off it val Hin. rewrite map_get_cons in E.
      case_bool_decide; [|discriminate]. injection E as <- <-. done.
  Qed.

  Theorem direct_enum_coherent ht vs off it dty size align :
    wf ht (direct_enum vs off it dty size align) = Ret tt ->
    NoDup (List.map fst vs) ->
    Forall (fun v => coherent T (P := P) (snd v)) vs ->
    (forall d t i, In (d, t) vs -> (off <= i < off + it_size it)%N -> ~ uses T t i) ->
    coherent T (P := P) (direct_enum vs off it dty size align).
  Proof.
    intros Hwf Hnd Hco Hout. eapply coherent_branch; [exact Hwf| | | |by left].
    - rewrite List.Forall_map. done.
    - intros d t tg E. left. rewrite (map_get_map (fun d t => (t, [(off, (it, d))]))) in E.
      destruct (map_get vs d) as [t'|] eqn:E'; [|discriminate]. simpl in E. injection E as <- <-.
      apply map_get_in in E'. exists d. split; [done|]. split; [|intros i; by eapply Hout].
      rewrite <- (app_nil_r (List.map _ _)). eapply (find_child_singles (fun d => d)); eauto.
    - intros rg c Hin. right. apply List.in_map_iff in Hin as ([d t] & [= <- <-] & Hin).
      exists d, t. simpl. split; [done|]. split; [done|].
      rewrite (map_get_map (fun d t => (t, [(off, (it, d))]))).
      by rewrite (map_get_nodup _ _ _ Hnd Hin).
  Qed.

  Theorem niche_enum_coherent ht vs u ut off it nvs ns inv dty size align :
    let tag := niche_tag it nvs ns in
    wf ht (niche_enum vs u ut off it nvs ns inv dty size align) = Ret tt ->
    NoDup (u :: List.map fst vs) ->
    (forall x y, In x (List.map fst vs) -> In y (List.map fst vs) -> tag x = tag y -> x = y) ->
    Forall (fun v => coherent T (P := P) (snd v)) vs -> coherent T (P := P) ut ->
    (forall d t i, In (d, t) vs -> (off <= i < off + it_size it)%N -> ~ uses T t i) ->
    (forall env (v : Val) enc, check_value T env ut v = Ret tt -> encode T ut v = Ret enc ->
       exists sub val, subslice enc off (it_size it) = Ret sub /\
         decode_int_opt T it sub = Ret (Some val) /\
         (forall d t, In (d, t) vs -> val <> tag d) /\
         (forall r, In r inv -> in_range val r = false)) ->
    coherent T (P := P) (niche_enum vs u ut off it nvs ns inv dty size align).
  Proof.
    intros tag Hwf Hnd Hinj Hco Hcou Hout Hun. apply NoDup_cons in Hnd as [Hu Hnd].
    eapply coherent_branch; [exact Hwf| | | |].
    - constructor; [done|]. rewrite List.Forall_map. done.
    - intros d t tg E. rewrite map_get_cons in E. case_bool_decide as Hud.
      + right. injection E as <- <-. subst d. split; [done|]. split; [done|].
        intros env v enc Hc He. destruct (Hun env v enc Hc He) as (sub & val & Hs & Hd & Hv & Hi).
        exists sub, val. split; [done|]. split; [done|].
        clear -Hv Hi. induction vs as [|[d t] vs IH].
        * cbn [List.map app]. induction inv as [|r inv IH]; [done|]. cbn [List.map find_child].
          rewrite Hi by by left. apply IH. intros r' Hr. apply Hi. by right.
        * cbn [List.map app find_child fst snd].
          destruct (in_range val _) eqn:E.
          { apply in_range_single in E. exfalso. eapply Hv; [by left|exact E]. }
          apply IH. intros d' t' Hin. eapply Hv. by right.
      + left. rewrite (map_get_map (fun d t => (t, [(off, (it, tag d))]))) in E.
        destruct (map_get vs d) as [t'|] eqn:E'; [|discriminate]. simpl in E. injection E as <- <-.
        apply map_get_in in E'. exists (tag d). split; [done|]. split; [|intros i; by eapply Hout].
        eapply (find_child_singles tag); eauto.
    - intros rg c Hin. apply List.in_app_iff in Hin as [Hin|Hin].
      + right. apply List.in_map_iff in Hin as ([d t] & [= <- <-] & Hin).
        exists d, t. simpl. split; [done|]. split; [done|]. rewrite map_get_cons.
        rewrite bool_decide_eq_false_2.
        2:{ intros ->. apply Hu. apply elem_of_list_In, List.in_map_iff. by exists (d, t). }
        rewrite (map_get_map (fun d t => (t, [(off, (it, tag d))]))).
        by rewrite (map_get_nodup _ _ _ Hnd Hin).
      + left. by apply List.in_map_iff in Hin as (r & [= <- <-] & _).
    - right. exists u, ut. split; [done|]. rewrite map_get_cons. by rewrite bool_decide_eq_true_2.
  Qed.

  (** Option<&T>: None is the null pointer. *)
  Definition option_ref (m : Mutability) (pi : PointeeInfo) : Ty :=
    niche_enum [(0, TTuple [] (mkHead (PTR_SIZE T) (PTR_ALIGN T) None) None)]
      1 (TTuple [(0%N, TPtr (PRef m pi))] (mkHead (PTR_SIZE T) (PTR_ALIGN T) None) None)
      0 (usize_ty T) 0 0 [] (mkIntTy Signed (PTR_SIZE T)) (PTR_SIZE T) (PTR_ALIGN T).

  Theorem option_ref_coherent (Tok : target_ok T) ht m pi :
    layout_meta_kind (pi_layout pi) = MKNone ->
    wf ht (option_ref m pi) = Ret tt -> coherent T (P := P) (option_ref m pi).
  Proof.
    intros Hthin Hwf. eapply niche_enum_coherent; [exact Hwf| | | | | |].
    - simpl. apply NoDup_cons. split; [|apply NoDup_cons; split; [|constructor]].
      + intros H. apply elem_of_list_singleton in H. discriminate.
      + apply not_elem_of_nil.
    - simpl. intros x y [<-|[]] [<-|[]]. done.
    - repeat constructor. discriminate.
    - repeat constructor. discriminate.
    - intros d t i [[= <- <-]|[]] _ Hu. inversion Hu; subst. done.
    - intros env v enc Hc He.
      apply check_tuple_ret in Hc as (_ & vs & -> & HF). inversion HF as [|? w ? ws Hw HF']; subst.
      inversion HF'; subst. simpl in Hw.
      apply encode_tuple_ret in He as (vs' & es & [= <-] & _ & Hes & Hwr).
      simpl in Hes. inversion Hes as [|? e ? es' Hie Hes']; subst. inversion Hes'; subst.
      simpl in Hie. destruct w as [| |p| | |]; try discriminate.
      simpl in Hwr. apply obind_ret in Hwr as (b & Hb & [= <-]). simpl in Hb.
      pose proof (subslice_write_same _ _ _ _ Hb) as Hs.
      apply (encode_pointer_inv T Tok) in Hie as (b1 & Hb1 & [(Hwd & Hm & ->)|(Hwd & _)]).
      2:{ exfalso. unfold wide in Hwd. simpl in Hwd. by rewrite Hthin in Hwd. }
      rewrite (encode_ptr_length _ _ _ Hb1) in Hs. exists b1.
      exists (tp_addr (p_thin p)). split; [done|].
      pose proof Hw as Hsh. apply check_ptr_shape in Hsh as [Hr _]. split.
      { unfold encode_ptr in Hb1. apply obind_ret in Hb1 as (ds & Hds & [= <-]).
        apply unwrap_ret in Hds. unfold decode_int_opt. rewrite encode_frags_length.
        rewrite (endian_encode_length _ _ _ _ _ Hds), N.eqb_refl.
        rewrite bytes_data_frags. cbn [it_signed usize_ty]. by rewrite (endian_decode_encode _ _ _ _ _ Hds). }
      split; [|done]. intros d t [[= <- <-]|[]].
      unfold niche_tag. replace (0 - 0 + 0) with 0 by lia. unfold int_bring_in_bounds.
      rewrite bring_in_bounds_id.
      2:{ apply in_bounds_spec. simpl. pose proof (pow256_pos (PTR_SIZE T)).
          rewrite size_bits_pow. lia. }
      intros Heq. unfold check_value, check_ptr in Hw. simpl in Hw.
      apply obind_ret in Hw as (? & _ & Hw). apply obind_ret in Hw as (? & _ & Hw).
      apply obind_ret in Hw as (? & _ & Hw). apply obind_ret in Hw as (? & _ & Hw).
      apply obind_ret in Hw as (? & _ & Hw). apply obind_ret in Hw as (? & Hn & Hw).
      apply ensure_else_ub_ret in Hn. lia.
  Qed.
End Enums.
