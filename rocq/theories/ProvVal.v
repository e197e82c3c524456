(** The provenances that occur in values and bytes, and what the value check asks of the machine
    state when only some provenances are known. *)
From Verif Require Export ChunksProofs ValueProofs ReprMore.

Definition all_in {A} (f : A -> Prop) : list A -> Prop :=
  fix go l := match l with [] => True | x :: r => f x /\ go r end.
Lemma all_in_Forall {A} (f : A -> Prop) l : all_in f l <-> Forall f l.
Proof.
  induction l as [|x l IH]; cbn; split; intros H; try done.
  - destruct H as [H1 H2]. constructor; [done|]. by apply IH.
  - inversion H; subst. split; [done|]. by apply IH.
Qed.

Section ProvVal.
  Context {P : Type} `{EqDecision P}.
  Variable T : Target.
  Notation AB := (AByte P).
  Notation Val := (Value P).
  Variable Q : P -> Prop.

  Definition thin_in (p : ThinPtr P) : Prop := forall pr, tp_prov p = Some pr -> Q pr.
  Definition meta_in (m : option (PtrMeta P)) : Prop :=
    match m with Some (MVTablePointer p) => thin_in p | _ => True end.
  Definition ptr_in (p : Pointer P) : Prop := thin_in (p_thin p) /\ meta_in (p_meta p).
  Definition byte_in (b : AB) : Prop := forall f, ab_frag b = Some f -> Q (frag_prov f).

  Fixpoint val_in (v : Val) : Prop :=
    match v with
    | VInt _ | VBool _ => True
    | VPtr p => ptr_in p
    | VTuple vs => all_in val_in vs
    | VVariant _ w => val_in w
    | VUnion data => Forall (Forall byte_in) data
    end.

  Lemma subslice_in (l : list AB) off n r : subslice l off n = Ret r -> Forall byte_in l -> Forall byte_in r.
  Proof.
    intros [_ ->]%subslice_ret H. apply Forall_take, Forall_drop. exact H.
  Qed.
  Lemma uninit_in n : Forall byte_in (list_repeat Uninit n).
  Proof. unfold list_repeat. apply Forall_replicate. by intros f. Qed.
  Lemma write_subslice_in (l : list AB) off e r :
    write_subslice l off e = Ret r -> Forall byte_in l -> Forall byte_in e -> Forall byte_in r.
  Proof.
    intros [_ ->]%write_subslice_ret H1 H2. apply Forall_app. split; [by apply Forall_take|].
    apply Forall_app. split; [done|by apply Forall_drop].
  Qed.
  Lemma write_all_in ps (b r : list AB) :
    write_all ps b = Ret r -> Forall byte_in b -> Forall (fun p => Forall byte_in (snd p)) ps -> Forall byte_in r.
  Proof.
    revert b. induction ps as [|[o e] ps IH]; intros b Hw Hb HF; cbn in Hw.
    - by injection Hw as <-.
    - apply obind_ret in Hw as (b1 & Hb1 & Hw). inversion HF; subst. eapply IH; [exact Hw| |done].
      by eapply write_subslice_in.
  Qed.
  Lemma encode_int_in it i b : encode_int (P := P) T it i = Ret b -> Forall byte_in b.
  Proof.
    unfold encode_int. intros H. apply obind_ret in H as (ds & _ & [= <-]).
    apply List.Forall_map, List.Forall_forall. intros x _ f. done.
  Qed.
  Lemma encode_frags_in p i ds : thin_in p -> Forall byte_in (encode_frags (tp_prov p) i ds).
  Proof.
    intros Hp. revert i. induction ds as [|d ds IH]; intros i; cbn; constructor; [|apply IH].
    intros f. cbn. destruct (tp_prov p) as [pr|] eqn:E; [|done]. intros [= <-]. by apply Hp.
  Qed.
  Lemma encode_ptr_in p b : encode_ptr T p = Ret b -> thin_in p -> Forall byte_in b.
  Proof. unfold encode_ptr. intros H Hp. apply obind_ret in H as (ds & _ & [= <-]). by apply encode_frags_in. Qed.
  Lemma encode_meta_in mk m b : encode_meta_m T mk m = Ret b -> meta_in m -> Forall byte_in b.
  Proof.
    destruct mk, m as [[c|p]|]; cbn; try done; intros H Hm.
    - by eapply encode_int_in.
    - by eapply encode_ptr_in.
  Qed.

  Lemma encode_in (Tok : target_ok T) ty (v : Val) b : encode T ty v = Ret b -> val_in v -> Forall byte_in b.
  Proof.
    revert v b.
    induction ty as [it| |pt|fields head u IHf IHu|elem count IHe|elem IHe|fields chunks size align IHf
                    |variants dty discr size align IHv|tn] using Ty_ind'; intros v b He Hv.
    - destruct v; try done. by eapply encode_int_in.
    - destruct v; try done. injection He as <-. constructor; [|constructor]. by intros f.
    - destruct v as [| |p| | |]; try done. cbn [encode] in He. destruct Hv as [Hp Hm].
      apply (encode_pointer_inv T Tok) in He as (b1 & H1 & [(_ & _ & ->)|(_ & b2 & H2 & ->)]).
      + by eapply encode_ptr_in.
      + apply Forall_app. split; [by eapply encode_ptr_in|by eapply encode_meta_in].
    - destruct u as [u|]; [done|]. apply encode_tuple_ret in He as (vs & es & -> & Hl & Hes & Hw).
      cbn [val_in] in Hv. apply all_in_Forall in Hv.
      eapply write_all_in; [exact Hw|apply uninit_in|].
      apply Forall_lookup. intros k [o e] Hk. apply zip_lookup in Hk as [Ho He]. cbn [snd].
      destruct (Forall2_lookup_r _ _ _ _ _ Hes He) as ([f w] & Hz & Hen). apply zip_lookup in Hz as [Hf' Hw'].
      rewrite Forall_lookup in IHf. rewrite Forall_lookup in Hv. eapply (IHf _ _ Hf'); [exact Hen|]. by eapply Hv.
    - apply encode_array_ret in He as (vs & parts & -> & Hc & HF & ->). cbn [val_in] in Hv. apply all_in_Forall in Hv.
      apply Forall_concat. apply Forall_lookup. intros k p Hk.
      destruct (Forall2_lookup_r _ _ _ _ _ HF Hk) as (w & Hwk & Hen & _).
      rewrite Forall_lookup in Hv. eapply IHe; [exact Hen|]. by eapply Hv.
    - done.
    - apply encode_union_ret in He as (data & -> & HF & Hw). cbn [val_in] in Hv.
      eapply write_all_in; [exact Hw|apply uninit_in|].
      apply Forall_lookup. intros k [o e] Hk. apply zip_lookup in Hk as [Ho He]. cbn [snd].
      rewrite Forall_lookup in Hv. by eapply Hv.
    - apply encode_enum_ret in He as (d & w & t & tg & enc & -> & Hg & Hen & Hd). cbn [val_in] in Hv.
      apply map_get_in in Hg. rewrite List.Forall_forall in IHv.
      apply encode_discr_parts in Hd as (es & Hes & Hw). eapply write_all_in; [exact Hw| |].
      + by eapply (IHv _ Hg).
      + apply Forall_lookup. intros k [o e] Hk. apply zip_lookup in Hk as [Ho He]. cbn [snd].
        destruct (Forall2_lookup_r _ _ _ _ _ Hes He) as (x & _ & Hx). by eapply encode_int_in.
    - done.
  Qed.

  Lemma prov_fold_in acc i (bs : list AB) :
    (forall pr, acc = Some pr -> Q pr) -> forall pr, prov_fold acc i bs = Some pr -> Q pr.
  Proof.
    revert acc i. induction bs as [|b bs IH]; intros acc i Ha; [exact Ha|]. cbn [prov_fold].
    apply IH. intros pr. destruct (ab_frag b) as [f|]; [|done]. destruct (_ && _); [apply Ha|done].
  Qed.
  Lemma decode_ptr_in (bs : list AB) p : decode_ptr T bs = Ret (Some p) -> Forall byte_in bs -> thin_in p.
  Proof.
    unfold decode_ptr. destruct (_ =? _)%N; [|done]. destruct (bytes_data bs); [|done].
    destruct bs as [|b0 bs]; [done|]. intros [= <-] HF pr. cbn [tp_prov]. eapply prov_fold_in.
    inversion HF as [|? ? Hb]; subst. unfold byte_in in Hb. destruct (ab_frag b0) as [f|]; cbn; [|done].
    intros pr'. destruct (_ && _); [|done]. intros [= <-]. by apply Hb.
  Qed.
  Lemma decode_meta_in mk (bs : list AB) m : decode_meta_m T mk bs = Ret (Some m) -> Forall byte_in bs -> meta_in (Some m).
  Proof.
    destruct mk; cbn [decode_meta_m]; [done| |]; intros H HF; apply obind_ret in H as ([x|] & H & [= <-]); cbn; [done|].
    by eapply decode_ptr_in.
  Qed.

  Lemma decode_in (Tok : target_ok T) ht ty (bs : list AB) v :
    ty_check_wf T ht ty = Ret tt -> decode T ty bs = Ret (Some v) -> Forall byte_in bs -> val_in v.
  Proof.
    revert bs v.
    induction ty as [it| |pt|fields head u IHf IHu|elem count IHe|elem IHe|fields chunks size align IHf
                    |variants dty discr size align IHv|tn] using Ty_ind'; intros bs v Hwf Hd Hb.
    - cbn [decode] in Hd. unfold decode_int in Hd. apply obind_ret in Hd as ([i|] & _ & [= <-]). done.
    - cbn [decode] in Hd. unfold decode_bool in Hd. destruct bs as [|[|x fr] [|]]; try done.
      all: destruct x; try done; by injection Hd as <-.
    - cbn [decode] in Hd. apply (decode_pointer_inv T Tok) in Hd as [(_ & p & Hp & ->)|(_ & b1 & b2 & p & m & -> & _ & _ & Hp & Hm & ->)].
      + split; [|done]. by eapply decode_ptr_in.
      + apply Forall_app in Hb as [Hb1 Hb2]. split; [by eapply decode_ptr_in|by eapply decode_meta_in].
    - destruct u as [u|]; [done|]. pose proof Hwf as (Hfs & _)%wf_tuple.
      apply decode_tuple_some in Hd as (_ & vs & -> & HF). cbn [val_in]. apply all_in_Forall, Forall_lookup.
      intros i w Hw. destruct (Forall2_lookup_r _ _ _ _ _ HF Hw) as (f & Hf & s & sub & _ & Hs & Hdec).
      rewrite Forall_lookup in IHf, Hfs. destruct (Hfs _ _ Hf) as (Hwt & _).
      eapply (IHf _ _ Hf); [exact Hwt|exact Hdec|]. by eapply subslice_in.
    - pose proof Hwf as (Hc & Hw & _)%wf_array. apply decode_array_some in Hd as (s & vs & _ & _ & -> & HF); [|done].
      cbn [val_in]. apply all_in_Forall, Forall_lookup. intros i w Hwi.
      destruct (Forall2_lookup_r _ _ _ _ _ HF Hwi) as (k & _ & sub & Hs & Hdec).
      eapply IHe; [exact Hw|exact Hdec|]. by eapply subslice_in.
    - done.
    - apply decode_union_some in Hd as (_ & data & -> & HF). cbn [val_in]. apply Forall_lookup. intros i d Hd.
      destruct (Forall2_lookup_r _ _ _ _ _ HF Hd) as (c & _ & Hs). by eapply subslice_in.
    - pose proof Hwf as (HFv & _)%wf_enum. apply decode_enum_some in Hd as (_ & d & t & tg & w & -> & _ & Hg & Hdec).
      cbn [val_in]. apply map_get_in in Hg. rewrite List.Forall_forall in IHv, HFv.
      eapply (IHv _ Hg); [|exact Hdec|done]. apply HFv in Hg. cbn in Hg. tauto.
    - done.
  Qed.

  Lemma leaf_in ty v pt p : leaf ty v pt p -> val_in v -> ptr_in p.
  Proof.
    induction 1 as [pt p|fields head vals i o t v pt p Hf Hv Hl IH|elem count vals i v pt p Hv Hl IH
                   |variants dty discr size align d ty tg v pt p Hg Hl IH]; intros Hin; cbn [val_in] in Hin.
    - done.
    - apply all_in_Forall in Hin. rewrite Forall_lookup in Hin. by eapply IH, Hin.
    - apply all_in_Forall in Hin. rewrite Forall_lookup in Hin. by eapply IH, Hin.
    - by apply IH.
  Qed.

  (** ** The value check on known pointers *)

  Definition env_known (env : ChkEnv P) : Prop :=
    (forall p s, thin_in p -> ok_or_ub (ce_deref env p s)) /\
    (forall p, ok_or_ub (ce_vtable_from_ptr env p)) /\
    (forall p vt, ce_vtable_from_ptr env p = Ret vt -> ce_vtable_lookup env p = Ret vt).

  Lemma known_meta_ok (env : ChkEnv P) m mk : env_known env -> ok_or_ub (check_ptr_metadata T env m mk).
  Proof.
    intros (_ & Hf & _). destruct m as [[c|p]|], mk; cbn [check_ptr_metadata]; try (right; eexists; reflexivity).
    - apply ok_or_ub_ensure.
    - unfold check_vtable_ptr. apply ok_or_ub_bind; [apply ok_or_ub_ensure|]. intros _ _.
      apply ok_or_ub_bind; [apply Hf|]. intros. apply ok_or_ub_ensure.
    - apply ok_or_ub_ret.
  Qed.
  Lemma known_layout_meta ht (env : ChkEnv P) l m :
    env_known env -> layout_check_wf T ht l = Ret tt ->
    check_ptr_metadata T env m (layout_meta_kind l) = Ret tt -> layout_meta_ok env l m.
  Proof.
    intros (Hd & Hf & Hl).
    set (env' := mkChkEnv (fun _ _ => Ret tt) (ce_vtable_from_ptr env) (ce_vtable_lookup env) : ChkEnv P).
    assert (Hs : env_sound env') by (split; [intros; apply ok_or_ub_ret|done]).
    intros Hw Hc. assert (H : layout_meta_ok env' l m) by (eapply layout_meta_from_check; eauto).
    clear -H. induction l; cbn in *; try done. destruct H as [? H]. split; [done|]. by apply IHl.
  Qed.
  Lemma known_ptr_ok ht (env : ChkEnv P) p pt :
    env_known env -> ptrtype_check_wf T ht pt = Ret tt -> thin_in (p_thin p) -> ok_or_ub (check_ptr T env p pt).
  Proof.
    intros He Hw Hp. pose proof He as (Hd & Hf & Hl). unfold check_ptr.
    apply ok_or_ub_bind; [apply ok_or_ub_ensure|]. intros _ _.
    apply ok_or_ub_bind; [by apply known_meta_ok|]. intros [] Hm.
    destruct (safe_pointee pt) as [pi|] eqn:Hsp.
    - assert (Hl' : layout_check_wf T ht (pi_layout pi) = Ret tt /\ ptr_meta_kind pt = layout_meta_kind (pi_layout pi)).
      { destruct pt; cbn in Hsp; try done; injection Hsp as <-; cbn in Hw |- *;
          unfold pointee_check_wf in Hw; apply obind_ret in Hw as ([] & Hw & _); done. }
      destruct Hl' as [Hlw Hk]. rewrite Hk in Hm.
      pose proof (known_layout_meta ht env _ _ He Hlw Hm) as Hlm.
      destruct (compute_size_and_align_total env _ _ Hlm) as (s & a & Hsa).
      unfold compute_size, compute_align. rewrite Hsa. cbn [obind].
      do 4 (apply ok_or_ub_bind; [apply ok_or_ub_ensure|]; intros _ _).
      destruct (is_ok_ok (ce_deref env (p_thin p) s) (Hd _ _ Hp)) as [b Hb]. rewrite Hb. cbn [obind].
      apply ok_or_ub_ensure.
    - destruct pt; try apply ok_or_ub_ret. apply ok_or_ub_bind; [apply Hf|]. intros. apply ok_or_ub_ensure.
  Qed.

  Lemma known_value_ok ht env ty (v : Val) :
    env_known env -> ty_check_wf T ht ty = Ret tt -> shape T ty v -> val_in v -> ok_or_ub (check_value T env ty v).
  Proof.
    intros He. revert v.
    induction ty as [it| |pt|fields head u IHf IHu|elem count IHe|elem IHe|fields chunks size align IHf
                    |variants dty discr size align IHv|tn] using Ty_ind'; intros v Hwf Hs Hin.
    - apply shape_int in Hs as (i & -> & Hi). apply ok_or_ub_ensure.
    - apply shape_bool in Hs as (b & ->). apply ok_or_ub_ret.
    - apply shape_ptr in Hs as (p & -> & _). cbn [check_value]. eapply known_ptr_ok; [done| |by destruct Hin].
      cbn [ty_check_wf] in Hwf. apply obind_ret in Hwf as ([] & Hwf & _). exact Hwf.
    - pose proof Hwf as (Hfs & _)%wf_tuple.
      apply shape_tuple in Hs as (-> & vals & -> & HF). cbn [check_value].
      apply ok_or_ub_bind; [apply ok_or_ub_ensure|]. intros _ _. apply for_each2_ok.
      cbn [val_in] in Hin. apply all_in_Forall in Hin.
      apply Forall2_same_length_lookup_2; [by eapply Forall2_length|]. intros i f w Hf Hw.
      rewrite Forall_lookup in Hin. rewrite Forall_lookup in Hfs, IHf. apply (IHf _ _ Hf); [by apply (Hfs _ _ Hf)| |by eapply Hin].
      exact (Forall2_lookup_lr _ _ _ _ _ _ HF Hf Hw).
    - pose proof Hwf as (_ & Hwe & _)%wf_array.
      apply shape_array in Hs as (vals & -> & Hl & HF). cbn [check_value].
      apply ok_or_ub_bind; [apply ok_or_ub_ensure|]. intros _ _. apply for_each_ok.
      cbn [val_in] in Hin. apply all_in_Forall in Hin. rewrite List.Forall_forall in HF. rewrite List.Forall_forall in Hin.
      intros x Hx. apply IHe; [done|by apply HF|by apply Hin].
    - inversion Hs.
    - apply shape_union in Hs as (data & -> & HF). cbn [check_value].
      apply ok_or_ub_bind; [apply ok_or_ub_ensure|]. intros _ _. apply for_each2_ok.
      eapply Forall2_impl; [exact HF|]. intros. apply ok_or_ub_ensure.
    - pose proof Hwf as (HFv & _)%wf_enum.
      apply shape_enum in Hs as (d & t & tg & v' & -> & Hg & Hv). cbn [check_value].
      rewrite map_get_with_spec, Hg. simpl. apply map_get_in in Hg.
      rewrite List.Forall_forall in IHv. apply (IHv _ Hg); [|done|done].
      rewrite List.Forall_forall in HFv. apply HFv in Hg. simpl in Hg. tauto.
    - inversion Hs.
  Qed.
End ProvVal.

Lemma thin_in_mono {P} (Q R : P -> Prop) p : (forall x, Q x -> R x) -> thin_in Q p -> thin_in R p.
Proof. intros H Hp pr Hpr. by apply H, Hp. Qed.
Lemma ptr_in_mono {P} (Q R : P -> Prop) p : (forall x, Q x -> R x) -> ptr_in Q p -> ptr_in R p.
Proof.
  intros H [H1 H2]. split; [by eapply thin_in_mono|]. destruct (p_meta p) as [[c|q]|]; cbn in *; try done.
  by eapply thin_in_mono.
Qed.
Lemma byte_in_mono {P} (Q R : P -> Prop) b : (forall x, Q x -> R x) -> byte_in Q b -> byte_in R b.
Proof. intros H Hb f Hf. by apply H, Hb. Qed.
Lemma bytes_in_mono {P} (Q R : P -> Prop) b : (forall x, Q x -> R x) -> Forall (byte_in Q) b -> Forall (byte_in R) b.
Proof. intros H Hb. eapply Forall_impl; [exact Hb|]. intros. by eapply byte_in_mono. Qed.
Lemma val_in_mono {P} (Q R : P -> Prop) v : (forall x, Q x -> R x) -> val_in Q v -> val_in R v.
Proof.
  intros H. induction v as [i|b0|p|vs IH|d v IH|cs] using Value_ind'; cbn [val_in]; try done.
  - by apply ptr_in_mono.
  - rewrite !all_in_Forall. intros HF. rewrite !Forall_lookup in *. eauto.
  - intros HF. eapply Forall_impl; [exact HF|]. intros. by eapply bytes_in_mono.
Qed.

(** ** The value check in a state that knows more *)

Section EnvLe.
  Context {P : Type} `{EqDecision P}.
  Variable T : Target.
  Hypothesis Tok : target_ok T.
  Variables e1 e2 : ChkEnv P.
  Hypothesis Hd : forall p s, ce_deref e1 p s = Ret tt -> ce_deref e2 p s = Ret tt.
  Hypothesis Hf : forall p vt, ce_vtable_from_ptr e1 p = Ret vt -> ce_vtable_from_ptr e2 p = Ret vt.
  Hypothesis Hl : forall p vt, ce_vtable_lookup e1 p = Ret vt -> ce_vtable_lookup e2 p = Ret vt.

  Lemma pointee_size_le l m s a : pointee_size e1 l m s a -> pointee_size e2 l m s a.
  Proof. induction 1; econstructor; eauto. Qed.
  Lemma valid_meta_le mk m : valid_meta T e1 mk m -> valid_meta T e2 mk m.
  Proof. destruct 1 as [|c|tn p Ha (vt & Hv & Ht)]; constructor; try done. exists vt. split; [by apply Hf|done]. Qed.
  Lemma points_to_le p pi : points_to T e1 p pi -> points_to T e2 p pi.
  Proof. intros (s & a & Hs & H1 & H2 & H3 & H4 & H5). exists s, a. split; [by apply pointee_size_le|]. auto 10. Qed.
  Lemma valid_ptr_le pt p : valid_ptr T e1 pt p -> valid_ptr T e2 pt p.
  Proof.
    destruct 1 as [mk p Ha Hm|p Ha Hm|tn p Ha Hm (vt & Hv & Ht)|m pi p Ha Hm Hp|pi p Ha Hm Hp].
    - apply vp_raw; [done|by apply valid_meta_le].
    - by apply vp_fn.
    - apply vp_vtable; [done..|]. exists vt. split; [by apply Hf|done].
    - apply vp_ref; [done|by apply valid_meta_le|by apply points_to_le].
    - apply vp_box; [done|by apply valid_meta_le|by apply points_to_le].
  Qed.
  Lemma check_value_le ty v : check_value T e1 ty v = Ret tt -> check_value T e2 ty v = Ret tt.
  Proof.
    rewrite !check_value_leaves. intros [Hs H]. split; [done|]. intros pt p Hlf.
    apply (check_ptr_iff T Tok e2), valid_ptr_le, (check_ptr_iff T Tok e1). by apply H.
  Qed.
End EnvLe.
