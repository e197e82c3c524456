(** Expressions that pass the check have well-formed types. *)
From Verif Require Export SafeSpec LayoutProofs.
From Coq Require Import ZifyBool ZifyN ZifyNat.
Local Open Scope Z_scope.

Section Any.
  Variable T : Target.
  Variables ht1 ht2 : TraitName -> bool.
  Hypothesis Hle : forall tn, ht1 tn = true -> ht2 tn = true.

  Lemma layout_any l : layout_check_wf T ht1 l = Ret tt -> layout_check_wf T ht2 l = Ret tt.
  Proof.
    induction l as [s a|s a|tn|h l IH]; cbn; try done.
    - intros E. apply ensure_wf_ret in E. by rewrite (Hle _ E).
    - intros E. apply obind_ret in E as ([] & -> & E). apply obind_ret in E as ([] & E1 & E2). cbn. rewrite (IH E1). done.
  Qed.
  Lemma ptrtype_any pt : ptrtype_check_wf T ht1 pt = Ret tt -> ptrtype_check_wf T ht2 pt = Ret tt.
  Proof.
    assert (forall pi, pointee_check_wf T ht1 pi = Ret tt -> pointee_check_wf T ht2 pi = Ret tt) as Hpi.
    { intros pi E. apply obind_ret in E as ([] & E1 & E2). unfold pointee_check_wf. by rewrite (layout_any _ E1). }
    destruct pt; cbn; auto. intros E. apply ensure_wf_ret in E. by rewrite (Hle _ E).
  Qed.
  Lemma final_any ty : final_check_wf T ht1 ty = Ret tt -> final_check_wf T ht2 ty = Ret tt.
  Proof.
    unfold final_check_wf. intros E. apply obind_ret in E as (l & -> & E). apply obind_ret in E as ([] & E1 & E2). cbn [obind].
    by rewrite (layout_any _ E1).
  Qed.

  Lemma wf_any ty : ty_check_wf T ht1 ty = Ret tt -> ty_check_wf T ht2 ty = Ret tt.
  Proof.
    induction ty as [it| |pt|fields head u IHf IHu|elem count IHe|elem IHe|fields chunks size align IHf|variants dty discr size align IHv|tn]
      using Ty_ind'; intros Hwf.
    - cbn [ty_check_wf] in *. apply obind_ret in Hwf as ([] & -> & E). cbn [obind]. by apply final_any.
    - cbn [ty_check_wf] in *. apply obind_ret in Hwf as ([] & _ & E). cbn [obind]. by apply final_any.
    - cbn [ty_check_wf] in *. apply obind_ret in Hwf as ([] & E1 & E). rewrite (ptrtype_any _ E1). cbn [obind]. by apply final_any.
    - pose proof (wf_tuple T ht1 _ _ _ Hwf) as (Hf & _ & _ & Hu & _). rewrite tuple_wf_eq in *. cbv zeta in *.
      assert (List.map (fun f => (fst f, (ty_check_wf T ht1 (snd f), snd f))) fields =
              List.map (fun f => (fst f, (ty_check_wf T ht2 (snd f), snd f))) fields) as E0.
      { apply map_ext_in. intros f Hin. rewrite List.Forall_forall in Hf, IHf. destruct (Hf _ Hin) as [E1 _].
        by rewrite E1, (IHf _ Hin E1). }
      rewrite E0 in Hwf. apply obind_ret in Hwf as ([] & Hwf & E).
      apply obind_ret in Hwf as (le & -> & Hwf). apply obind_ret in Hwf as ([] & H1 & H2). cbn [obind].
      replace (match u with Some u => _ | None => _ end) with (Ret tt); [cbn [obind]; rewrite H2; cbn [obind]; by apply final_any|].
      destruct u as [u|]; [|done]. destruct (Hu _ eq_refl) as [Hu1 _]. rewrite (IHu _ eq_refl Hu1). cbn [obind].
      rewrite Hu1 in H1. by rewrite <- H1.
    - cbn [ty_check_wf] in *. apply obind_ret in Hwf as ([] & Hwf & E). apply obind_ret in Hwf as ([] & -> & Hwf).
      apply obind_ret in Hwf as (l & -> & Hwf). apply obind_ret in Hwf as ([] & H1 & Hwf). cbn [obind]. rewrite H1. cbn [obind].
      rewrite (IHe Hwf). cbn [obind]. by apply final_any.
    - cbn [ty_check_wf] in *. apply obind_ret in Hwf as ([] & Hwf & E).
      apply obind_ret in Hwf as (l & -> & Hwf). apply obind_ret in Hwf as ([] & H1 & Hwf). cbn [obind]. rewrite H1. cbn [obind].
      rewrite (IHe Hwf). cbn [obind]. by apply final_any.
    - cbn [ty_check_wf] in *. apply obind_ret in Hwf as ([] & Hwf & E). apply obind_ret in Hwf as ([] & H1 & H2).
      replace (for_each _ fields) with (Ret tt); [cbn [obind]; rewrite H2; cbn [obind]; by apply final_any|]. symmetry.
      apply for_each_ret. apply for_each_ret in H1. rewrite List.Forall_forall in H1, IHf |- *. intros f Hin. specialize (H1 _ Hin). cbn in H1.
      apply obind_ret in H1 as ([] & H1 & H3). by rewrite (IHf _ Hin H1).
    - cbn [ty_check_wf] in *. apply obind_ret in Hwf as ([] & Hwf & E). apply obind_ret in Hwf as ([] & H1 & H2).
      replace (for_each _ variants) with (Ret tt); [cbn [obind]; rewrite H2; cbn [obind]; by apply final_any|]. symmetry.
      apply for_each_ret. apply for_each_ret in H1. rewrite List.Forall_forall in H1, IHv |- *. intros f Hin. specialize (H1 _ Hin). cbn in H1.
      apply obind_ret in H1 as ([] & -> & H1). apply obind_ret in H1 as ([] & H1 & H3). cbn [obind]. by rewrite (IHv _ Hin H1).
    - cbn [ty_check_wf] in *. apply obind_ret in Hwf as ([] & E1 & E). apply ensure_wf_ret in E1. rewrite (Hle _ E1). cbn [obind ensure_wf]. by apply final_any.
  Qed.
End Any.

Section Static.
  Variable T : Target.
  Variable prog : Program.
  Hypothesis Std : target_std T.
  Notation wfT ty := (ty_check_wf T any_trait ty = Ret tt).

  Lemma to_any ht ty : ty_check_wf T ht ty = Ret tt -> wfT ty.
  Proof. by apply wf_any. Qed.
  Lemma thin_wf pt : ptr_meta_kind pt = MKNone -> ptrtype_check_wf T any_trait pt = Ret tt -> wfT (TPtr pt).
  Proof.
    intros Hk Hp. pose proof (ts_thin _ Std) as H. cbn [ty_check_wf] in *. rewrite Hp. cbn [obind ptrtype_check_wf] in *.
    revert H. unfold final_check_wf. cbn [layout ptr_meta_kind]. rewrite Hk. done.
  Qed.
  Lemma wide_wf pt : ptr_meta_kind pt <> MKNone -> ptrtype_check_wf T any_trait pt = Ret tt -> wfT (TPtr pt).
  Proof.
    intros Hk Hp. pose proof (ts_wide _ Std) as H. cbn [ty_check_wf] in *. rewrite Hp. cbn [obind ptrtype_check_wf] in *.
    revert H. unfold final_check_wf. cbn [layout ptr_meta_kind]. by destruct (ptr_meta_kind pt).
  Qed.
  Lemma ptr_wf pt : ptrtype_check_wf T any_trait pt = Ret tt -> wfT (TPtr pt).
  Proof. destruct (decide (ptr_meta_kind pt = MKNone)); [by apply thin_wf|by apply wide_wf]. Qed.
  Lemma meta_wf mk : wfT (meta_kind_ty T mk).
  Proof. destruct mk; [apply Std|apply Std|by apply ptr_wf]. Qed.

  Variable locals : list (LocalName * Ty).
  Hypothesis Hlocals : forall n ty, map_get locals n = Some ty -> wfT ty /\ sized T ty.
  Notation vwf := (value_check_wf T prog locals).
  Notation pwf := (place_check_wf T prog locals).
  Notation gap := (gap_free T prog locals).

  Lemma gap_here e : gap e -> no_gap T prog locals e.
  Proof. intros H. apply H, oc_here. Qed.
  Lemma gap_child e e1 : gap e -> child e e1 -> gap e1.
  Proof. intros H Hc e2 Ho. apply H. by eapply oc_below. Qed.

  Lemma unop_wf op e ty ty' : vwf e = Ret ty -> wfT ty -> no_gap T prog locals (inl (EUnOp op e)) ->
    unop_check_wf T prog op ty = Ret ty' -> wfT ty'.
  Proof.
    intros Hv Hwf Hg H. destruct op as [iop|[it|nt]| | |sty|sty|meth]; cbn [unop_check_wf no_gap] in H, Hg.
    - destruct ty; try done. injection H as <-. destruct iop; [done|done|apply Std].
    - inv. subst. by eapply to_any.
    - inv. subst. by eapply to_any.
    - inv. subst. by apply ptr_wf.
    - destruct ty; try done. injection H as <-. apply meta_wf.
    - apply obind_ret in H as ([] & _ & H). destruct (bool_decide _); [|done]. injection H as <-. apply Std.
    - apply obind_ret in H as ([] & _ & H). destruct (bool_decide _); [|done]. injection H as <-. apply Std.
    - destruct ty as [| |[]| | | | | |]; try done. inv. subst. by apply ptr_wf.
  Qed.
  Lemma binop_wf op e1 e2 t1 t2 ty' : vwf e1 = Ret t1 -> wfT t1 -> no_gap T prog locals (inl (EBinOp op e1 e2)) ->
    binop_check_wf T op t1 t2 = Ret ty' -> wfT ty'.
  Proof.
    intros Hv Hwf Hg H. destruct op as [iop|iop|rel|inb|inb nn|pt]; cbn [binop_check_wf no_gap] in H, Hg.
    - destruct t1; try done. destruct t2; try done. inv. by subst.
    - destruct t1; try done. inv. destruct (ts_pair _ Std it Hwf) as (t & E & Ht). congruence.
    - inv. subst. destruct rel; apply Std.
    - destruct t1; try done. destruct (bool_decide _); [done|]. inv. by subst.
    - destruct t1; try done. destruct (bool_decide _); [done|]. destruct t2; try done. destruct (bool_decide _); [done|]. inv. subst. apply Std.
    - destruct t1; try done. destruct (bool_decide _); [done|]. destruct (bool_decide _); [done|]. inv. subst.
      apply ptr_wf. by eapply ptrtype_any; [|exact Hg].
  Qed.

  Lemma expr_wf :
    (forall e ty, vwf e = Ret ty -> gap (inl e) -> wfT ty) /\
    (forall p ty, pwf p = Ret ty -> gap (inr p) -> wfT ty).
  Proof.
    apply Expr_ind'.
    - intros c ty ty' H _. cbn in H. inv. subst. by eapply to_any.
    - intros es ty _ ty' H _. cbn [value_check_wf] in H. apply obind_ret in H as ([] & H1 & H). apply obind_ret in H as ([] & _ & [= <-]). by eapply to_any.
    - intros f e ty _ ty' H _. cbn [value_check_wf] in H. apply obind_ret in H as ([] & H1 & H). destruct ty; try done.
      apply obind_ret in H as ([] & _ & H). apply obind_ret in H as ([o t] & _ & H). inv. subst. by eapply to_any.
    - intros d e ty _ ty' H _. cbn [value_check_wf] in H. destruct ty; try done. apply obind_ret in H as ([] & H1 & H).
      destruct (map_get _ _); [|done]. inv. subst. by eapply to_any.
    - intros p IH ty H Hg. cbn [value_check_wf] in H. apply obind_ret in H as (ty1 & H1 & H). destruct ty1; try done. injection H as <-.
      pose proof (gap_here _ Hg) as Hn. cbn in Hn. eapply to_any, Hn, H1.
    - intros p IH ty H Hg. cbn [value_check_wf] in H. apply obind_ret in H as (ty1 & H1 & H). inv. subst. eapply IH; [done|].
      eapply gap_child; [exact Hg|constructor].
    - intros p pt IH ty H Hg. cbn [value_check_wf] in H. apply obind_ret in H as ([] & H1 & H). inv. subst. apply ptr_wf. by eapply ptrtype_any; [|exact H1].
    - intros op e IH ty H Hg. cbn [value_check_wf] in H. apply obind_ret in H as (ty1 & H1 & H).
      eapply unop_wf; [exact H1|eapply IH; [done|eapply gap_child; [exact Hg|constructor]]|by apply gap_here|done].
    - intros op l r IHl IHr ty H Hg. cbn [value_check_wf] in H. apply obind_ret in H as (t1 & H1 & H). apply obind_ret in H as (t2 & H2 & H).
      eapply binop_wf; [exact H1|eapply IHl; [done|eapply gap_child; [exact Hg|constructor]]|by apply gap_here|done].
    - intros n ty H _. cbn [place_check_wf] in H. destruct (map_get _ _) eqn:E; [|done]. injection H as ->. by apply (Hlocals n).
    - intros e ty _ ty' H _. cbn [place_check_wf] in H. apply obind_ret in H as ([] & H1 & H). apply obind_ret in H as (t & _ & H).
      destruct t; try done. inv. subst. by eapply to_any.
    - intros p f IH ty H Hg. cbn [place_check_wf] in H. apply obind_ret in H as (t & H1 & H).
      assert (Ht : wfT t) by (eapply IH; [done|eapply gap_child; [exact Hg|constructor]]).
      destruct t as [| | |fields h u| | |fields ch s a| |]; try done.
      + pose proof (wf_tuple T any_trait _ _ _ Ht) as (Hf & _ & _ & Hu & _). destruct (_ && _).
        * apply obind_ret in H as ([o t] & H & [= <-]). apply unwrap_ret in H. rewrite List.Forall_forall in Hf. 
          unfold list_get in H. destruct (f <? 0); [done|]. apply (Hf (o, t)). apply elem_of_list_In. by eapply elem_of_list_lookup_2.
        * destruct (_ =? _); [|done]. destruct u; [|done]. injection H as <-. by apply Hu.
      + destruct (list_get fields f) as [[o t]|] eqn:E; [|done]. injection H as <-. pose proof (wf_union T any_trait _ _ _ _ Ht) as (Hf & _).
        unfold list_get in E. destruct (f <? 0); [done|]. rewrite List.Forall_forall in Hf. apply (Hf (o, t)). apply elem_of_list_In. by eapply elem_of_list_lookup_2.
    - intros p e IHp IHe ty H Hg. cbn [place_check_wf] in H. apply obind_ret in H as (t & H1 & H). apply obind_ret in H as (t2 & H2 & H). apply obind_ret in H as ([] & _ & H).
      assert (Ht : wfT t) by (eapply IHp; [done|eapply gap_child; [exact Hg|constructor]]).
      destruct t; try done; injection H as <-.
      + by apply (wf_array T any_trait _ _ Ht).
      + by apply (wf_slice T any_trait _ Ht).
    - intros p d IH ty H Hg. cbn [place_check_wf] in H. apply obind_ret in H as (t & H1 & H).
      assert (Ht : wfT t) by (eapply IH; [done|eapply gap_child; [exact Hg|constructor]]).
      destruct t as [| | | | | | |vs dty discr s a|]; try done. destruct (map_get vs d) as [[t tg]|] eqn:E; [|done]. injection H as <-.
      pose proof (wf_enum T any_trait _ _ _ _ _ Ht) as (Hf & _). rewrite List.Forall_forall in Hf. apply (Hf (d, (t, tg))). by apply map_get_in.
  Qed.
End Static.

Lemma x86_64_std : target_std x86_64.
Proof.
  split; [..|intros it H; by apply with_overflow_wf_x86_64]; vm_compute; reflexivity.
Qed.
