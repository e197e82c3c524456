(** The call compatibility check decides [abi_same], which is an equivalence that preserves layouts. *)
From Verif Require Export AbiSpec Step WfTypesProofs.
From Verif Require Import EnumsProofs ReprTy.

(** ** Which types *)

Lemma wf_arg_type T ht ty : ty_check_wf T ht ty = Ret tt -> sized T ty -> maps_ok ty -> arg_type ty.
Proof.
  induction ty as [it| |pt|fields head u IHf IHu|elem count IHe|elem IHe|fields chunks size align IHf
      |variants dty discr size align IHv|tn] using Ty_ind'; intros Hwf Hs Hm.
  - constructor.
  - constructor.
  - constructor.
  - apply wf_tuple in Hwf as (Hf & _ & _ & Hu & _). destruct u as [u|].
    { destruct Hs as (s & a & Hl). cbn in Hl. apply obind_ret in Hl as (l & _ & Hl). discriminate. }
    constructor. inversion Hm as [| | |? ? ? Hm1 _| | | | |]; subst. clear -IHf Hf Hm1.
    rewrite List.Forall_forall in *. intros x Hx. apply (IHf x Hx); [apply (Hf x Hx)..|exact (Hm1 x Hx)].
  - apply wf_array in Hwf as (_ & H1 & H2 & _). constructor. inversion Hm; subst. auto.
  - destruct Hs as (s & a & Hl). cbn in Hl. apply obind_ret in Hl as (l & _ & Hl).
    apply obind_ret in Hl as (? & _ & Hl). apply obind_ret in Hl as (? & _ & Hl). discriminate.
  - apply wf_union in Hwf as (Hf & _). constructor. inversion Hm as [| | | | | |? ? ? ? Hm1| |]; subst. clear -IHf Hf Hm1.
    rewrite List.Forall_forall in *. intros x Hx. apply (IHf x Hx); [apply (Hf x Hx)..|exact (Hm1 x Hx)].
  - apply wf_enum in Hwf as (Hf & _). inversion Hm as [| | | | | | |? ? ? ? ? Hm1 Hn|]; subst. constructor; [|done].
    clear -IHv Hf Hm1. rewrite List.Forall_forall in *.
    intros x Hx. apply (IHv x Hx); [apply (Hf x Hx)..|exact (Hm1 x Hx)].
  - destruct Hs as (s & a & Hl). discriminate.
Qed.

(** ** An equivalence *)

Section Fields.
  Variable f : list (Offset * Ty).
  Notation same := (fun a b : Offset * Ty => fst a = fst b /\ abi_same (snd a) (snd b)).
  Lemma fields_refl : Forall (fun x => arg_type (snd x) -> abi_same (snd x) (snd x)) f ->
    Forall (fun x => arg_type (snd x)) f -> Forall2 same f f.
  Proof. induction 1 as [|x l Hx _ IH]; intros Ha; inversion Ha; subst; constructor; auto. Qed.
  Lemma fields_sym g : Forall (fun x => forall b, abi_same (snd x) b -> abi_same b (snd x)) f ->
    Forall2 same f g -> Forall2 same g f.
  Proof.
    intros HF H. induction H as [|x y l1 l2 [H1 H2] _ IH]; constructor.
    - split; [done|]. apply List.Forall_inv in HF. auto.
    - apply IH. by apply List.Forall_inv_tail in HF.
  Qed.
  Lemma fields_trans g h : Forall (fun x => forall b c, abi_same (snd x) b -> abi_same b c -> abi_same (snd x) c) f ->
    Forall2 same f g -> Forall2 same g h -> Forall2 same f h.
  Proof.
    intros HF H. revert h. induction H as [|x y l1 l2 [H1 H2] _ IH]; intros h Hh; inversion Hh as [|? z ? ? [H3 H4] Hh']; subst; constructor.
    - split; [congruence|]. apply List.Forall_inv in HF. eauto.
    - apply IH; [|done]. by apply List.Forall_inv_tail in HF.
  Qed.
End Fields.

Lemma arg_refl ty : arg_type ty -> abi_same ty ty.
Proof.
  induction ty as [it| |pt|fields head u IHf IHu|elem count IHe|elem IHe|fields chunks size align IHf
      |variants dty discr size align IHv|tn] using Ty_ind'; intros Ha.
  - constructor.
  - constructor.
  - by constructor.
  - inversion Ha; subst. constructor; [by apply fields_refl|done..].
  - inversion Ha; subst. constructor; auto.
  - inversion Ha.
  - inversion Ha; subst. constructor. by apply fields_refl.
  - inversion Ha as [| | | | | |? ? ? ? ? HF Hn]; subst. constructor; [done| |].
    + intros x t1 g1 t2 g2 H1 H2. apply map_get_nodup in H1; [|done]. apply map_get_nodup in H2; [|done]. congruence.
    + intros x t1 g1 t2 g2 H1 H2. pose proof H1 as Hin. apply map_get_nodup in H1; [|done]. apply map_get_nodup in H2; [|done].
      assert (t2 = t1) as -> by congruence. rewrite List.Forall_forall in IHv, HF. apply (IHv _ Hin). exact (HF _ Hin).
  - inversion Ha.
Qed.

Lemma abi_sym a b : abi_same a b -> abi_same b a.
Proof.
  revert b. induction a as [it| |pt|fields head u IHf IHu|elem count IHe|elem IHe|fields chunks size align IHf
      |variants dty discr size align IHv|tn] using Ty_ind'; intros b H.
  - inversion H; subst. constructor.
  - inversion H; subst. constructor.
  - inversion H; subst. by constructor.
  - inversion H; subst. constructor; [by apply fields_sym|done..].
  - inversion H; subst. constructor; auto.
  - inversion H.
  - inversion H; subst. constructor. by apply fields_sym.
  - inversion H as [| | | | | |? v2 ? ? ? ? Hk Hg Ht]; subst. constructor.
    + intros x. by symmetry.
    + intros x t1 g1 t2 g2 H1 H2. symmetry. eauto.
    + intros x t1 g1 t2 g2 H1 H2. rewrite List.Forall_forall in IHv. apply (IHv _ H2). eauto.
  - inversion H.
Qed.

Lemma abi_trans a b c : abi_same a b -> abi_same b c -> abi_same a c.
Proof.
  revert b c. induction a as [it| |pt|fields head u IHf IHu|elem count IHe|elem IHe|fields chunks size align IHf
      |variants dty discr size align IHv|tn] using Ty_ind'; intros b c H1 H2.
  - by inversion H1; subst.
  - by inversion H1; subst.
  - inversion H1; subst. inversion H2; subst. constructor. congruence.
  - inversion H1; subst. inversion H2; subst. constructor; [by eapply fields_trans|congruence..].
  - inversion H1; subst. inversion H2; subst. constructor. eauto.
  - inversion H1.
  - inversion H1; subst. inversion H2; subst. constructor. by eapply fields_trans.
  - inversion H1 as [| | | | | |? v2 ? ? ? ? Hk Hg Ht]; subst. inversion H2 as [| | | | | |? v3 ? ? ? ? Hk2 Hg2 Ht2]; subst.
    assert (Hmid : forall x t1 g1, In (x, (t1, g1)) variants -> exists t g, In (x, (t, g)) v2).
    { intros x t1 g1 Ha. assert (In x (List.map fst v2)) as Hx. { apply Hk. apply in_map_iff. by exists (x, (t1, g1)). }
      apply in_map_iff in Hx as ([x' [t3 g3]] & <- & Hx). eauto. }
    constructor.
    + intros x. etransitivity; eauto.
    + intros x t1 g1 t2 g2 Ha Hb. destruct (Hmid _ _ _ Ha) as (t3 & g3 & Hx). transitivity g3; eauto.
    + intros x t1 g1 t2 g2 Ha Hb. destruct (Hmid _ _ _ Ha) as (t3 & g3 & Hx).
      rewrite List.Forall_forall in IHv. apply (IHv _ Ha t3); eauto.
  - inversion H1.
Qed.

Lemma abi_layout T a b : abi_same a b -> layout T a = layout T b.
Proof.
  revert b. induction a as [it| |pt|fields head u IHf IHu|elem count IHe|elem IHe|fields chunks size align IHf
      |variants dty discr size align IHv|tn] using Ty_ind'; intros b H; inversion H as [| |? ? Hm|? ? ? ? Hf Hs Ha|? ? ? He|? ? ? ? ? Hf|]; subst; cbn; try done.
  - by rewrite Hm.
  - by rewrite Hs, Ha.
  - by erewrite IHe.
Qed.

(** ** The check decides it *)

Lemma all2_decides {A B} (f : A -> B -> Outcome bool) (R : A -> B -> Prop) l1 l2 :
  length l1 = length l2 ->
  Forall (fun x => forall y, In y l2 -> exists r, f x y = Ret r /\ (r = true <-> R x y)) l1 ->
  exists r, all2_m f l1 l2 = Ret r /\ (r = true <-> Forall2 R l1 l2).
Proof.
  revert l2. induction l1 as [|x l1 IH]; intros [|y l2] Hl HF; try done.
  - exists true. split; [done|]. split; [constructor|done].
  - pose proof (List.Forall_inv HF y (or_introl eq_refl)) as (r & E & Hr). apply List.Forall_inv_tail in HF. cbn. rewrite E. cbn.
    destruct r.
    + destruct (IH l2) as (r & E2 & Hr2); [by injection Hl|eapply List.Forall_impl; [|exact HF]; intros z Hz w Hw; apply Hz; by right|].
      exists r. split; [done|]. rewrite Hr2. split; [constructor; [by apply Hr|done]|by inversion 1].
    + exists false. split; [done|]. split; [done|]. inversion 1; subst. by apply Hr.
Qed.

Lemma all_decides {A} (f : A -> Outcome bool) (R : A -> Prop) l :
  Forall (fun x => exists r, f x = Ret r /\ (r = true <-> R x)) l ->
  exists r, all_m f l = Ret r /\ (r = true <-> Forall R l).
Proof.
  induction 1 as [|x l (r & E & Hr) HF IH]; [exists true; split; [done|]; split; [constructor|done]|].
  cbn. rewrite E. cbn. destruct r.
  - destruct IH as (r & E2 & Hr2). exists r. split; [done|]. rewrite Hr2.
    split; [constructor; [by apply Hr|done]|by inversion 1].
  - exists false. split; [done|]. split; [done|]. inversion 1; subst. by apply Hr.
Qed.

(** an inclusion between lists of keys of the same length is an equality *)
Lemma keys_incl {A} (l1 l2 : list A) : NoDup l1 -> length l1 = length l2 ->
  (forall x, In x l1 -> In x l2) -> forall x, In x l2 -> In x l1.
Proof.
  intros Hn Hl Hi. apply NoDup_length_incl; [by apply NoDup_ListNoDup|lia|exact Hi].
Qed.

Lemma abi_decides a b : arg_type a -> arg_type b ->
  exists r, check_abi_compatibility a b = Ret r /\ (r = true <-> abi_same a b).
Proof.
  revert b. induction a as [it| |pt|fields head u IHf IHu|elem count IHe|elem IHe|fields chunks size align IHf
      |variants dty discr size align IHv|tn] using Ty_ind'; intros b Ha Hb;
    (destruct b as [it2| |pt2|fields2 head2 u2|elem2 count2|elem2|fields2 chunks2 size2 align2
      |variants2 dty2 discr2 size2 align2|tn2];
     try (exists false; split; [reflexivity|]; split; [done|]; intros H; by inversion H)); cbn [check_abi_compatibility].
  - exists (bool_decide (it = it2)). split; [done|]. rewrite bool_decide_eq_true.
    split; [intros ->; constructor|by inversion 1].
  - exists true. split; [done|]. split; [constructor|done].
  - eexists. split; [done|]. rewrite bool_decide_eq_true. split; [by constructor|by inversion 1].
  - assert (u = None) as -> by (by inversion Ha). assert (u2 = None) as -> by (by inversion Hb).
    cbn [head_size_and_align assert_ obind]. inversion Ha as [| | |? ? Ha1| | |]; subst. inversion Hb as [| | |? ? Hb1| | |]; subst.
    destruct (Nat.eqb_spec (length fields) (length fields2)) as [El|El]; cbn [negb].
    2: { exists false. split; [done|]. split; [done|]. intros H. exfalso. apply El. inversion H; subst. by eapply Forall2_length. }
    edestruct (all2_decides (fun c1 c2 => if (fst c1 =? fst c2)%N then check_abi_compatibility (snd c1) (snd c2) else Ret false)
      (fun a b => fst a = fst b /\ abi_same (snd a) (snd b)) fields fields2 El) as (r & E & Hr).
    { rewrite List.Forall_forall in *. intros x Hx y Hy. destruct (N.eqb_spec (fst x) (fst y)) as [E|E].
      - destruct (IHf x Hx (snd y)) as (r & E1 & Hr); [by apply Ha1|by apply Hb1|]. exists r. split; [done|]. rewrite Hr. tauto.
      - exists false. split; [done|]. split; [done|]. by intros []. }
    rewrite E. eexists. split; [reflexivity|]. rewrite !andb_true_iff, Hr, N.eqb_eq, bool_decide_eq_true. split.
    + intros [[H1 H2] H3]. by constructor.
    + inversion 1; subst. done.
  - inversion Ha; subst. inversion Hb; subst. destruct (IHe elem2) as (r & E & Hr); [done..|]. rewrite E. cbn [obind].
    eexists. split; [reflexivity|]. rewrite andb_true_iff, Z.eqb_eq, Hr. split; [intros [He ->]; by constructor|by inversion 1].
  - inversion Ha as [| | | | |? ? ? ? Ha1|]; subst. inversion Hb as [| | | | |? ? ? ? Hb1|]; subst.
    destruct (Nat.eqb_spec (length fields) (length fields2)) as [El|El]; cbn [negb].
    2: { exists false. split; [done|]. split; [done|]. intros H. exfalso. apply El. inversion H; subst. by eapply Forall2_length. }
    edestruct (all2_decides (fun c1 c2 => if (fst c1 =? fst c2)%N then check_abi_compatibility (snd c1) (snd c2) else Ret false)
      (fun a b => fst a = fst b /\ abi_same (snd a) (snd b)) fields fields2 El) as (r & E & Hr).
    { rewrite List.Forall_forall in *. intros x Hx y Hy. destruct (N.eqb_spec (fst x) (fst y)) as [E|E].
      - destruct (IHf x Hx (snd y)) as (r & E1 & Hr); [by apply Ha1|by apply Hb1|]. exists r. split; [done|]. rewrite Hr. tauto.
      - exists false. split; [done|]. split; [done|]. by intros []. }
    rewrite E. eexists. split; [reflexivity|]. rewrite !andb_true_iff, Hr, N.eqb_eq, !bool_decide_eq_true. split.
    + intros [[[H1 ->] ->] ->]. by constructor.
    + inversion 1; subst. done.
  - inversion Ha as [| | | | | |? ? ? ? ? Ha1 Hn1]; subst. inversion Hb as [| | | | | |? ? ? ? ? Hb1 Hn2]; subst.
    assert (Hlen : abi_same (TEnum variants dty discr size align) (TEnum variants2 dty2 discr2 size2 align2) ->
      length variants = length variants2).
    { intros H. inversion H as [| | | | | |? ? ? ? ? ? Hk]; subst. rewrite <-(List.map_length fst variants), <-(List.map_length fst variants2).
      apply Nat.le_antisymm; apply NoDup_incl_length; try (by apply NoDup_ListNoDup); intros x; apply Hk. }
    destruct (Nat.eqb_spec (length variants) (length variants2)) as [El|El]; cbn [negb].
    2: { exists false. split; [done|]. split; [done|]. intros H. destruct El. by apply Hlen. }
    clear Hlen.
    edestruct (all_decides (fun var : Z * (Ty * Tagger) => match map_get variants2 (fst var) with
            | None => Ret false
            | Some var2 =>
                let! b := check_abi_compatibility (fst (snd var)) (fst var2) in
                Ret (b && bool_decide (snd (snd var) = snd var2))
            end)
      (fun var => exists t2, In (fst var, (t2, snd (snd var))) variants2 /\ abi_same (fst (snd var)) t2) variants) as (r & E & Hr).
    { rewrite List.Forall_forall in *. intros [x [t1 g1]] Hx. cbn [fst snd].
      destruct (map_get variants2 x) as [[t2 g2]|] eqn:Eg.
      - pose proof (map_get_in _ _ _ Eg) as Hin. cbn [fst snd].
        destruct (IHv _ Hx t2) as (r & E1 & Hr); [exact (Ha1 _ Hx)|exact (Hb1 _ Hin)|]. cbn in E1, Hr. rewrite E1. cbn [obind].
        eexists. split; [reflexivity|]. rewrite andb_true_iff, bool_decide_eq_true, Hr. split.
        + intros [H1 ->]. eauto.
        + intros (t3 & H1 & H2). apply map_get_nodup in H1; [|done]. rewrite Eg in H1. injection H1 as -> ->. done.
      - exists false. split; [done|]. split; [done|]. intros (t3 & H1 & _). apply map_get_nodup in H1; [|done]. congruence. }
    rewrite E. eexists. split; [reflexivity|]. rewrite !andb_true_iff, Hr, N.eqb_eq, !bool_decide_eq_true.
    rewrite List.Forall_forall. split.
    + intros ((((H1 & ->) & ->) & ->) & ->).
      assert (Hincl : forall x, In x (List.map fst variants) -> In x (List.map fst variants2)).
      { intros x Hx. apply in_map_iff in Hx as ([x' [t1 g1]] & <- & Hx). destruct (H1 _ Hx) as (t2 & H2 & _).
        apply in_map_iff. by exists (x', (t2, g1)). }
      constructor.
      * intros x. split; [apply Hincl|]. apply keys_incl; [done|by rewrite !List.map_length|exact Hincl].
      * intros x t1 g1 t2 g2 Hx Hy. destruct (H1 _ Hx) as (t3 & H2 & _). cbn in H2.
        apply map_get_nodup in H2; [|done]. apply map_get_nodup in Hy; [|done]. congruence.
      * intros x t1 g1 t2 g2 Hx Hy. destruct (H1 _ Hx) as (t3 & H2 & H3). cbn in H2, H3.
        apply map_get_nodup in H2; [|done]. apply map_get_nodup in Hy; [|done]. congruence.
    + intros H. inversion H as [| | | | | |? ? ? ? ? ? Hk Hg Ht]; subst. repeat split. intros [x [t1 g1]] Hx. cbn.
      assert (In x (List.map fst variants2)) as Hy. { apply Hk. apply in_map_iff. by exists (x, (t1, g1)). }
      apply in_map_iff in Hy as ([x' [t2 g2]] & <- & Hy). cbn in *. exists t2. split; [|eauto].
      assert (g1 = g2) as -> by eauto. done.
Qed.
