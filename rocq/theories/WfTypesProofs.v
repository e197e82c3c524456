(** What the well-formedness check of types guarantees. *)
From Verif Require Export Types WfTypes WriteAll.
From Coq Require Import ZifyBool ZifyN ZifyNat.

Lemma ensure_wf_ret b msg u : ensure_wf b msg = Ret u -> b = true.
Proof. unfold ensure_wf. destruct b; [done|discriminate]. Qed.

Lemma expect_size_ret l s : expect_size l = Ret s -> exists a, l = LSized s a.
Proof. destruct l; simpl; try discriminate. intros [= ->]. eauto. Qed.

Ltac inv_wf1 :=
  match goal with
  | H : ensure_wf _ _ = Ret _ |- _ => apply ensure_wf_ret in H
  | H : expect_size ?l = Ret _ |- _ =>
      let a := fresh "a" in apply expect_size_ret in H; destruct H as [a H]; try subst l
  end.
Ltac inv ::= repeat (inv1 || inv_wf1).

(** The laws that the parameters of a target have to satisfy (they are implicit in the code:
    representation.md:165-166 asserts the first, and the size checks rely on the second). *)
Record target_ok (T : Target) : Prop := {
  tok_usize : int_align T (usize_ty T) = Ret (PTR_ALIGN T);
  tok_valid : forall s, valid_size T s = true -> in_bounds Signed (PTR_SIZE T) (Z.of_N s) = true;
}.

Lemma x86_64_ok : target_ok x86_64.
Proof. split; [reflexivity|]. intros s Hs. exact Hs. Qed.

Section Wf.
  Variable T : Target.
  Variable has_trait : TraitName -> bool.

  Notation wf := (ty_check_wf T has_trait).

  (** the size of a sized type; 0 for other types *)
  Definition tsize (ty : Ty) : N := match size_of T ty with Ret s => s | _ => 0%N end.
  Definition talign (ty : Ty) : Align := match align_of T ty with Ret a => a | _ => align_one end.

  (** a type with a known size *)
  Definition sized (ty : Ty) : Prop := exists s a, layout T ty = Ret (LSized s a).

  Lemma sized_size ty : sized ty <-> exists s, size_of T ty = Ret s.
  Proof.
    unfold sized, size_of. split.
    - intros (s & a & ->). eauto.
    - intros (s & H). inv. eauto.
  Qed.

  Lemma sized_tsize ty : sized ty -> size_of T ty = Ret (tsize ty).
  Proof. intros (s & ?)%sized_size. unfold tsize. by rewrite H. Qed.
  Lemma sized_talign ty : sized ty -> align_of T ty = Ret (talign ty).
  Proof. intros (s & a & H). unfold talign, align_of. by rewrite H. Qed.
  Lemma sized_layout ty : sized ty -> layout T ty = Ret (LSized (tsize ty) (talign ty)).
  Proof. intros (s & a & H). unfold talign, tsize, align_of, size_of. by rewrite H. Qed.

  Lemma size_of_tsize ty s : size_of T ty = Ret s -> tsize ty = s.
  Proof. unfold tsize. by intros ->. Qed.

  Lemma wf_layout ty :
    wf ty = Ret tt ->
    exists l, layout T ty = Ret l /\ layout_check_wf T has_trait l = Ret tt /\
              layout_check_aligned l = Ret tt /\ layout_meta_kind l = ty_meta_kind ty.
  Proof.
    intros H. destruct ty; cbn [ty_check_wf] in H; apply obind_ret in H as (u & _ & H);
      unfold final_check_wf in H; inv;
      match goal with H : bool_decide _ = true |- _ => apply bool_decide_eq_true in H end; eauto.
  Qed.

  Lemma wf_sized_valid ty :
    wf ty = Ret tt -> sized ty ->
    valid_size T (tsize ty) = true /\ (tsize ty mod align_bytes (talign ty) = 0)%N.
  Proof.
    intros (l & Hl & Hw & Ha & _)%wf_layout Hs. rewrite (sized_layout ty Hs) in Hl.
    inv. subst. simpl in *. inv. split; [done|]. by apply N.eqb_eq.
  Qed.

  (** *** Integers *)
  Lemma pow2_align n : is_power_of_two n = true -> exists a, align_from_bytes n = Some a.
  Proof. unfold align_from_bytes. intros ->. eauto. Qed.

  Lemma wf_int it : wf (TInt it) = Ret tt -> is_power_of_two (it_size it) = true.
  Proof. simpl. unfold inttype_check_wf. intros H. inv. done. Qed.

  Lemma int_layout it :
    is_power_of_two (it_size it) = true ->
    exists a, int_align T it = Ret a /\ layout T (TInt it) = Ret (LSized (it_size it) a).
  Proof.
    intros [a Ha]%pow2_align. simpl. unfold int_align. rewrite Ha. simpl. eauto.
  Qed.

  Lemma pow2_nonzero n : is_power_of_two n = true -> n <> 0%N.
  Proof. unfold is_power_of_two. intros H ->. done. Qed.

  (** *** Tuples *)
  Definition frange (f : Offset * Ty) : N * N := (fst f, tsize (snd f)).

  Lemma wf_tuple fields head unsized :
    wf (TTuple fields head unsized) = Ret tt ->
    Forall (fun f => wf (snd f) = Ret tt /\ sized (snd f) /\
                     (fst f + tsize (snd f) <= th_end head)%N) fields /\
    ForallOrdPairs (fun f g => rdisj (frange f) (frange g)) fields /\
    valid_size T (th_end head) = true /\
    (forall u, unsized = Some u -> wf u = Ret tt /\ ~ sized u) /\
    (unsized = None -> th_packed head = None).
  Proof.
    simpl. intros H. apply obind_ret in H as (u0 & H & _).
    apply obind_ret in H as (last_end & Hscan & H). inv.
    set (checked := List.map _ fields) in Hscan.
    assert (Hs : forall l e0 e1,
      fold_m (fun last_end f =>
              let! _ := fst (snd f) in
              let! _ := ensure_wf (last_end <=? fst f)%N "Type::Tuple: overlapping fields" in
              let! l := layout T (snd (snd f)) in
              let! _ := ensure_wf (is_sized l) "Type::Tuple: unsized field type in head" in
              let! s := expect_size l in
              Ret (fst f + s)%N) l e0 = Ret e1 ->
      Forall (fun f => fst (snd f) = Ret tt /\ sized (snd (snd f))) l /\
      fold_m (fun last x => if (last <=? fst x)%N then Ret (fst x + tsize (snd (snd x)))%N else Panic)
         l e0 = Ret e1).
    { clear. induction l as [|f l IH]; intros e0 e1 H; simpl in *; [split; [constructor|done]|].
      inv. subst. match goal with H : (_ <=? _)%N = true |- _ => rewrite H end. simpl.
      assert (sized (snd (snd f))) as Hsz by (red; eauto).
      assert (tsize (snd (snd f)) = x1) as ->.
      { unfold tsize, size_of. match goal with H : layout _ _ = _ |- _ => rewrite H end. done. }
      match goal with H : fold_m _ l _ = _ |- _ => apply IH in H as [HF HS] end.
      split; [|done]. constructor; auto. }
    apply Hs in Hscan as [HF Hscan]. apply ascending_scan in Hscan as (_ & Hb & Hd).
    pose proof (sort_by_key_perm fst checked) as Hp.
    rewrite Hp in HF, Hb.
    assert (Hd' : ForallOrdPairs (fun x y => rdisj (fst x, tsize (snd (snd x)))
             (fst y, tsize (snd (snd y)))) checked).
    { eapply ForallOrdPairs_perm; [intros ? ?; apply rdisj_sym|exact Hp|].
      eapply ForallOrdPairs_impl; [exact Hd|]. unfold rdisj; simpl; lia. }
    unfold checked in HF, Hb, Hd'.
    rewrite List.Forall_map in HF, Hb. rewrite ForallOrdPairs_map in Hd'. simpl in *.
    split; [|split; [|split; [|split]]].
    - pose proof (proj2 (Forall_and _ _) (conj HF Hb)) as Hall.
      eapply Forall_impl; [exact Hall|]. simpl. intros f [[? ?] [? ?]]. repeat split; auto.
      match goal with H : (_ <=? th_end head)%N = true |- _ => apply N.leb_le in H end. lia.
    - exact Hd'.
    - unfold head_check_wf in *. inv. done.
    - intros v ->. inv. split; [done|].
      intros (s & a & Hsz). rewrite Hsz in *. inv. subst. discriminate.
    - intros ->. destruct (th_packed head); [|done]. inv. done.
  Qed.

  Lemma tuple_size fields head unsized :
    wf (TTuple fields head unsized) = Ret tt -> unsized = None ->
    tsize (TTuple fields head unsized) = align_to (th_end head) (th_align head) /\
    (th_end head <= tsize (TTuple fields head unsized))%N.
  Proof.
    intros _ ->. unfold tsize, size_of; simpl. split; [done|].
    apply align_to_spec.
  Qed.

  Lemma tuple_sized fields head : sized (TTuple fields head None).
  Proof. red. simpl. eauto. Qed.

  (** *** Arrays and slices *)
  Lemma wf_array elem count :
    wf (TArray elem count) = Ret tt ->
    0 <= count /\ wf elem = Ret tt /\ sized elem /\ sized (TArray elem count) /\
    Z.of_N (tsize (TArray elem count)) = Z.of_N (tsize elem) * count.
  Proof.
    intros H. pose proof H as (l & Hl & _)%wf_layout.
    cbn [ty_check_wf] in H. apply obind_ret in H as (u & H & _). inv.
    match goal with H : is_sized ?x = true |- _ => destruct x; try discriminate end.
    assert (sized elem) as Hs by (red; eauto).
    split; [lia|]. split; [destruct u; done|]. split; [done|].
    cbn [layout] in Hl. rewrite (sized_layout _ Hs) in Hl. simpl in Hl. inv. subst.
    unfold size_mul in *. inv.
    unfold size_from_bytes in *.
    destruct (Z.ltb_spec (Z.of_N (tsize elem) * count) 0); [discriminate|]. inv. subst.
    assert (Hla : layout T (TArray elem count) =
      Ret (LSized (Z.to_N (Z.of_N (tsize elem) * count)) (talign elem))).
    { cbn [layout]. rewrite (sized_layout _ Hs). simpl. unfold size_mul, size_from_bytes.
      destruct (Z.ltb_spec (Z.of_N (tsize elem) * count) 0); [lia|]. done. }
    split; [red; eauto|]. unfold tsize at 1, size_of. rewrite Hla. simpl. lia.
  Qed.

  Lemma wf_slice elem :
    wf (TSlice elem) = Ret tt -> wf elem = Ret tt /\ sized elem.
  Proof.
    intros H. cbn [ty_check_wf] in H. apply obind_ret in H as (u & H & _). inv.
    match goal with H : is_sized ?x = true |- _ => destruct x; try discriminate end.
    split; [destruct u; done|red; eauto].
  Qed.

  (** *** Unions *)
  Lemma ascending_check {A} (off sz : A -> N) (msg : string) l e0 e1 :
    fold_m (fun last x => let! _ := ensure_wf (last <=? off x)%N msg in Ret (off x + sz x)%N) l e0
      = Ret e1 ->
    (e0 <= e1)%N /\
    Forall (fun x => e0 <= off x /\ off x + sz x <= e1)%N l /\
    ForallOrdPairs (fun x y => off x + sz x <= off y)%N l.
  Proof. clear.
    intros H. apply ascending_scan. revert e0 H.
    induction l as [|x l IH]; intros e0; simpl; [done|]. intros H. inv.
    match goal with H : (_ <=? _)%N = true |- _ => rewrite H end. simpl. apply IH. subst. done.
  Qed.

  Lemma chunks_wf chunks size :
    chunks_check_wf chunks size = Ret tt ->
    Forall (fun c => fst c + snd c <= size)%N chunks /\
    ForallOrdPairs (fun c d => fst c + snd c <= fst d)%N chunks.
  Proof. clear.
    unfold chunks_check_wf. intros H. inv.
    match goal with H : fold_m _ _ _ = _ |- _ => apply ascending_check in H as (_ & HF & Hp) end.
    split; [|done]. eapply Forall_impl; [exact HF|]. simpl; lia.
  Qed.

  Lemma cells_wf cells size :
    check_cells cells size = Ret tt ->
    Forall (fun c => fst c + snd c <= size)%N cells /\
    ForallOrdPairs (fun c d => fst c + snd c <= fst d)%N cells.
  Proof. clear.
    unfold check_cells. intros H. inv.
    match goal with H : fold_m _ _ _ = _ |- _ => apply ascending_check in H as (_ & HF & Hp) end.
    split; [|done]. eapply Forall_impl; [exact HF|]. simpl; lia.
  Qed.

  Lemma union_sized fields chunks size align : sized (TUnion fields chunks size align).
  Proof. red. simpl. eauto. Qed.

  Lemma wf_union fields chunks size align :
    wf (TUnion fields chunks size align) = Ret tt ->
    Forall (fun f => wf (snd f) = Ret tt /\ sized (snd f) /\
                     (fst f + tsize (snd f) <= size)%N) fields /\
    Forall (fun c => fst c + snd c <= size)%N chunks /\
    ForallOrdPairs (fun c d => fst c + snd c <= fst d)%N chunks.
  Proof.
    intros H. cbn [ty_check_wf] in H. apply obind_ret in H as (u & H & _). inv.
    destruct u. match goal with H : chunks_check_wf _ _ = _ |- _ => apply chunks_wf in H end.
    split; [|done]. apply for_each_ret in H0. eapply Forall_impl; [exact H0|].
    simpl. intros f Hf. inv. split; [done|]. split; [red; eauto|].
    match goal with H : layout _ _ = _ |- _ =>
      unfold tsize, size_of; rewrite H end. simpl. lia.
  Qed.

  (** *** Enums *)
  Lemma enum_sized vs dty d size align : sized (TEnum vs dty d size align).
  Proof. red. simpl. eauto. Qed.

  Definition tagger_ok (size : Size) (e : Offset * (IntType * Z)) : Prop :=
    is_power_of_two (it_size (fst (snd e))) = true /\
    can_represent (fst (snd e)) (snd (snd e)) = true /\
    (fst e + it_size (fst (snd e)) <= size)%N.

  Lemma tagger_wf size tg : tagger_check_wf size tg = Ret tt -> Forall (tagger_ok size) tg.
  Proof. clear.
    unfold tagger_check_wf. rewrite for_each_ret. intros HF.
    eapply Forall_impl; [exact HF|]. intros e H. unfold inttype_check_wf in H. inv. split; [done|]. split; [done|]. lia.
  Qed.

  Lemma wf_enum vs dty d size align :
    wf (TEnum vs dty d size align) = Ret tt ->
    Forall (fun v => can_represent dty (fst v) = true /\ wf (fst (snd v)) = Ret tt /\
                     sized (fst (snd v)) /\ tsize (fst (snd v)) = size /\
                     align_le (talign (fst (snd v))) align = true /\
                     Forall (tagger_ok size) (snd (snd v))) vs /\
    discr_check_wf size vs d = Ret tt.
  Proof.
    intros H. cbn [ty_check_wf] in H. apply obind_ret in H as (u & H & _). inv.
    destruct u. split; [|done]. apply for_each_ret in H0. eapply Forall_impl; [exact H0|].
    simpl. intros v Hv. inv. match goal with H : match ?l with _ => _ end = _ |- _ => destruct l; try discriminate end. inv.
    assert (sized (fst (snd v))) as Hs by (red; eauto).
    pose proof (sized_layout _ Hs) as Hl.
    assert (size0 = tsize (fst (snd v)) /\ align0 = talign (fst (snd v))) as [-> ->]
      by (split; congruence).
    repeat split; auto; [lia|]. by apply tagger_wf.
  Qed.

  Lemma for_each_idx_ret {A} (f : nat -> A -> Outcome unit) i l :
    for_each_idx f i l = Ret tt -> forall j x, l !! j = Some x -> f (i + j)%nat x = Ret tt.
  Proof. clear.
    revert i. induction l as [|y l IH]; intros i H j x Hj; simpl in *; [done|]. inv.
    destruct j as [|j]; simpl in *.
    - inv. subst. rewrite Nat.add_0_r. done.
    - rewrite <- Nat.add_succ_comm. eapply IH; eauto.
  Qed.

  Lemma discr_wf_branch size vs off it fb ch :
    discr_check_wf size vs (DBranch off it fb ch) = Ret tt ->
    is_power_of_two (it_size it) = true /\ (off + it_size it <= size)%N /\
    discr_check_wf size vs fb = Ret tt /\
    Forall (fun c => discr_check_wf size vs (snd c) = Ret tt) ch.
  Proof. clear.
    simpl. unfold inttype_check_wf. intros H. inv. repeat split; auto; [lia|].
    match goal with H : for_each_idx _ _ _ = _ |- _ => pose proof (for_each_idx_ret _ _ _ H) as Hi end.
    apply Forall_lookup. intros j c Hc. apply Hi in Hc. simpl in Hc. inv. done.
  Qed.
End Wf.
