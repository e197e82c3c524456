(** Consistency of layouts (C43, C44, C46). *)
From Verif Require Export ReprTy3.
From Coq Require Import ZifyBool ZifyN ZifyNat.

(** The address range (relative to the start of the type) of each part of a type. *)
Inductive part (T : Target) : Ty -> Offset -> Ty -> Prop :=
| pt_field fields head u o t : In (o, t) fields -> part T (TTuple fields head u) o t
| pt_union fields chunks size align o t : In (o, t) fields -> part T (TUnion fields chunks size align) o t
| pt_elem elem count i s : 0 <= i < count -> size_of T elem = Ret s ->
    part T (TArray elem count) (Z.to_N i * s) elem
| pt_variant variants dty discr size align d t tg : In (d, (t, tg)) variants ->
    part T (TEnum variants dty discr size align) 0 t.

Section Layout.
  Variable T : Target.

  Theorem layout_sized_ok ht ty s a :
    target_ok T -> ty_check_wf T ht ty = Ret tt -> layout T ty = Ret (LSized s a) ->
    (s mod align_bytes a = 0)%N /\ Z.of_N s <= 2 ^ (8 * Z.of_N (PTR_SIZE T) - 1) - 1.
  Proof.
    intros Tok Hwf Hl. assert (sized T ty) as Hs by (red; eauto).
    pose proof (sized_layout T ty Hs) as Hl'. rewrite Hl in Hl'. injection Hl' as -> ->.
    destruct (wf_sized_valid T ht ty Hwf Hs) as [Hv Hm]. split; [done|].
    apply (tok_valid T Tok) in Hv. apply in_bounds_spec in Hv. unfold int_max in Hv.
    destruct (N.eqb_spec (PTR_SIZE T) 0) as [Hz|]; [|unfold size_bits in Hv; lia].
    exfalso. by eapply ptr_size_pos.
  Qed.

  Theorem part_inside ht ty s a o t :
    ty_check_wf T ht ty = Ret tt -> layout T ty = Ret (LSized s a) -> part T ty o t ->
    exists s' a', layout T t = Ret (LSized s' a') /\ (o + s' <= s)%N.
  Proof.
    intros Hwf Hl Hp. destruct Hp as [fields head u o t Hin|fields chunks size align o t Hin
      |elem count i s0 Hi Hs0|variants dty discr size align d t tg Hin].
    - pose proof Hwf as (Hfs & _ & _ & Hu & _)%wf_tuple.
      pose proof (in_fields_Forall _ _ _ Hfs Hin) as (_ & Hst & Hfit). simpl in *.
      destruct u as [u|]; [destruct (layout T u); discriminate|].
      destruct (tuple_size T ht _ _ _ Hwf eq_refl) as [Hts Hend].
      unfold tsize, size_of in Hend. simpl in Hl. injection Hl as <- <-. simpl in Hend.
      exists (tsize T t), (talign T t). split; [by apply sized_layout|]. lia.
    - apply wf_union in Hwf as (Hfs & _).
      pose proof (in_fields_Forall _ _ _ Hfs Hin) as (_ & Hst & Hfit). simpl in *.
      injection Hl as <- <-. exists (tsize T t), (talign T t). split; [by apply sized_layout|]. done.
    - pose proof Hwf as (Hc & _ & Hse & Hsa & Htot)%wf_array.
      rewrite (sized_layout T _ Hsa) in Hl. injection Hl as <- <-.
      exists (tsize T elem), (talign T elem). split; [by apply sized_layout|].
      rewrite (sized_tsize T _ Hse) in Hs0. injection Hs0 as <-. nia.
    - apply wf_enum in Hwf as (Hvs & _).
      pose proof (in_fields_Forall _ _ _ Hvs Hin) as (_ & _ & Hst & Hsz & _). simpl in *.
      injection Hl as <- <-. exists (tsize T t), (talign T t). split; [by apply sized_layout|]. lia.
  Qed.

  Theorem fields_disjoint ht fields head u i j o1 t1 o2 t2 s1 s2 :
    ty_check_wf T ht (TTuple fields head u) = Ret tt ->
    fields !! i = Some (o1, t1) -> fields !! j = Some (o2, t2) -> i <> j ->
    size_of T t1 = Ret s1 -> size_of T t2 = Ret s2 ->
    (o1 + s1 <= o2 \/ o2 + s2 <= o1)%N.
  Proof.
    intros Hwf Hi Hj Hne Hs1 Hs2. pose proof Hwf as (_ & Hdis & _)%wf_tuple.
    assert (forall i j f g, (i < j)%nat -> fields !! i = Some f -> fields !! j = Some g ->
      rdisj (frange T f) (frange T g)) as H.
    { clear -Hdis. induction Hdis as [|x l Hx Hl IH]; intros i j f g Hij Hi Hj; [discriminate|].
      destruct i as [|i], j as [|j]; try lia; simpl in *.
      - injection Hi as ->. rewrite Forall_lookup in Hx. by eapply Hx.
      - eapply IH; [|done|done]. lia. }
    apply size_of_tsize in Hs1, Hs2.
    destruct (decide (i < j)%nat).
    - specialize (H i j _ _ l Hi Hj). unfold rdisj, frange in H. simpl in H. lia.
    - assert (j < i)%nat as l by lia. specialize (H j i _ _ l Hj Hi).
      unfold rdisj, frange in H. simpl in H. lia.
  Qed.

  (** ** Unsized values *)

  Context {P : Type}.

  (** The metadata [m] is suitable for a layout: a non-negative count for a slice tail, a vtable with
      consistent size and alignment for a trait object tail. *)
  Fixpoint meta_fits (vt : ThinPtr P -> Outcome VTable) (l : LayoutStrategy) (m : option (PtrMeta P))
    : Prop :=
    match l with
    | LSized _ _ => m = None
    | LSlice _ _ => exists c, m = Some (MElementCount c) /\ 0 <= c
    | LTraitObject _ => exists p v, m = Some (MVTablePointer p) /\ vt p = Ret v /\
                         (vt_size v mod align_bytes (vt_align v) = 0)%N
    | LTuple _ tail => m <> None /\ meta_fits vt tail m
    end.

  Lemma align_max_mult a b n :
    (n mod align_bytes (align_max a b) = 0)%N ->
    (n mod align_bytes a = 0)%N /\ (n mod align_bytes b = 0)%N.
  Proof.
    intros Hn.
    assert (align_le a (align_max a b) = true) as Ha by (unfold align_le, align_max; simpl; lia).
    assert (align_le b (align_max a b) = true) as Hb by (unfold align_le, align_max; simpl; lia).
    pose proof (align_bytes_pos a). pose proof (align_bytes_pos b).
    pose proof (align_bytes_pos (align_max a b)).
    split; (eapply N_mod_mod_divide; [| |exact Hn|by apply align_le_divides]); lia.
  Qed.

  Theorem compute_size_and_align_ok vt l (m : option (PtrMeta P)) :
    layout_check_aligned l = Ret tt -> meta_fits vt l m ->
    exists s a, compute_size_and_align l m vt = Ret (s, a) /\ (s mod align_bytes a = 0)%N.
  Proof.
    induction l as [s a|s a|tn|h tail IH]; intros Hal Hm; simpl in *.
    - subst. apply ensure_wf_ret in Hal. exists s, a. split; [done|]. lia.
    - destruct Hm as (c & -> & Hc). apply ensure_wf_ret in Hal. unfold size_mul, size_from_bytes.
      destruct (Z.ltb_spec (Z.of_N s * c) 0); [lia|]. simpl. eexists _, _. split; [done|].
      replace (Z.to_N (Z.of_N s * c)) with (Z.to_N c * s)%N by lia.
      pose proof (align_bytes_pos a).
      rewrite N.mul_mod, (proj1 (N.eqb_eq _ _) Hal), N.mul_0_r by lia. apply N.mod_0_l. lia.
    - destruct Hm as (p & v & -> & -> & Hv). simpl. eauto.
    - destruct Hm as [Hn Hm]. destruct m as [m|]; [|done].
      destruct (IH Hal Hm) as (s & a & Hc & Hs). rewrite Hc. simpl. eexists _, _. split; [done|].
      apply align_to_spec.
  Qed.

  (** The tail of an unsized tuple lies inside, behind the head, at an offset that respects the
      tail's alignment as far as the packing allows. *)
  Theorem tail_inside h tail (m : PtrMeta P) vt s a st at_ :
    compute_size_and_align (LTuple h tail) (Some m) vt = Ret (s, a) ->
    compute_size_and_align tail (Some m) vt = Ret (st, at_) ->
    let off := tail_offset h at_ in
    (th_end h <= off /\ off + st <= s /\ off mod align_bytes (capped_tail_align h at_) = 0 /\
     align_bytes (capped_tail_align h at_) <= align_bytes at_)%N /\
    (s mod align_bytes (th_align h) = 0)%N /\
    (s mod align_bytes (capped_tail_align h at_) = 0)%N /\
    (th_packed h = None -> capped_tail_align h at_ = at_).
  Proof.
    intros H Ht. simpl in H. rewrite Ht in H. simpl in H. injection H as <- <-.
    unfold tail_offset.
    destruct (align_to_spec (th_end h) (capped_tail_align h at_)) as (H1 & H2 & _).
    destruct (align_to_spec (align_to (th_end h) (capped_tail_align h at_) + st)
                (align_max (capped_tail_align h at_) (th_align h))) as (H3 & H4 & _).
    apply align_max_mult in H4 as [H4 H5]. repeat split; auto.
    - unfold capped_tail_align. destruct (th_packed h) as [p|]; [|lia].
      apply align_le_bytes. unfold align_le, align_min. simpl. lia.
    - unfold capped_tail_align. by intros ->.
  Qed.

  Lemma align_to_mono s s' a : (s <= s')%N -> (align_to s a <= align_to s' a)%N.
  Proof.
    intros H. apply align_to_least; destruct (align_to_spec s' a) as (? & ? & _); [lia|done].
  Qed.

  Theorem compute_size_mono vt l c c' s a s' a' :
    c <= c' ->
    compute_size_and_align l (Some (MElementCount (P := P) c)) vt = Ret (s, a) ->
    compute_size_and_align l (Some (MElementCount c')) vt = Ret (s', a') ->
    (s <= s')%N /\ a = a'.
  Proof.
    intros Hc. revert s a s' a'. induction l as [z b|z b|tn|h tail IH]; intros s a s' a' H H'; simpl in *;
      try discriminate.
    - unfold size_mul, size_from_bytes in *.
      destruct (Z.ltb_spec (Z.of_N z * c) 0); [discriminate|].
      destruct (Z.ltb_spec (Z.of_N z * c') 0); [discriminate|]. simpl in *.
      injection H as <- <-. injection H' as <- <-. split; [nia|done].
    - apply obind_ret in H as ([t b] & Ht & H). apply obind_ret in H' as ([t' b'] & Ht' & H').
      destruct (IH _ _ _ _ Ht Ht') as [Hle <-]. unfold full_size_and_align in *.
      injection H as <- <-. injection H' as <- <-. split; [|done]. apply align_to_mono. lia.
  Qed.

  (** A slice of [n] elements is as large and as aligned as the array of [n] elements. *)
  Theorem slice_size_is_array_size vt ht elem n s a :
    ty_check_wf T ht (TArray elem n) = Ret tt -> layout T (TArray elem n) = Ret (LSized s a) ->
    exists l, layout T (TSlice elem) = Ret l /\
      compute_size_and_align l (Some (MElementCount (P := P) n)) vt = Ret (s, a).
  Proof.
    intros Hwf Hl. pose proof Hwf as (Hc & _ & Hse & Hsa & Htot)%wf_array. simpl in *.
    rewrite (sized_layout T _ Hse) in Hl |- *. simpl in *.
    apply obind_ret in Hl as (s' & Hs & Hl). injection Hl as <- <-.
    eexists. split; [done|]. simpl. by rewrite Hs.
  Qed.

  (** ** The pair type of overflow-reporting operators *)

  Lemma tuple_wf_eq ht fields head unsized :
    ty_check_wf T ht (TTuple fields head unsized) =
    (let! _ :=
      (let checked := List.map (fun f => (fst f, (ty_check_wf T ht (snd f), snd f))) fields in
       let sorted := sort_by_key fst checked in
       let! last_end := fold_m (fun last_end f =>
           let! _ := fst (snd f) in
           let! _ := ensure_wf (last_end <=? fst f)%N "Type::Tuple: overlapping fields" in
           let! l := layout T (snd (snd f)) in
           let! _ := ensure_wf (is_sized l) "Type::Tuple: unsized field type in head" in
           let! s := expect_size l in
           Ret (fst f + s)%N) sorted 0%N in
       let! _ := match unsized with
                 | Some u =>
                     let! _ := ty_check_wf T ht u in
                     let! l := layout T u in
                     ensure_wf (negb (is_sized l)) "Type::Tuple: sized unsized field type"
                 | None => Ret tt
                 end in
       let! _ := head_check_wf T head in
       let! _ := ensure_wf (last_end <=? th_end head)%N
                   "Type::Tuple: size of fields is bigger than the end of the sized head" in
       match th_packed head with
       | Some _ => ensure_wf (bool_decide (is_Some unsized))
                     "Type::Tuple: meaningless packed align for sized tuple"
       | None => Ret tt
       end) in
    final_check_wf T ht (TTuple fields head unsized)).
  Proof. reflexivity. Qed.

  Theorem with_overflow_wf ht it t :
    is_power_of_two (it_size it) = true -> with_overflow T it = Ret t ->
    (forall a, int_align T it = Ret a -> valid_size T (it_size it + align_bytes a) = true) ->
    valid_size T (it_size it) = true -> valid_size T 1 = true ->
    ty_check_wf T ht t = Ret tt.
  Proof.
    intros Hp Ht Hv Hvs Hv1. destruct (int_layout T it Hp) as (a & Ha & Hla).
    unfold with_overflow in Ht. rewrite Ha in Ht. simpl in Ht. injection Ht as <-.
    specialize (Hv a Ha). cbn [layout] in Hla.
    pose proof (pow2_nonzero _ Hp) as Hnz. pose proof (align_bytes_pos a) as Hpos.
    assert ((it_size it mod align_bytes a = 0)%N) as Hma.
    { pose proof Ha as Ha'. unfold int_align in Ha'. apply obind_ret in Ha' as (nat & Hnat & Ha').
      injection Ha' as <-. apply unwrap_ret, align_from_bytes_some in Hnat. rewrite <- Hnat at 1.
      apply align_le_divides. unfold align_le, align_min. simpl. lia. }
    assert (((it_size it + align_bytes a) mod align_bytes a = 0)%N) as Hm2.
    { rewrite N.add_mod, Hma, N.mod_same by lia. apply N.mod_0_l. lia. }
    assert (ty_check_wf T ht (TInt it) = Ret tt) as Hwi.
    { cbn [ty_check_wf]. unfold inttype_check_wf. rewrite Hp. cbn [ensure_wf obind].
      unfold final_check_wf. cbn [layout]. rewrite Ha. cbn [obind layout_check_wf]. rewrite Hvs.
      cbn [ensure_wf obind layout_check_aligned]. rewrite Hma. done. }
    assert (ty_check_wf T ht TBool = Ret tt) as Hwb.
    { cbn [ty_check_wf obind]. unfold final_check_wf. cbn [layout obind layout_check_wf]. by rewrite Hv1. }
    rewrite tuple_wf_eq. cbn [List.map fst snd]. rewrite Hwi, Hwb.
    unfold sort_by_key. cbn [fold_right insert_by_key fst].
    replace (0 <=? it_size it)%N with true by lia.
    cbn [fold_m fst snd]. cbn [obind]. replace (0 <=? 0)%N with true by lia. cbn [ensure_wf obind].
    cbn [layout]. rewrite Ha. cbn [obind is_sized ensure_wf expect_size].
    replace (0 + it_size it <=? it_size it)%N with true by lia.
    cbn [obind is_sized ensure_wf expect_size fold_m].
    unfold head_check_wf. cbn [th_end th_packed]. rewrite Hv. cbn [ensure_wf obind].
    replace (it_size it + 1 <=? it_size it + align_bytes a)%N with true by lia.
    cbn [ensure_wf obind]. unfold final_check_wf.
    cbn [layout head_size_and_align th_end th_align obind]. rewrite (align_to_id _ _ Hm2).
    cbn [layout_check_wf]. rewrite Hv. cbn [ensure_wf obind layout_check_aligned]. rewrite Hm2. done.
  Qed.

  (** and every value pair is well-formed at it *)
  Theorem with_overflow_value env it t (v : Z) (b : bool) `{EqDecision P} :
    with_overflow T it = Ret t -> in_bounds (it_signed it) (it_size it) v = true ->
    check_value T env t (VTuple [VInt v; VBool b] : Value P) = Ret tt.
  Proof.
    intros Ht Hv. unfold with_overflow in Ht. apply obind_ret in Ht as (a & _ & Ht). injection Ht as <-.
    cbn [check_value length Nat.eqb ensure_else_ub obind for_each2 fst snd].
    unfold can_represent. by rewrite Hv.
  Qed.
End Layout.

(** On x86_64 the pair type of every well-formed integer type is well-formed. *)
Theorem with_overflow_wf_x86_64 ht it :
  ty_check_wf x86_64 ht (TInt it) = Ret tt ->
  exists t, with_overflow x86_64 it = Ret t /\ ty_check_wf x86_64 ht t = Ret tt.
Proof.
  intros Hwf. pose proof (wf_int _ _ _ Hwf) as Hp.
  destruct (int_layout x86_64 it Hp) as (a & Ha & Hl).
  assert (with_overflow x86_64 it = Ret (TTuple [(0%N, TInt it); (it_size it, TBool)]
    (mkHead (it_size it + align_bytes a) a None) None)) as Hw.
  { unfold with_overflow. by rewrite Ha. }
  eexists. split; [exact Hw|].
  destruct (wf_sized_valid x86_64 ht _ Hwf) as [Hv _]; [red; eauto|].
  rewrite (wf_ptr_sized_int _ _ _ Hwf) in Hv.
  eapply with_overflow_wf; [exact Hp|exact Hw| |exact Hv|done].
  intros a' Ha'. rewrite Ha in Ha'. injection Ha' as <-.
  change (in_bounds Signed 8 (Z.of_N (it_size it)) = true) in Hv.
  change (in_bounds Signed 8 (Z.of_N (it_size it + align_bytes a)) = true).
  apply in_bounds_spec in Hv. apply in_bounds_spec.
  change (int_max Signed 8) with (2 ^ 63 - 1) in *. change (int_min Signed 8) with (- 2 ^ 63) in *.
  unfold int_align in Ha. apply obind_ret in Ha as (nat & Hnat & Ha). injection Ha as <-.
  apply unwrap_ret, align_from_bytes_some in Hnat.
  assert (align_bytes (align_min nat (INT_MAX_ALIGN x86_64)) <= align_bytes (INT_MAX_ALIGN x86_64))%N as Hle.
  { apply align_le_bytes. unfold align_le, align_min. simpl. lia. }
  assert (align_bytes (INT_MAX_ALIGN x86_64) = 16)%N as H16 by done.
  assert (align_log2 nat < 63)%N as Hlog.
  { unfold align_bytes in Hnat. apply (N.pow_lt_mono_r_iff 2); [lia|].
    assert (2 ^ 63 = 9223372036854775808)%N as -> by done. lia. }
  assert (it_size it <= 2 ^ 62)%N as Hs.
  { rewrite <- Hnat. unfold align_bytes. apply N.pow_le_mono_r; lia. }
  assert (2 ^ 62 = 4611686018427387904)%N as H62 by done.
  change (INT_MAX_ALIGN x86_64) with (mkAlign 4) in *. lia.
Qed.
