(** Further facts about representations: integer bytes, provenance of decoded pointers, and that the
    validity check never crashes. *)
From Verif Require Export ReprTy3.
From Coq Require Import ZifyBool ZifyN ZifyNat.

(** ** Integer bytes *)

Lemma le_encode_lookup n i k b :
  le_encode n i !! k = Some b -> Z_of_byte b = (i / 256 ^ Z.of_nat k) mod 256.
Proof.
  revert i k. induction n as [|n IH]; intros i [|k]; simpl; try done.
  - intros [= <-]. rewrite Z_of_byte_of_Z. change (256 ^ Z.of_nat 0) with 1. by rewrite Z.div_1_r.
  - intros H. rewrite (IH _ _ H). rewrite Zdiv_Zdiv by lia.
    replace (Z.of_nat (S k)) with (1 + Z.of_nat k) by lia. by rewrite Z.pow_add_r by lia.
Qed.

Lemma endian_encode_byte sg s i l k b :
  endian_encode LittleEndian sg s i = Some l -> l !! k = Some b ->
  Z_of_byte b = (i / 256 ^ Z.of_nat k) mod 256.
Proof.
  unfold endian_encode. destruct (in_bounds sg s i); [|discriminate]. intros [= <-].
  apply le_encode_lookup.
Qed.

Lemma endian_encode_big sg s i :
  endian_encode BigEndian sg s i = option_map (@List.rev byte) (endian_encode LittleEndian sg s i).
Proof.
  unfold endian_encode. destruct (in_bounds sg s i); [|done]. simpl. f_equal. symmetry.
  unfold reverse. apply List.rev_alt.
Qed.

Lemma endian_encode_range e sg s i :
  s <> 0%N ->
  ((exists l, endian_encode e sg s i = Some l) <->
   match sg with
   | Unsigned => 0 <= i < 2 ^ (8 * Z.of_N s)
   | Signed => - 2 ^ (8 * Z.of_N s - 1) <= i < 2 ^ (8 * Z.of_N s - 1)
   end).
Proof.
  intros Hs. rewrite <- endian_encode_some. unfold in_bounds, size_bits.
  destruct (N.eqb_spec s 0); [done|]. destruct sg; lia.
Qed.

Section More.
  Context {P : Type} `{EqDecision P}.
  Variable T : Target.

  Notation AB := (AByte P).
  Notation Val := (Value P).

  (** ** Integers ignore provenance *)
  Definition strip (b : AB) : AB :=
    match b with Uninit => Uninit | Init d _ => Init d None end.

  Lemma bytes_data_strip (l : list AB) : bytes_data (List.map strip l) = bytes_data l.
  Proof. induction l as [|[|d f] l IH]; simpl; [done|done|]. by rewrite IH. Qed.

  Lemma decode_int_strip it (l : list AB) :
    decode T (TInt it) (List.map strip l) = decode T (TInt it) l.
  Proof.
    simpl. unfold decode_int, decode_int_opt. by rewrite map_length, bytes_data_strip.
  Qed.

  Lemma decode_raw_prov (Tok : target_ok T) (l : list AB) p :
    decode T (TPtr (PRaw MKNone)) l = Ret (Some (VPtr p)) ->
    p_meta p = None /\
    forall pr, tp_prov (p_thin p) = Some pr <->
      forall i x, l !! i = Some x -> ab_frag x = Some (mkFrag pr (Z.of_nat i)).
  Proof.
    cbn [decode]. intros Hd. apply (decode_pointer_inv T Tok) in Hd as [(_ & q & Hq & [= ->])|(Hw & _)].
    - split; [done|]. by apply (decode_ptr_prov T).
    - discriminate.
  Qed.

  (** ** The validity check does not crash *)

  Lemma ok_or_ub_bind {A B} (m : Outcome A) (f : A -> Outcome B) :
    ok_or_ub m -> (forall a, m = Ret a -> ok_or_ub (f a)) -> ok_or_ub (obind m f).
  Proof.
    intros [[a ->]|[msg ->]] Hf; [by apply Hf|]. right. by exists msg.
  Qed.
  Lemma ok_or_ub_ensure b msg : ok_or_ub (ensure_else_ub b msg).
  Proof. destruct b; [left; by eexists|right; by eexists]. Qed.
  Lemma ok_or_ub_ret {A} (a : A) : ok_or_ub (Ret a).
  Proof. left. by eexists. Qed.

  Lemma is_ok_ok {A} (o : Outcome A) : ok_or_ub o -> exists b, is_ok o = Ret b.
  Proof. intros [[a ->]|[m ->]]; simpl; eauto. Qed.

  (** metadata of the right kind *)
  Fixpoint layout_meta_ok (env : ChkEnv P) (l : LayoutStrategy) (m : option (PtrMeta P)) : Prop :=
    match l with
    | LSized _ _ => m = None
    | LSlice _ _ => exists c, m = Some (MElementCount c) /\ 0 <= c
    | LTraitObject _ => exists p vt, m = Some (MVTablePointer p) /\ ce_vtable_lookup env p = Ret vt
    | LTuple _ tail => m <> None /\ layout_meta_ok env tail m
    end.

  Lemma compute_size_and_align_total env l m :
    layout_meta_ok env l m -> exists s a, compute_size_and_align l m (ce_vtable_lookup env) = Ret (s, a).
  Proof.
    induction l as [s a|s a|tn|h tail IH]; simpl.
    - intros ->. eauto.
    - intros (c & -> & Hc). unfold size_mul, size_from_bytes.
      destruct (Z.ltb_spec (Z.of_N s * c) 0); [lia|]. simpl. eauto.
    - intros (p & vt & -> & ->). simpl. eauto.
    - intros [Hm Ht]. destruct m as [m|]; [|done]. destruct (IH Ht) as (s & a & ->). simpl.
      destruct (full_size_and_align h s a) eqn:E. eauto.
  Qed.

  Lemma check_ptr_metadata_ok (env : ChkEnv P) m mk :
    env_sound env -> ok_or_ub (check_ptr_metadata T env m mk).
  Proof.
    intros (_ & Hv & _). destruct m as [[c|p]|], mk; simpl; try apply ok_or_ub_ensure;
      try (right; by eexists); try (left; by eexists).
    unfold check_vtable_ptr. apply ok_or_ub_bind; [apply ok_or_ub_ensure|]. intros _ _.
    apply ok_or_ub_bind; [apply Hv|]. intros. apply ok_or_ub_ensure.
  Qed.

  Lemma layout_meta_from_check ht (env : ChkEnv P) l m :
    env_sound env -> layout_check_wf T ht l = Ret tt ->
    check_ptr_metadata T env m (layout_meta_kind l) = Ret tt -> layout_meta_ok env l m.
  Proof.
    intros (_ & _ & Hl). induction l as [s a|s a|tn|h tail IH]; intros Hwf Hc.
    - destruct m as [[c|p]|]; simpl in *; try discriminate. done.
    - destruct m as [[c|p]|]; simpl in *; try discriminate.
      apply ensure_else_ub_ret in Hc. apply in_bounds_spec in Hc.
      unfold int_min in Hc; simpl in Hc. exists c. split; [done|].
      destruct (PTR_SIZE T =? 0)%N; lia.
    - destruct m as [[c|p]|]; simpl in *; try discriminate.
      unfold check_vtable_ptr in Hc. apply obind_ret in Hc as (_ & _ & Hc).
      apply obind_ret in Hc as (vt & Hvt & _). exists p, vt. split; [done|]. by apply Hl.
    - cbn [layout_check_wf] in Hwf. apply obind_ret in Hwf as (_ & _ & Hwf).
      apply obind_ret in Hwf as ([] & Hwt & Hsz). apply ensure_wf_ret in Hsz.
      cbn [layout_meta_ok]. cbn [layout_meta_kind] in Hc. specialize (IH Hwt Hc). split; [|done].
      destruct tail; simpl in *; [discriminate| | |].
      + by destruct IH as (? & -> & _).
      + by destruct IH as (? & ? & -> & _).
      + tauto.
  Qed.

  Lemma check_ptr_ok ht (env : ChkEnv P) p pt :
    env_sound env -> ptrtype_check_wf T ht pt = Ret tt -> ok_or_ub (check_ptr T env p pt).
  Proof.
    intros He Hwf. unfold check_ptr. apply ok_or_ub_bind; [apply ok_or_ub_ensure|]. intros _ _.
    apply ok_or_ub_bind; [by apply check_ptr_metadata_ok|]. intros [] Hmeta.
    destruct (safe_pointee pt) as [pi|] eqn:Hpi.
    - assert (layout_check_wf T ht (pi_layout pi) = Ret tt /\ ptr_meta_kind pt = layout_meta_kind (pi_layout pi))
        as [Hlw Hk].
      { destruct pt; simpl in *; try discriminate; injection Hpi as ->; split; try done;
        unfold pointee_check_wf in Hwf; by apply obind_ret in Hwf as ([] & ? & _). }
      rewrite Hk in Hmeta. pose proof (layout_meta_from_check ht env _ _ He Hlw Hmeta) as Hm.
      destruct (compute_size_and_align_total env _ _ Hm) as (s & a & Hsa).
      unfold compute_size, compute_align. rewrite Hsa. cbn [obind].
      do 4 (apply ok_or_ub_bind; [apply ok_or_ub_ensure|]; intros _ _).
      destruct (is_ok_ok (ce_deref env (p_thin p) s)) as [b ->]; [apply He|].
      cbn [obind]. apply ok_or_ub_ensure.
    - destruct pt; try apply ok_or_ub_ret. apply ok_or_ub_bind; [apply He|].
      intros. apply ok_or_ub_ensure.
  Qed.

  Lemma for_each_ok {A} (f : A -> Outcome unit) l :
    (forall x, In x l -> ok_or_ub (f x)) -> ok_or_ub (for_each f l).
  Proof.
    induction l as [|x l IH]; intros H; simpl; [apply ok_or_ub_ret|].
    apply ok_or_ub_bind; [apply H; by left|]. intros _ _. apply IH. intros. apply H. by right.
  Qed.
  Lemma for_each2_ok {A B} (f : A -> B -> Outcome unit) l1 l2 :
    Forall2 (fun x y => ok_or_ub (f x y)) l1 l2 -> ok_or_ub (for_each2 f l1 l2).
  Proof.
    induction 1; simpl; [apply ok_or_ub_ret|]. apply ok_or_ub_bind; [done|]. done.
  Qed.

  Theorem check_value_ok ht env ty (v : Val) :
    env_sound env -> ty_check_wf T ht ty = Ret tt -> shape T ty v -> ok_or_ub (check_value T env ty v).
  Proof.
    intros He. revert v.
    induction ty as [it| |pt|fields head u IHf IHu|elem count IHe|elem IHe|fields chunks size align IHf
                    |variants dty discr size align IHv|tn] using Ty_ind'; intros v Hwf Hs.
    - apply shape_int in Hs as (i & -> & Hi). apply ok_or_ub_ensure.
    - apply shape_bool in Hs as (b & ->). apply ok_or_ub_ret.
    - apply shape_ptr in Hs as (p & -> & _). cbn [check_value]. eapply check_ptr_ok; [done|].
      cbn [ty_check_wf] in Hwf. apply obind_ret in Hwf as ([] & Hwf & _). exact Hwf.
    - pose proof Hwf as (Hfs & _)%wf_tuple.
      apply shape_tuple in Hs as (-> & vals & -> & HF). cbn [check_value].
      apply ok_or_ub_bind; [apply ok_or_ub_ensure|]. intros _ _. apply for_each2_ok.
      clear -IHf Hfs HF. revert Hfs IHf.
      induction HF as [|f v fs vs Hfv HF IH]; intros Hfs IHf; constructor.
      + inversion Hfs; inversion IHf; subst. simpl in *. apply H5; [|done]. tauto.
      + inversion Hfs; inversion IHf; subst. by apply IH.
    - pose proof Hwf as (_ & Hwe & _)%wf_array.
      apply shape_array in Hs as (vals & -> & Hl & HF). cbn [check_value].
      apply ok_or_ub_bind; [apply ok_or_ub_ensure|]. intros _ _. apply for_each_ok.
      intros x Hx. apply IHe; [done|]. rewrite List.Forall_forall in HF. by apply HF.
    - inversion Hs.
    - apply shape_union in Hs as (data & -> & HF). cbn [check_value].
      apply ok_or_ub_bind; [apply ok_or_ub_ensure|]. intros _ _. apply for_each2_ok.
      eapply Forall2_impl; [exact HF|]. intros. apply ok_or_ub_ensure.
    - pose proof Hwf as (HFv & _)%wf_enum.
      apply shape_enum in Hs as (d & t & tg & v' & -> & Hg & Hv). cbn [check_value].
      rewrite map_get_with_spec, Hg. simpl. apply map_get_in in Hg.
      rewrite List.Forall_forall in IHv. apply (IHv _ Hg); [|done].
      rewrite List.Forall_forall in HFv. apply HFv in Hg. simpl in Hg. tauto.
    - inversion Hs.
  Qed.

  (** ** Transmute *)

  Theorem transmute_valid (Tok : target_ok T) ht env (v : Val) t1 t2 s :
    env_sound env -> ty_check_wf T ht t1 = Ret tt -> ty_check_wf T ht t2 = Ret tt ->
    size_of T t1 = Ret s -> size_of T t2 = Ret s -> check_value T env t1 v = Ret tt ->
    (forall w, transmute T env v t1 t2 = Ret w <->
       exists bytes, encode T t1 v = Ret bytes /\ decode T t2 bytes = Ret (Some w) /\
                     check_value T env t2 w = Ret tt) /\
    (is_ub (transmute T env v t1 t2) <->
       ~ exists bytes w, encode T t1 v = Ret bytes /\ decode T t2 bytes = Ret (Some w) /\
                     check_value T env t2 w = Ret tt).
  Proof.
    intros He H1 H2 Hs1 Hs2 Hc.
    destruct (transmute_spec T Tok ht env v t1 t2 H1 H2) as (bytes & Hb & o & Ho & Ht); try done.
    { apply sized_size; eauto. } { apply sized_size; eauto. }
    { rewrite (size_of_tsize T _ _ Hs1), (size_of_tsize T _ _ Hs2). done. }
    rewrite Ht. destruct o as [w|].
    - pose proof (decode_shape T Tok ht _ _ _ H2 Ho) as Hsh.
      destruct (check_value_ok ht env t2 w He H2 Hsh) as [[[] Hok]|[msg Hub]].
      + rewrite Hok. simpl. split.
        * intros w'. split; [intros [= <-]; eauto|]. intros (b' & Hb' & Hd' & _). congruence.
        * split; [intros [? [=]]|]. intros Hn. exfalso. apply Hn. eauto.
      + rewrite Hub. simpl. split.
        * intros w'. split; [done|]. intros (b' & Hb' & Hd' & Hc'). congruence.
        * split; [|by eexists]. intros _ (b' & w' & Hb' & Hd' & Hc'). congruence.
    - split.
      + intros w'. split; [done|]. intros (b' & Hb' & Hd' & Hc'). congruence.
      + split; [|by eexists]. intros _ (b' & w' & Hb' & Hd' & Hc'). congruence.
  Qed.

  Theorem transmute_same (Tok : target_ok T) ht env (v : Val) ty s :
    ty_check_wf T ht ty = Ret tt -> coherent T (P := P) ty -> size_of T ty = Ret s ->
    check_value T env ty v = Ret tt -> transmute T env v ty ty = Ret v.
  Proof.
    intros Hwf Hco Hs Hc.
    destruct (transmute_spec T Tok ht env v ty ty Hwf Hwf) as (bytes & Hb & o & Ho & ->); try done.
    { apply sized_size; eauto. } { apply sized_size; eauto. }
    rewrite (decode_encode T Tok ht env ty v bytes Hwf Hco Hc Hb) in Ho. injection Ho as <-.
    by rewrite Hc.
  Qed.
End More.
