(** The translation of places, operands and rvalues means what the MIR means. *)
From Verif Require Export MiniRv MirMeans OpsProofs.
From Verif Require Import ExprProofs.
From Coq Require Import ZifyBool ZifyN ZifyNat.

(** ** Results of the translation *)
Definition rets {A} (o : Outcome A) (Q : A -> Prop) : Prop := match o with Ret a => Q a | _ => True end.
Lemma rets_bind {A B} (o : Outcome A) (k : A -> Outcome B) Q Q' : rets o Q -> (forall a, Q a -> rets (k a) Q') -> rets (obind o k) Q'.
Proof. destruct o; cbn; auto. Qed.
Lemma rets_fine {A} (o : Outcome A) Q : fine o Q -> rets o Q.
Proof. by destruct o. Qed.
Lemma rets_and {A} (o : Outcome A) Q Q' : rets o Q -> rets o Q' -> rets o (fun a => Q a /\ Q' a).
Proof. by destruct o. Qed.
Lemma rets_weak {A} (o : Outcome A) (Q Q' : A -> Prop) : rets o Q -> (forall a, Q a -> Q' a) -> rets o Q'.
Proof. destruct o; cbn; auto. Qed.
Lemma rets_ask {A B} (o : option A) (k : A -> Outcome B) Q : (forall a, o = Some a -> rets (k a) Q) -> rets (obind (ask o) k) Q.
Proof. destruct o; cbn; auto. Qed.
Lemma rets_unwrap {A B} (o : option A) (k : A -> Outcome B) Q : (forall a, o = Some a -> rets (k a) Q) -> rets (obind (unwrap o) k) Q.
Proof. destruct o; cbn; auto. Qed.
Lemma rets_map_st {A B C S} (f : S -> A -> Outcome (B * S)) (I : S -> Prop) (grow : S -> S -> Prop) (K : A -> C -> Prop) (W : S -> A -> B -> Prop) l ts s :
  (forall s, grow s s) -> (forall s1 s2 s3, grow s1 s2 -> grow s2 s3 -> grow s1 s3) ->
  (forall s s' t b, grow s s' -> W s t b -> W s' t b) ->
  (forall s a t, a ∈ l -> I s -> K a t -> rets (f s a) (fun r => I (snd r) /\ grow s (snd r) /\ W (snd r) a (fst r))) ->
  I s -> Forall2 K l ts -> rets (map_st f l s) (fun r => I (snd r) /\ grow s (snd r) /\ Forall2 (W (snd r)) l (fst r)).
Proof.
  intros Hrefl Htrans HW Hf HI Hl. revert s HI Hf. induction Hl as [|x t l ts Hx Hl IH]; intros s HI Hf; cbn [map_st].
  - cbn. by split_and!.
  - eapply rets_bind; [eapply Hf; [left|done|done]|]. intros [y s1] (HI1 & Hg1 & HW1). cbn [fst snd] in *.
    eapply rets_bind; [apply IH; [done|]; intros; eapply Hf; [by right|done|done]|]. intros [ys s2] (HI2 & Hg2 & HW2). cbn [fst snd] in *.
    cbn. split_and!; [done|by eapply Htrans|]. constructor; [by eapply HW|done].
Qed.

Lemma wraps_bits it bits : int_ok it -> wraps_to it bits (int_from_bits bits it).
Proof.
  intros Hs. split; [by apply fits_bounds, int_from_bits_fits|]. unfold int_from_bits.
  pose proof (pow_bits_pos (it_size it)). set (M := 2 ^ (8 * Z.of_N (it_size it))) in *.
  pose proof (Z.div_mod bits M ltac:(lia)). destruct (it_signed it); [|exists (bits / M); lia].
  destruct (2 * (bits mod M) <? M); [exists (bits / M); lia|exists (bits / M + 1); lia].
Qed.
Lemma wraps_bits_iff it bits x : int_ok it -> wraps_to it bits x <-> x = int_from_bits bits it.
Proof. intros Hs. split; [|intros ->; by apply wraps_bits]. intros H. eapply wraps_unique; [done..|]. by apply wraps_bits. Qed.
Lemma wraps_bring_iff it z x : int_ok it -> wraps_to it z x <-> x = int_bring_in_bounds it z.
Proof. intros Hs. split; [|intros ->; by apply wraps_bring]. intros H. eapply wraps_unique; [done..|]. by apply wraps_bring. Qed.

(** integers of types of positive size *)
Lemma fits_can it z : int_ok it -> can_represent it z = true <-> fits it z.
Proof. intros. symmetry. by apply fits_bounds. Qed.
Lemma trunc_unique x y q1 r1 q2 r2 : trunc_div x y q1 r1 -> trunc_div x y q2 r2 -> q1 = q2 /\ r1 = r2.
Proof.
  intros (E1 & A1 & P1 & N1) (E2 & A2 & P2 & N2).
  assert (Hd : Z.abs ((q1 - q2) * y) < Z.abs y).
  { replace ((q1 - q2) * y) with (r2 - r1) by lia. destruct (Z_le_gt_dec 0 x); lia. }
  rewrite Z.abs_mul in Hd. assert (Z.abs (q1 - q2) = 0) by nia. assert (q1 = q2) as -> by lia. split; [done|lia].
Qed.
Lemma trunc_quot x y q rem : trunc_div x y q rem <-> y <> 0 /\ q = Z.quot x y /\ rem = Z.rem x y.
Proof.
  assert (Ht : y <> 0 -> trunc_div x y (Z.quot x y) (Z.rem x y)).
  { intros H0. pose proof (Z.quot_rem' x y). pose proof (Z.rem_bound_abs x y H0).
    split_and!; [lia|lia| |].
    + intros. by apply Z.rem_nonneg.
    + intros. by apply Z.rem_nonpos. }
  split; [|by intros (H0 & -> & ->); apply Ht].
  intros H. assert (y <> 0) as H0 by (destruct H as (_ & Ha & _); lia). split; [done|]. by eapply trunc_unique; [|apply Ht].
Qed.
Lemma floor_unique x a q : 0 <= a -> q * 2 ^ a <= x < (q + 1) * 2 ^ a <-> q = Z.shiftr x a.
Proof.
  intros Ha. rewrite Z.shiftr_div_pow2 by done. assert (0 < 2 ^ a) by (apply Z.pow_pos_nonneg; lia).
  pose proof (Z.div_mod x (2 ^ a) ltac:(lia)). pose proof (Z.mod_pos_bound x (2 ^ a) ltac:(lia)). split; [nia|intros ->; nia].
Qed.
Lemma shift_amount bits y a : 0 < bits -> (0 <= a < bits /\ exists k, y = a + k * bits) <-> a = y mod bits.
Proof.
  intros Hb. pose proof (Z.div_mod y bits ltac:(lia)). pose proof (Z.mod_pos_bound y bits ltac:(lia)). split.
  - intros (Ha & k & E). assert (k = y / bits) by nia. nia.
  - intros ->. split; [done|]. exists (y / bits). lia.
Qed.

(** the operator of MiniRust for an operator of MIR *)
Definition int_binop_of (op : RBinOp) : option IntBinOp :=
  match op with
  | RoAdd => Some IAdd | RoSub => Some ISub | RoMul => Some IMul | RoDiv => Some IDiv | RoRem => Some IRem | RoShl => Some IShl | RoShr => Some IShr
  | RoBitAnd => Some IBitAnd | RoBitOr => Some IBitOr | RoBitXor => Some IBitXor | RoAddUnchecked => Some IAddUnchecked | RoSubUnchecked => Some ISubUnchecked
  | RoMulUnchecked => Some IMulUnchecked | RoShlUnchecked => Some IShlUnchecked | RoShrUnchecked => Some IShrUnchecked
  | _ => None
  end.
Lemma bits_lnot x w : (forall n, 0 <= n -> Z.testbit w n = negb (Z.testbit x n)) <-> w = Z.lnot x.
Proof. split; [|intros -> n Hn; by apply Z.lnot_spec]. intros H. apply Z.bits_inj'. intros n Hn. by rewrite H, Z.lnot_spec. Qed.
Lemma bits_land x y w : bit_by_bit andb x y w <-> w = Z.land x y.
Proof. split; [|intros -> n _; apply Z.land_spec]. intros H. apply Z.bits_inj'. intros n Hn. by rewrite H, Z.land_spec. Qed.
Lemma bits_lor x y w : bit_by_bit orb x y w <-> w = Z.lor x y.
Proof. split; [|intros -> n _; apply Z.lor_spec]. intros H. apply Z.bits_inj'. intros n Hn. by rewrite H, Z.lor_spec. Qed.
Lemma bits_lxor x y w : bit_by_bit xorb x y w <-> w = Z.lxor x y.
Proof. split; [|intros -> n _; apply Z.lxor_spec]. intros H. apply Z.bits_inj'. intros n Hn. by rewrite H, Z.lxor_spec. Qed.

Lemma int_math_sem it op op' x y z : int_ok it -> int_binop_of op = Some op' -> int_bin_op op' x y it = Ret z <-> int_math it op x y z.
Proof.
  intros Hs Hop. assert (Hb : 0 < 8 * Z.of_N (it_size it)) by (unfold int_ok in Hs; lia).
  assert (Hw : forall e, Ret (int_bring_in_bounds it e) = Ret z <-> wraps_to it e z).
  { intros e. rewrite wraps_bring_iff by done. split; [by intros [= <-]|by intros ->]. }
  assert (Hu : forall e msg, obind (if negb (can_represent it e) then throw_ub msg else Ret e) (fun r => Ret (int_bring_in_bounds it r)) = Ret z <-> fits it e /\ z = e).
  { intros e msg. destruct (can_represent it e) eqn:E; cbn [negb obind].
    - apply fits_can in E; [|done]. rewrite wraps_id by done. split; [by intros [= <-]|by intros [_ ->]].
    - split; [done|]. intros [Hf _]. apply bounds_fits in E; done. }
  destruct op; try discriminate Hop; injection Hop as <-; unfold int_bin_op; cbn [eval_int_bin_op].
  - cbn [obind]. rewrite Hw. split; [by constructor|by inversion 1].
  - cbn [obind]. rewrite Hw. split; [by constructor|by inversion 1].
  - cbn [obind]. rewrite Hw. split; [by constructor|by inversion 1].
  - destruct (Z.eqb_spec y 0) as [->|H0]; [split; [done|]; inversion 1 as [| | | | | |? ? ? ? Ht| | | | | | | |]; subst; by apply trunc_quot in Ht as [? _]|].
    rewrite Hu. split.
    + intros [Hf ->]. eapply (im_div _ _ _ _ (Z.rem x y)); [|done]. by apply trunc_quot.
    + inversion 1 as [| | | | | |? ? ? ? Ht| | | | | | | |]; subst. by apply trunc_quot in Ht as (_ & -> & _).
  - destruct (Z.eqb_spec y 0) as [->|H0]; [split; [done|]; inversion 1 as [| | | | | | |? ? ? ? ? Ht| | | | | | |]; subst; by apply trunc_quot in Ht as [? _]|].
    destruct (can_represent it (x ÷ y)) eqn:E; cbn [negb].
    + cbn [obind]. rewrite Hw. apply fits_can in E; [|done]. split.
      * intros Hz. eapply im_rem; [by apply trunc_quot|done..].
      * inversion 1 as [| | | | | | |? ? ? ? ? Ht| | | | | | |]; subst. by apply trunc_quot in Ht as (_ & _ & ->).
    + split; [done|]. apply bounds_fits in E; [|done]. inversion 1 as [| | | | | | |? ? ? ? ? Ht| | | | | | |]; subst. by apply trunc_quot in Ht as (_ & -> & _).
  - unfold size_bits. destruct (Z.eqb_spec (8 * Z.of_N (it_size it)) 0) as [?|_]; [lia|]. cbn [obind]. rewrite Hw.
    pose proof (Z.mod_pos_bound y (8 * Z.of_N (it_size it)) ltac:(lia)). rewrite Z.shiftl_mul_pow2 by lia. split.
    + intros Hz. pose proof (Z.div_mod y (8 * Z.of_N (it_size it)) ltac:(lia)). eapply im_shl; [| |done]; [done|]. instantiate (1 := y / (8 * Z.of_N (it_size it))). lia.
    + inversion 1 as [| | | | | | | | | | |? ? a k ? Ha Hk Hz| | |]; subst. enough (a = (a + k * (8 * Z.of_N (it_size it))) mod (8 * Z.of_N (it_size it))) as <- by done.
      apply shift_amount; [done|]. split; [done|eauto].
  - unfold size_bits. destruct (Z.eqb_spec (8 * Z.of_N (it_size it)) 0) as [?|_]; [lia|]. cbn [obind]. rewrite Hw.
    pose proof (Z.mod_pos_bound y (8 * Z.of_N (it_size it)) ltac:(lia)). split.
    + intros Hz. pose proof (Z.div_mod y (8 * Z.of_N (it_size it)) ltac:(lia)). eapply (im_shr _ _ _ (y mod (8 * Z.of_N (it_size it))) (y / (8 * Z.of_N (it_size it)))); [done| | |done]; [lia|].
      apply floor_unique; [lia|done].
    + inversion 1 as [| | | | | | | | | | | |? ? a k q ? Ha Hk Hq Hz| |]; subst. replace ((a + k * (8 * Z.of_N (it_size it))) mod (8 * Z.of_N (it_size it))) with a.
      * apply floor_unique in Hq as ->; [done|lia].
      * apply shift_amount; [done|]. split; [done|eauto].
  - cbn [obind]. rewrite Hw. split; [intros; eapply im_and; [by apply bits_land|done]|]. inversion 1 as [| | | | | | | |? ? w ? Hb'| | | | | |]; subst. by apply bits_land in Hb' as ->.
  - cbn [obind]. rewrite Hw. split; [intros; eapply im_or; [by apply bits_lor|done]|]. inversion 1 as [| | | | | | | | |? ? w ? Hb'| | | | |]; subst. by apply bits_lor in Hb' as ->.
  - cbn [obind]. rewrite Hw. split; [intros; eapply im_xor; [by apply bits_lxor|done]|]. inversion 1 as [| | | | | | | | | |? ? w ? Hb'| | | |]; subst. by apply bits_lxor in Hb' as ->.
  - rewrite Hu. split; [intros [Hf ->]; by constructor|by inversion 1].
  - rewrite Hu. split; [intros [Hf ->]; by constructor|by inversion 1].
  - rewrite Hu. split; [intros [Hf ->]; by constructor|by inversion 1].
  - unfold size_bits. destruct ((y <? 0) || (8 * Z.of_N (it_size it) <=? y)) eqn:E; cbn [obind throw_ub].
    + split; [done|]. inversion 1; subst. lia.
    + rewrite Hw, Z.shiftl_mul_pow2 by lia. split; [intros; constructor; [lia|done]|by inversion 1].
  - unfold size_bits. destruct ((y <? 0) || (8 * Z.of_N (it_size it) <=? y)) eqn:E; cbn [obind throw_ub].
    + split; [done|]. inversion 1; subst. lia.
    + rewrite Hw. split.
      * intros. eapply im_shr_unchecked; [lia| |done]. apply floor_unique; [lia|done].
      * inversion 1 as [| | | | | | | | | | | | | |? ? q ? Hy Hq Hz]; subst. apply floor_unique in Hq as ->; [done|lia].
Qed.

Section Sem.
  Context {PE AE F : Type} `{EqDecision (nat * PE)}.
  Notation P := (nat * PE)%type.
  Context (m : Machine P F (BMem PE AE)) (f : StackFrame P F) (Hf : top_frame m f).
  Context (R : Rustc) (HR : rustc_ok T R) (HD : discr_ok R) (fuel : nat) (Hfuel : enough R fuel) (B : RBody) (env : Env P).

  (** the environment knows what the state of the translation names *)
  Record cinterp (c : Cx) : Prop := {
    in_fn : forall i n, map_get (cx_fns c) i = Some n -> ev_fn env i = map_get (m_fnptrs m) n;
    in_vt : forall k n, map_get (cx_vtable_map c) k = Some n -> ev_vtable env k = map_get (m_vtptrs m) n;
    in_alloc : forall a n, map_get (cx_alloc_map c) a = Some n -> ev_alloc env a = map_get (m_globals m) n;
  }.
  Lemma cinterp_ext c c' : MiniWf.ext c c' -> cinterp c' -> cinterp c.
  Proof. intros [] []. split; auto. Qed.
  Record interp (s : Fcx) : Prop := {
    in_cx : cinterp (fx_cx s);
    in_local : forall l, (l < length (ro_locals B))%nat -> ev_local env l = map_get (f_locals f) (N.of_nat l);
    in_ty : forall n t, map_get (fx_locals s) n = Some t -> map_get (fn_locals (f_func f)) n = Some t;
  }.
  Lemma interp_grow X s s' : grow X s s' -> interp s' -> interp s.
  Proof. intros [Hx] []. split; eauto using cinterp_ext. Qed.
  Lemma interp_gcx s s' : gcx s s' -> interp s' -> interp s.
  Proof. intros Hg. eapply (interp_grow []). by apply gcx_grow. Qed.

  (** what an expression means, in states with such an environment *)
  Definition vsem (s : Fcx) (e : ValueExpr) (K : Value P -> Ty -> Prop) : Prop := interp s -> forall v t, value_means T m e v t <-> K v t.
  Definition psem (s : Fcx) (e : PlaceExpr) (K : Pointer P -> bool -> Ty -> Prop) : Prop := interp s -> forall p b t, place_means T m e p b t <-> K p b t.
  Lemma vsem_grow X s s' e K : grow X s s' -> vsem s e K -> vsem s' e K.
  Proof. intros Hg H Hi. apply H. by eapply interp_grow. Qed.
  Lemma psem_grow X s s' e K : grow X s s' -> psem s e K -> psem s' e K.
  Proof. intros Hg H Hi. apply H. by eapply interp_grow. Qed.
  Lemma vsem_gcx s s' e K : gcx s s' -> vsem s e K -> vsem s' e K.
  Proof. intros Hg. eapply (vsem_grow []). by apply gcx_grow. Qed.

  Lemma top_unique f' : top_frame m f' -> f' = f.
  Proof. destruct Hf as (t & r & Ht & Hs). intros (t' & r' & Ht' & Hs'). congruence. Qed.

  Lemma local_sem s l r t ptr b t' : iv R B s -> interp s -> ro_locals B !! l = Some r -> rc_ty R r = Some t ->
    place_means T m (PLocal (N.of_nat l)) ptr b t' <-> t' = t /\ b = true /\ exists q, ev_local env l = Some q /\ ptr = mkPtr q None.
  Proof.
    intros Hs Hi Hl Ht. destruct (iv_local _ _ _ Hs _ _ Hl) as (t1 & Ht1 & Hm). assert (t1 = t) as -> by congruence.
    rewrite (in_local _ Hi) by (by eapply lookup_lt_Some). pose proof (in_ty _ Hi _ _ Hm) as Hty. split.
    - inversion 1 as [l0 f' p ty Hf' Hp Hpt| | | |]; subst. apply top_unique in Hf' as ->. split_and!; [congruence|done|eauto].
    - intros (-> & -> & q & Hq & ->). by econstructor.
  Qed.

  Lemma field_at_ty t meta i off t' : field_at T m t meta (Z.of_nat i) off t' -> MirSpec.field_ty t i = Some t'.
  Proof.
    inversion 1 as [fields head u meta' j off' t0 Hj Hji|fields head t0 meta' s al c off' Hm Hc Ho Hji|fields ch s al meta' j off' t0 Hj Hji]; subst.
    - assert (j = i) as -> by lia. cbn [MirSpec.field_ty]. by rewrite Hj.
    - assert (i = length fields) as -> by lia. cbn [MirSpec.field_ty]. rewrite (lookup_ge_None_2 fields (length fields)) by lia. by rewrite Nat.eqb_refl.
    - assert (j = i) as -> by lia. cbn [MirSpec.field_ty]. by rewrite Hj.
  Qed.
  Lemma proj_typed p0 b0 x p p1 b1 r1 t1 y : proj_means T m R B env (p0, b0, fst x, snd x) p (p1, b1, r1, t1) -> proj_ok R B x p y -> y = (r1, t1).
  Proof.
    intros Hm Hp. destruct Hp as [r t i r' t' Hi Hr'|r pt r' t' Hd Hr' Hk|r el n l r' rl it Hel Hr' Hl Hrl|r el l r' rl it Hel Hr' Hl Hrl|
                                   r vs dty d sz al v bits it vt tg Hdi Hv|x y]; cbn [fst snd] in Hm; inversion Hm; subst; try congruence.
    - match goal with H : _ \/ _ |- _ => destruct H as [?|[? _]]; congruence end.
    - match goal with H : _ \/ _ |- _ => destruct H as [?|[? _]]; congruence end.
    - match goal with H : wraps_to _ _ _ |- _ => rename H into Hw end.
      match goal with H : rc_discr R _ _ = Some (?b, ?i) |- _ => assert (bits = b /\ it = i) as [-> ->] by (split; congruence) end.
      apply wraps_bits_iff in Hw as ->; [|by eapply HD]. congruence.
  Qed.

  Lemma proj_sem s x p y e (S : Pointer P -> bool -> Prop) : iv R B s -> interp s -> proj_ok R B x p y ->
    (forall ptr b t, place_means T m e ptr b t <-> t = snd x /\ S ptr b) ->
    rets (translate_proj R s (e, fst x) p) (fun r => snd r = fst y /\
      forall ptr b t, place_means T m (fst r) ptr b t <-> t = snd y /\ exists p0 b0, S p0 b0 /\ proj_means T m R B env (p0, b0, fst x, snd x) p (ptr, b, fst y, snd y)).
  Proof.
    intros Hs Hi Hp He. destruct Hp as [r t i r' t' Hfi Hr'|r pt r' t' Hd Hr' Hk|r el n l r' rl it Hel Hr' Hl Hrl|r el l r' rl it Hel Hr' Hl Hrl|
                                   r vs dty d sz al v bits it vt tg Hdi Hv|x y]; cbn [fst snd] in *; unfold translate_proj; cbn [proj_ty obind].
    - cbn. split; [done|]. intros ptr b ty. split.
      + inversion 1 as [| |p1 ptr1 b1 ty1 i1 off fty meta Hp1 Hfa Hr Hmeta| |]; subst. apply He in Hp1 as [-> HS].
        pose proof (field_at_ty _ _ _ _ _ Hfa) as Hft. assert (ty = t') as -> by congruence. split; [done|]. exists ptr1, b. split; [done|]. by econstructor.
      + intros (-> & p0 & b0 & HS & Hm). inversion Hm; subst. econstructor; [|done..]. by apply He.
    - rewrite Hd. cbn [unwrap obind]. rewrite Hr'. cbn. split; [done|]. intros ptr b ty. split.
      + inversion 1 as [|e1 ptr1 pt1 ty1 s1 al1 b1 Hv Hme Hal Hsp| | |]; subst.
        inversion Hv as [| | | | |p1 ptr2 ty2 v2 Hp1 Hh Hval| | |]; subst. apply He in Hp1 as [[= ->] HS]. split; [done|]. exists ptr2, true. split; [done|].
        by econstructor.
      + intros (-> & p0 & b0 & HS & Hm). inversion Hm as [|ptr0 r0 pt0 q r0' t0' s0 al0 b1 [Hh Hval] Hd0 Hr0 Hme Hal Hsp| |]; subst.
        econstructor; [|done..]. econstructor; [|done..]. by apply He.
    - rewrite Hel. cbn [unwrap obind]. rewrite (local_name_fine R B) by (try done; by eapply lookup_lt_Some). cbn. split; [done|]. intros ptr b ty. split.
      + inversion 1 as [| | |p1 ptr1 b1 ty1 e1 i ity elem count s1 Hp1 Hv Hty Hib Hsz Hre|]; subst. apply He in Hp1 as [-> HS].
        destruct Hty as [[= <- <-]|[? _]]; [|done].
        inversion Hv as [| | | | |p2 ptr2 ty2 v2 Hp2 Hh Hval| | |]; subst. apply (local_sem s l rl (TInt it)) in Hp2 as (-> & _ & q & Hq & ->); [|done..].
        split; [done|]. exists ptr1, b. split; [done|]. eapply pj_index; try done; by left.
      + intros (-> & p0 & b0 & HS & Hm). inversion Hm as [| |ptr0 b1 r0 t0 l0 rl0 it0 q i elem count s0 r0' Hl0 Hrl0 Hq [Hh Hval] Hty Hib Hsz Hre Hel0|]; subst.
        eapply pm_index; [by apply He| |done..]. econstructor; [|exact Hh|exact Hval].
        apply (local_sem s l rl (TInt it0)); [done|done|done|congruence|]. split_and!; [done..|]. by exists q.
    - rewrite Hel. cbn [unwrap obind]. rewrite (local_name_fine R B) by (try done; by eapply lookup_lt_Some). cbn. split; [done|]. intros ptr b ty. split.
      + inversion 1 as [| | |p1 ptr1 b1 ty1 e1 i ity elem count s1 Hp1 Hv Hty Hib Hsz Hre|]; subst. apply He in Hp1 as [-> HS].
        destruct Hty as [?|[[= <-] Hme]]; [done|].
        inversion Hv as [| | | | |p2 ptr2 ty2 v2 Hp2 Hh Hval| | |]; subst. apply (local_sem s l rl (TInt it)) in Hp2 as (-> & _ & q & Hq & ->); [|done..].
        split; [done|]. exists ptr1, b. split; [done|]. eapply pj_index; try done; by right.
      + intros (-> & p0 & b0 & HS & Hm). inversion Hm as [| |ptr0 b1 r0 t0 l0 rl0 it0 q i elem count s0 r0' Hl0 Hrl0 Hq [Hh Hval] Hty Hib Hsz Hre Hel0|]; subst.
        eapply pm_index; [by apply He| |done..]. econstructor; [|exact Hh|exact Hval].
        apply (local_sem s l rl (TInt it0)); [done|done|done|congruence|]. split_and!; [done..|]. by exists q.
    - unfold discriminant_for_variant. rewrite Hdi. cbn. split; [done|]. destruct (HD _ _ _ _ Hdi) as [Hok _]. intros ptr b ty. split.
      + inversion 1 as [| | | |p1 ptr1 b1 vs1 dty1 d1 s1 al1 k1 ty1 tg1 Hp1 Hk]; subst. apply He in Hp1 as [[= -> -> -> -> ->] HS].
        split; [congruence|]. exists ptr, b. split; [done|]. eapply pj_downcast; [done|by apply wraps_bits|done].
      + intros (-> & p0 & b0 & HS & Hm). inversion Hm as [| | |ptr0 b1 r0 vs0 dty0 d0 s0 al0 v0 bits0 it0 x0 t0 tg0 Hdi0 Hw Hg]; subst.
        econstructor; [by apply He|]. done.
    - done.
  Qed.

  Lemma projs_sem s x ps y e (S : Pointer P -> bool -> Prop) : iv R B s -> interp s -> projs_ok R B x ps y ->
    (forall ptr b t, place_means T m e ptr b t <-> t = snd x /\ S ptr b) ->
    rets (fold_m (translate_proj R s) ps (e, fst x)) (fun r =>
      forall ptr b t, place_means T m (fst r) ptr b t <-> t = snd y /\ exists p0 b0, S p0 b0 /\ projs_mean T m R B env (p0, b0, fst x, snd x) ps (ptr, b, fst y, snd y)).
  Proof.
    intros Hs Hi Hp. revert e S. induction Hp as [x|x p y ps z Hp Hps IH]; intros e S He; cbn [fold_m].
    - cbn. intros ptr b t. rewrite He. split.
      + intros [-> HS]. split; [done|]. exists ptr, b. split; [done|constructor].
      + intros (-> & p0 & b0 & HS & Hm). inversion Hm; subst. done.
    - eapply rets_bind; [by eapply proj_sem|]. intros [e' r'] [Hr He']. cbn [fst snd] in Hr, He'. subst r'.
      eapply rets_weak; [by apply (IH _ _ He')|]. cbn beta. intros [e2 r2] H2 ptr b t. rewrite H2. split.
      + intros (-> & p1 & b1 & (p0 & b0 & HS & H01) & H12). split; [done|]. exists p0, b0. split; [done|]. by econstructor.
      + intros (-> & p0 & b0 & HS & Hm). split; [done|]. inversion Hm as [|x0 pj [[[p1 b1] r1] t1] ps0 z0 H01 H12]; subst.
        pose proof (proj_typed _ _ _ _ _ _ _ _ _ H01 Hp) as ->. exists p1, b1. split; [|done]. by exists p0, b0.
  Qed.
  Lemma projs_typed p0 b0 x ps p1 b1 r1 t1 y : projs_mean T m R B env (p0, b0, fst x, snd x) ps (p1, b1, r1, t1) -> projs_ok R B x ps y -> y = (r1, t1).
  Proof.
    intros Hm Hp. revert p0 b0 Hm. induction Hp as [x|x p y ps z Hp Hps IH]; intros p0 b0 Hm; inversion Hm as [|x0 pj [[[p2 b2] r2] t2] ps0 z0 H01 H12]; subst.
    - by destruct x.
    - pose proof (proj_typed _ _ _ _ _ _ _ _ _ H01 Hp) as ->. by eapply IH.
  Qed.
  Lemma place_typed p ptr b r t r' t' : rplace_means T m R B env p ptr b r' t' -> MirSpec.place_ok R B p r t -> r' = r /\ t' = t.
  Proof.
    intros (r0 & t0 & q & Hl & Ht & Hq & Hm) (_ & r1 & t1 & Hl1 & Ht1 & Hp). assert (r1 = r0) as -> by congruence. assert (t1 = t0) as -> by congruence.
    apply (projs_typed _ _ (r0, t0)) with (2 := Hp) in Hm. by injection Hm.
  Qed.

  Lemma place_sem s p r t : iv R B s -> MirSpec.place_ok R B p r t ->
    rets (translate_place R s p) (fun e => psem s e (fun ptr b t' => rplace_means T m R B env p ptr b r t' /\ t' = t)).
  Proof.
    intros Hs Hok. pose proof Hok as (_ & r0 & t0 & Hl & Ht & Hp).
    assert (forall Q : PlaceExpr -> Prop, (interp s -> rets (translate_place R s p) Q) -> rets (translate_place R s p) (fun e => interp s -> Q e)) as Hlift.
    { intros Q. destruct (translate_place R s p); cbn; auto. }
    apply Hlift. intros Hi. unfold translate_place. rewrite (local_name_fine R B) by (try done; by eapply lookup_lt_Some). cbn [obind].
    rewrite (iv_body _ _ _ Hs), Hl. cbn [unwrap obind].
    eapply rets_bind; [eapply (projs_sem s (r0, t0) _ (r, t) _ (fun ptr b => b = true /\ exists q, ev_local env (rp_local p) = Some q /\ ptr = mkPtr q None)); [done..|]|].
    - intros ptr b t'. by eapply local_sem.
    - cbn [fst snd]. intros [e r'] He ptr b t'. cbn [fst] in He. rewrite He. split.
      + intros (-> & p0 & b0 & (-> & q & Hq & ->) & Hm). split; [|done]. by exists r0, t0, q.
      + intros [Hm ->]. split; [done|]. destruct Hm as (r1 & t1 & q & Hl1 & Ht1 & Hq & Hm). assert (r1 = r0) as -> by congruence. assert (t1 = t0) as -> by congruence.
        exists (mkPtr q None), true. split; [|done]. split; [done|]. by exists q.
  Qed.

  (** ** Constants *)
  Definition csem (c : Cx) (e : ValueExpr) (K : Value P -> Ty -> Prop) : Prop := cinterp c -> forall v t, value_means T m e v t <-> K v t.
  Lemma values_sem {A} (K : A -> Value P -> Prop) l es : Forall2 (fun a e => forall v, (exists t, value_means T m e v t) <-> K a v) l es ->
    forall vs, values_mean T m es vs <-> Forall2 K l vs.
  Proof.
    induction 1 as [|a e l es He H IH]; intros vs.
    - split; [inversion 1; constructor|inversion 1; constructor].
    - split.
      + inversion 1; subst. constructor; [apply He; eauto|by apply IH].
      + inversion 1 as [|? v ? vs' Hv Hvs]; subst. apply He in Hv as [t Hv]. econstructor; [done|]. by apply IH.
  Qed.
  Lemma addr_sem c prov off : match prov with None => True | Some a => exists d, rc_alloc R a = Some d end -> cx_ok R [] c ->
    rets (match prov with
          | None => Ret (KPointerWithoutProvenance (Z.of_N off), c)
          | Some a => let! ' (n, c) := translate_alloc_id fuel R T c a in Ret (KGlobalPointer (mkReloc n off), c)
          end) (fun x => cx_ok R [] (snd x) /\ MiniWf.ext c (snd x) /\
      (cinterp (snd x) -> forall v, const_means T m (fst x) v <-> exists q, address_means T env prov off q /\ v = VPtr (mkPtr q None))).
  Proof.
    intros Hp Hc. destruct prov as [a|].
    - destruct Hp as [d Hd]. eapply rets_bind; [by apply rets_fine, (alloc_fine R HR fuel [] c a d)|]. intros [n c'] (Hc' & Hx & Hn). cbn [fst snd] in *. cbn.
      split_and!; [done..|]. intros Hi v. pose proof (in_alloc _ Hi _ _ Hn) as Ha. split.
      + inversion 1 as [| |r0 p a0 Hg Hw| | |]; subst. cbn [r_name r_offset] in *. eexists. split; [|done]. econstructor; [congruence|done].
      + intros (q & Hq & ->). inversion Hq as [|i off0 p a0 He Hw]; subst. econstructor; [cbn; congruence|done].
    - cbn. split_and!; [done|apply MiniWf.ext_refl|]. intros _ v. split.
      + inversion 1; subst. eexists. split; [constructor|done].
      + intros (q & Hq & ->). inversion Hq; subst. constructor.
  Qed.
  Lemma fields_sem' (I : CVal -> Prop) c fs ts :
    (forall v c t, I v -> cx_ok R [] c -> const_ok T R v t ->
       rets (translate_const_val fuel R T c v) (fun x => csem (snd x) (fst x) (fun w t' => cval_means T m R env v w /\ t' = t))) ->
    Forall I fs -> cx_ok R [] c -> Forall2 (const_ok T R) fs ts ->
    rets (map_st (translate_const_val fuel R T) fs c) (fun x => cx_ok R [] (snd x) /\ MiniWf.ext c (snd x) /\
      Forall2 (fun a e => cinterp (snd x) -> forall v, (exists t, value_means T m e v t) <-> cval_means T m R env a v) fs (fst x)).
  Proof.
    intros HI Hfs Hc Ht. eapply (rets_map_st _ (cx_ok R []) MiniWf.ext (const_ok T R)
      (fun c a e => cinterp c -> forall v, (exists t, value_means T m e v t) <-> cval_means T m R env a v)); [apply MiniWf.ext_refl|apply MiniWf.ext_trans| | |done|done].
    - intros s s' a b Hx H Hi. apply H. by eapply cinterp_ext.
    - intros s a t Ha Hs Hat. rewrite Forall_forall in Hfs.
      eapply rets_weak; [apply rets_and; [by apply rets_fine, (const_fine R HR fuel Hfuel a s t)|by eapply HI; [apply Hfs| |]]|].
      intros [e c'] ((Hc' & Hx & _) & Hsem). cbn [fst snd] in *. split_and!; [done..|]. intros Hi v. split.
      + intros [t' Hv]. by apply (Hsem Hi) in Hv as [? _].
      + intros Hv. exists t. by apply (Hsem Hi).
  Qed.
  Lemma meta_count_inv meta n t : meta_value T MKElementCount meta (VInt n : Value P) t -> meta = Some (MElementCount n).
  Proof. by inversion 1. Qed.

  Lemma const_sem v c t : cx_ok R [] c -> const_ok T R v t ->
    rets (translate_const_val fuel R T c v) (fun x => csem (snd x) (fst x) (fun w t' => cval_means T m R env v w /\ t' = t)).
  Proof.
    revert c t. induction v as [ty b|ty b|ty p o me|ty fs IH|ty i fs IH|ty] using CVal_ind'; intros c t Hc Ht; inversion Ht; subst; cbn [translate_const_val cval_ty];
      match goal with H : rc_ty R ?r = Some _ |- _ => rewrite H; pose proof (ro_ty _ _ HR _ _ H) as Hw; rename H into Hty end; cbn [ask obind].
    - cbn. intros _ w t'. assert (int_ok it) as Hok by (apply pow2_nonzero; by eapply wf_int). split.
      + inversion 1 as [k v' ty' Hk| | | | | | | |]; subst. inversion Hk; subst. split; [|done]. econstructor; [done|]. by apply wraps_bits.
      + intros [Hm ->]. inversion Hm as [? ? it' x Hty' Hx| | | | |]; subst. assert (it' = it) as -> by congruence.
        apply wraps_bits_iff in Hx as ->; [|done]. by do 2 constructor.
    - cbn. intros _ w t'. split.
      + inversion 1 as [k v' ty' Hk| | | | | | | |]; subst. inversion Hk; subst. split; [|done]. constructor.
      + intros [Hm ->]. inversion Hm; subst. by do 2 constructor.
    - (* an address *)
      destruct (decide (pt = PFnPtr)) as [->|Hpt]; [done|]. replace (match pt with PFnPtr => _ | _ => Ret tt end) with (Ret tt : Outcome unit) by (by destruct pt).
      cbn [obind]. destruct (ptr_meta_kind pt) eqn:Em; cbn [obind]; [| |done].
      + pose proof (addr_sem c None o I Hc) as (Hc' & Hx & Hk). cbn [fst snd] in *. cbn. intros Hi w t'. split.
        * inversion 1 as [k' v' ty' Hk'| | | | | | | |]; subst. apply (Hk Hi) in Hk' as (q & Hq & ->). split; [|done]. by econstructor.
        * intros [Hm ->]. constructor. apply (Hk Hi). inversion Hm; subst; [by eexists|congruence].
      + match goal with H : MirSpec.meta_ok _ _ _ |- _ => destruct (H Em) as (n & -> & Hn) end. cbn [unwrap obind].
        pose proof (addr_sem c None o I Hc) as (Hc' & Hx & Hk). cbn [fst snd] in *. cbn. intros Hi w t'. split.
        * inversion 1 as [| | | | | | | |op e1 v1 ty1 e2 v2 ty2 w' wty H1 H2 Hb]; subst. inversion H1 as [k' v' ty' Hk'| | | | | | | |]; subst.
          apply (Hk Hi) in Hk' as (q & Hq & ->). inversion H2 as [k'' v'' ty'' Hk''| | | | | | | |]; subst. inversion Hk''; subst.
          inversion Hb as [| | | | | | |pt' p' ty' w'' meta mty Hmv Hval]; subst. rewrite Em in Hmv. apply meta_count_inv in Hmv as ->.
          split; [|done]. by econstructor.
        * intros [Hm ->]. inversion Hm as [| |? pt' ? ? ? p' Hty' Hk' Ha|? pt' ? ? ? p' Hty' Hk' Ha Hval| |]; subst; [congruence|].
          assert (pt' = pt) as -> by congruence. econstructor; [constructor; apply (Hk Hi); by eexists|do 2 constructor|]. econstructor; [|done].
          rewrite Em. constructor.
    - (* a pointer into an allocation *)
      destruct (decide (pt = PFnPtr)) as [->|Hpt]; [done|]. replace (match pt with PFnPtr => _ | _ => Ret tt end) with (Ret tt : Outcome unit) by (by destruct pt).
      cbn [obind]. destruct (ptr_meta_kind pt) eqn:Em; cbn [obind]; [| |done].
      + eapply rets_bind; [eapply (addr_sem c (Some a) o); [by eexists|done]|]. intros [k c'] (Hc' & Hx & Hk). cbn [fst snd] in *. cbn. intros Hi w t'. split.
        * inversion 1 as [k' v' ty' Hk'| | | | | | | |]; subst. apply (Hk Hi) in Hk' as (q & Hq & ->). split; [|done]. by econstructor.
        * intros [Hm ->]. constructor. apply (Hk Hi). inversion Hm; subst; [by eexists|congruence].
      + match goal with H : MirSpec.meta_ok _ _ _ |- _ => destruct (H Em) as (n & -> & Hn) end. cbn [unwrap obind].
        eapply rets_bind; [eapply (addr_sem c (Some a) o); [by eexists|done]|]. intros [k c'] (Hc' & Hx & Hk). cbn [fst snd] in *. cbn. intros Hi w t'. split.
        * inversion 1 as [| | | | | | | |op e1 v1 ty1 e2 v2 ty2 w' wty H1 H2 Hb]; subst. inversion H1 as [k' v' ty' Hk'| | | | | | | |]; subst.
          apply (Hk Hi) in Hk' as (q & Hq & ->). inversion H2 as [k'' v'' ty'' Hk''| | | | | | | |]; subst. inversion Hk''; subst.
          inversion Hb as [| | | | | | |pt' p' ty' w'' meta mty Hmv Hval]; subst. rewrite Em in Hmv. apply meta_count_inv in Hmv as ->.
          split; [|done]. by econstructor.
        * intros [Hm ->]. inversion Hm as [| |? pt' ? ? ? p' Hty' Hk' Ha|? pt' ? ? ? p' Hty' Hk' Ha Hval| |]; subst; [congruence|].
          assert (pt' = pt) as -> by congruence. econstructor; [constructor; apply (Hk Hi); by eexists|do 2 constructor|]. econstructor; [|done].
          rewrite Em. constructor.
    - (* a tuple *)
      match goal with H : Forall2 _ fs _ |- _ => rename H into Hfs end. cbn [assert_ obind].
      pose proof (Forall2_length _ _ _ Hfs) as Hlen. rewrite map_length in Hlen. rewrite Hlen, Nat.eqb_refl. cbn [assert_ obind].
      eapply rets_bind; [eapply (fields_sem' _ c fs (List.map snd fs0)); [|exact IH|done|done]; intros v c0 t0 Hv Hc0 Ht0; by apply Hv|]. intros [es c'] (Hc' & Hx & Hes). cbn [fst snd] in *. cbn. intros Hi w t'.
      pose proof (values_sem _ _ _ (Forall2_impl _ _ _ _ Hes (fun _ _ H => H Hi))) as Hvs. split.
      + inversion 1; subst. split; [|done]. constructor. by apply Hvs.
      + intros [Hm ->]. inversion Hm; subst. constructor. by apply Hvs.
    - (* an array *)
      match goal with H : Forall2 _ fs _ |- _ => rename H into Hfs end.
      eapply rets_bind; [eapply (fields_sem' _ c fs (repeat e (length fs))); [|exact IH|done|done]; intros v c0 t0 Hv Hc0 Ht0; by apply Hv|]. intros [es c'] (Hc' & Hx & Hes). cbn [fst snd] in *. cbn. intros Hi w t'.
      pose proof (values_sem _ _ _ (Forall2_impl _ _ _ _ Hes (fun _ _ H => H Hi))) as Hvs. split.
      + inversion 1; subst. split; [|done]. constructor. by apply Hvs.
      + intros [Hm ->]. inversion Hm; subst. constructor. by apply Hvs.
    - (* a variant *)
      match goal with H : Forall2 _ fs _ |- _ => rename H into Hfs end.
      eapply rets_bind; [eapply (fields_sem' _ c fs (List.map snd fs0)); [|exact IH|done|done]; intros v c0 t0 Hv Hc0 Ht0; by apply Hv|]. intros [es c'] (Hc' & Hx & Hes). cbn [fst snd] in *.
      match goal with H : rc_discr R _ _ = Some _ |- _ => rename H into Hdi; rewrite Hdi end. cbn [ask obind].
      match goal with H : map_get _ _ = Some _ |- _ => rename H into Hk; rewrite Hk end. cbn. intros Hi w t'.
      destruct (HD _ _ _ _ Hdi) as [Hok Hdt]. pose proof (Hdt _ _ _ _ _ Hty) as ->.
      pose proof (values_sem _ _ _ (Forall2_impl _ _ _ _ Hes (fun _ _ H => H Hi))) as Hvs. split.
      + inversion 1 as [| | |d' e' v' ety ty' Hv'| | | | |]; subst. inversion Hv'; subst. split; [|done]. econstructor; [done..|by apply wraps_bits|by apply Hvs].
      + intros [Hm ->]. inversion Hm as [| | | | |r' idx cs vs vts' dty' d' s' al' bits' it' x Hty' Hdi' Hx' Hcs]; subst.
        assert (bits' = bits /\ it' = it) as [-> ->] by (split; congruence). apply wraps_bits_iff in Hx' as ->; [|done]. econstructor. constructor. by apply Hvs.
  Qed.

  (** ** Operands *)
  Lemma operand_sem s o r t : iv R B s -> operand_ok T R B o r t ->
    rets (translate_operand fuel R T s o) (fun x => vsem (snd x) (fst x) (operand_means T m R B env o)).
  Proof.
    intros Hs Ho. destruct Ho as [c t Hc Ht|p r t [Hp Ht]|p r t [Hp Ht]|c]; cbn [translate_operand].
    - eapply rets_bind; [by eapply const_sem; [eapply iv_cx|]|]. intros [e c'] Hsem. cbn [fst snd] in *. cbn. intros Hi v t'. rewrite (Hsem (in_cx _ Hi)).
      assert (rc_ty R (cval_ty c) = Some t) as Hty by (by destruct Hc). split.
      + intros [Hm ->]. by constructor.
      + inversion 1; subst. split; [done|congruence].
    - eapply rets_bind; [by eapply place_sem|]. intros e He. cbn. intros Hi v t'. split.
      + inversion 1; subst. match goal with H : place_means _ _ _ _ _ _ |- _ => apply (He Hi) in H as [Hm ->] end. econstructor; [done|by split].
      + inversion 1 as [|? ptr r' v' t0 Hm [Hh Hv]| |]; subst. econstructor; [apply (He Hi)|done|done].
        destruct (place_typed _ _ _ _ _ _ _ Hm Hp) as [-> ->]. done.
    - eapply rets_bind; [by eapply place_sem|]. intros e He. cbn. intros Hi v t'. split.
      + inversion 1; subst. match goal with H : place_means _ _ _ _ _ _ |- _ => apply (He Hi) in H as [Hm ->] end. econstructor; [done|by split].
      + inversion 1 as [| |? ptr r' v' t0 Hm [Hh Hv]|]; subst. econstructor; [apply (He Hi)|done|done].
        destruct (place_typed _ _ _ _ _ _ _ Hm Hp) as [-> ->]. done.
    - cbn. intros _ v t'. split.
      + inversion 1 as [k v' ty' Hk| | | | | | | |]; subst. inversion Hk; subst. constructor.
      + inversion 1; subst. by do 2 constructor.
  Qed.
  Lemma operand_typed o v t' r t : operand_means T m R B env o v t' -> operand_ok T R B o r t -> t' = t.
  Proof.
    intros Hm Ho. destruct Ho as [c t Hc Ht|p r t [Hp Ht]|p r t [Hp Ht]|c]; inversion Hm; subst; try done.
    - assert (rc_ty R (cval_ty c) = Some t) by (by destruct Hc). congruence.
    - match goal with H : rplace_means _ _ _ _ _ _ _ _ _ _ |- _ => by apply (place_typed _ _ _ _ _ _ _ H Hp) end.
    - match goal with H : rplace_means _ _ _ _ _ _ _ _ _ _ |- _ => by apply (place_typed _ _ _ _ _ _ _ H Hp) end.
  Qed.
  Lemma operand_typed_ty o v t' t : operand_means T m R B env o v t' -> operand_ty T R B o t -> t' = t.
  Proof. intros Hm [r Ho]. by eapply operand_typed. Qed.
  Lemma valid_key t v : comparable t = true -> valid T m t v -> exists k, cmp_key t v k.
  Proof.
    intros Ht (e & _ & _ & _ & Hv). apply (key_exists T e); [by destruct t|]. by apply check_value_iff.
  Qed.
  Lemma operand_key o v t : comparable t = true -> operand_ty T R B o t -> operand_means T m R B env o v t -> exists k, cmp_key t v k.
  Proof.
    intros Hc [r0 Ho] Hm. inversion Hm as [c v' t' Hty Hcv|p ptr r v' t' Hp [Hh Hv]|p ptr r v' t' Hp [Hh Hv]|]; subst; try (by eapply valid_key).
    - inversion Ho as [c' t' Hcok| | |]; subst. destruct Hcok; try done; inversion Hcv; subst; eexists; try constructor; congruence.
    - eexists. constructor.
  Qed.
End Sem.
