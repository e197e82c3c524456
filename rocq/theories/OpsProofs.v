(** Proofs about the operators. *)
From Coq Require Import ZifyBool ZifyN ZifyNat.
From Verif Require Export OpsSpec BaseProofs.

Lemma fits_bounds it i : int_ok it -> fits it i <-> can_represent it i = true.
Proof.
  unfold int_ok, fits, can_represent. intros Hs. rewrite in_bounds_spec.
  unfold int_min, int_max, size_bits. destruct (N.eqb_spec (it_size it) 0) as [?|_]; [done|].
  destruct (it_signed it); lia.
Qed.

Lemma bounds_fits it i : int_ok it -> can_represent it i = false <-> ~ fits it i.
Proof. intros Hs. rewrite (fits_bounds it i Hs). destruct (can_represent it i); intuition congruence. Qed.

Lemma pow_bits_pos s : 0 < 2 ^ (8 * Z.of_N s).
Proof. apply Z.pow_pos_nonneg; lia. Qed.

Lemma all_ones_fit s : fits (mkIntTy Unsigned s) (2 ^ (8 * Z.of_N s) - 1).
Proof. unfold fits. cbn [it_signed it_size]. pose proof (pow_bits_pos s). lia. Qed.

Lemma wraps_bring it z : int_ok it -> wraps_to it z (int_bring_in_bounds it z).
Proof.
  intros Hs. split.
  - apply fits_bounds; [done|]. apply bring_in_bounds_in.
  - pose proof (bring_in_bounds_mod (it_signed it) (it_size it) z) as Hm.
    unfold int_bring_in_bounds in *. set (b := bring_in_bounds _ _ _) in *.
    unfold size_bits in Hm. pose proof (pow_bits_pos (it_size it)) as Hp.
    exists (z / 2 ^ (8 * Z.of_N (it_size it)) - b / 2 ^ (8 * Z.of_N (it_size it))).
    pose proof (Z.div_mod z (2 ^ (8 * Z.of_N (it_size it)))).
    pose proof (Z.div_mod b (2 ^ (8 * Z.of_N (it_size it)))). nia.
Qed.

Lemma wraps_unique it z r1 r2 : int_ok it -> wraps_to it z r1 -> wraps_to it z r2 -> r1 = r2.
Proof.
  intros Hs [H1 [k1 E1]] [H2 [k2 E2]].
  apply (in_bounds_unique (it_signed it) (it_size it)).
  - by apply fits_bounds.
  - by apply fits_bounds.
  - unfold size_bits. pose proof (pow_bits_pos (it_size it)).
    replace r1 with (r2 + (k2 - k1) * 2 ^ (8 * Z.of_N (it_size it))) by nia.
    apply Z_mod_plus_full.
Qed.

Lemma wraps_id it z : int_ok it -> fits it z -> int_bring_in_bounds it z = z.
Proof. intros Hs Hf. apply bring_in_bounds_id. by apply fits_bounds. Qed.

(** ** Binary operators *)
Section Ops.
  Context {P F M : Type} `{EqDecision P}.
  Variable T : Target.
  Variable MO : MemOps P F M.
  Notation bin m op l r := (eval_bin_op T MO m (BInt op) l r).
  Notation out z it := (Ret (VInt z, TInt it)).

  Lemma wrapping_ops (m : Machine P F M) op l r it (ty : Ty) :
    int_ok it -> wrapping op ->
    exists z res, bin m op (VInt l, TInt it) (VInt r, ty) = out res it /\
      wrapping_math (8 * Z.of_N (it_size it)) op l r z /\ wraps_to it z res.
  Proof.
    clear. intros Hs Hop. unfold eval_bin_op, int_bin_op.
    assert (Hb : 0 < 8 * Z.of_N (it_size it)) by (unfold int_ok in Hs; lia).
    destruct op; cbn [wrapping] in Hop; try contradiction;
      cbn [eval_int_bin_op obind];
      try (eexists _, _; split; [reflexivity|]; split; [constructor|by apply wraps_bring]; fail).
    1, 2: unfold size_bits; destruct (Z.eqb_spec (8 * Z.of_N (it_size it)) 0) as [?|_]; [lia|];
      cbn [obind]; set (bits := 8 * Z.of_N (it_size it)) in *;
      pose proof (Z.mod_pos_bound r bits Hb) as Hmod;
      pose proof (Z.div_mod r bits ltac:(lia)) as Hdm.
    - exists (l * 2 ^ (r mod bits)). eexists. split; [reflexivity|]. split.
      + apply wm_shl; [lia|]. exists (r / bits). lia.
      + rewrite <- Z.shiftl_mul_pow2 by lia. by apply wraps_bring.
    - exists (l / 2 ^ (r mod bits)). eexists. split; [reflexivity|]. split.
      + apply (wm_shr _ _ _ (r mod bits)); [lia| |].
        * exists (r / bits). lia.
        * assert (0 < 2 ^ (r mod bits)) by (apply Z.pow_pos_nonneg; lia).
          pose proof (Z.div_mod l (2 ^ (r mod bits)) ltac:(lia)).
          pose proof (Z.mod_pos_bound l (2 ^ (r mod bits)) ltac:(lia)). nia.
      + rewrite <- Z.shiftr_div_pow2 by lia. by apply wraps_bring.
    - eexists _, _. split; [reflexivity|]. split; [apply wm_and|by apply wraps_bring].
      intros n _. apply Z.land_spec.
    - eexists _, _. split; [reflexivity|]. split; [apply wm_or|by apply wraps_bring].
      intros n _. apply Z.lor_spec.
    - eexists _, _. split; [reflexivity|]. split; [apply wm_xor|by apply wraps_bring].
      intros n _. apply Z.lxor_spec.
  Qed.

  Lemma bit_by_bit_unique f l r z1 z2 : bit_by_bit f l r z1 -> bit_by_bit f l r z2 -> z1 = z2.
  Proof.
    clear. intros H1 H2. apply Z.bits_inj'. intros n Hn. by rewrite H1, H2.
  Qed.

  Lemma shift_unique bits r a b :
    0 <= a < bits -> 0 <= b < bits -> (exists k, r = a + k * bits) -> (exists k, r = b + k * bits) ->
    a = b.
  Proof.
    clear. intros Ha Hb [k1 E1] [k2 E2].
    assert (k1 = k2); [|nia]. nia.
  Qed.

  Lemma wrapping_math_unique bits op l r z1 z2 :
    wrapping_math bits op l r z1 -> wrapping_math bits op l r z2 -> z1 = z2.
  Proof.
    clear. intros H1 H2. destruct H1; inversion H2; subst; eauto using bit_by_bit_unique.
    - by rewrite (shift_unique bits r a a0).
    - rewrite (shift_unique bits r a0 a) in * by done.
      assert (0 < 2 ^ a) by (apply Z.pow_pos_nonneg; lia). nia.
  Qed.

  Lemma neg_op (m : Machine P F M) x it :
    int_ok it -> exists res, eval_un_op T MO m (UInt IUNeg) (VInt x, TInt it) = out res it /\
      wraps_to it (- x) res.
  Proof.
    intros Hs. pose proof (wraps_bring it (- x) Hs) as Hw. eexists. split; [|done].
    unfold eval_un_op, eval_int_un_op. cbn [obind int_un_op_ty check_value].
    destruct Hw as [Hf _]. apply fits_bounds in Hf; [|done]. by rewrite Hf.
  Qed.

  Lemma not_op (m : Machine P F M) x it :
    int_ok it -> exists z res, eval_un_op T MO m (UInt IUBitNot) (VInt x, TInt it) = out res it /\
      (forall n, 0 <= n -> Z.testbit z n = negb (Z.testbit x n)) /\ wraps_to it z res.
  Proof.
    intros Hs. pose proof (wraps_bring it (Z.lnot x) Hs) as Hw. exists (Z.lnot x). eexists.
    split; [|split; [|done]].
    - unfold eval_un_op, eval_int_un_op. cbn [obind int_un_op_ty check_value].
      destruct Hw as [Hf _]. apply fits_bounds in Hf; [|done]. by rewrite Hf.
    - intros n Hn. by apply Z.lnot_spec.
  Qed.

  (** ** Division *)

  Lemma quot_trunc l r : r <> 0 -> trunc_div l r (Z.quot l r) (Z.rem l r).
  Proof.
    clear. intros Hr. unfold trunc_div.
    pose proof (Z.quot_rem' l r). pose proof (Z.rem_bound_abs l r Hr).
    split; [lia|]. split; [done|]. split; intros.
    - by apply Z.rem_nonneg.
    - by apply Z.rem_nonpos.
  Qed.

  Lemma quot_overflow it l r :
    int_ok it -> fits it l -> fits it r -> r <> 0 ->
    can_represent it (Z.quot l r) = false <-> div_overflow it l r.
  Proof.
    clear. intros Hs Hl Hr Hr0. rewrite (bounds_fits it _ Hs).
    pose proof (quot_trunc l r Hr0) as (E & Hrem & Hpos & Hneg).
    set (q := Z.quot l r) in *. set (m := Z.rem l r) in *.
    unfold fits, div_overflow, int_ok in *.
    set (bits := 8 * Z.of_N (it_size it)) in *.
    assert (Hb : 0 < bits) by lia.
    destruct (it_signed it); split.
    - set (h := 2 ^ (bits - 1)) in *. intros Hn. split; [done|].
      destruct (Z.eq_dec r (-1)) as [->|Hr1].
      + split; [|done]. nia.
      + exfalso. apply Hn. assert (r <= -2 \/ 1 <= r) as [|] by lia; nia.
    - intros (_ & -> & ->). intros [_ Hq].
      assert (m = 0) by lia. set (h := 2 ^ (bits - 1)) in *. lia.
    - intros Hn. exfalso. apply Hn. nia.
    - by intros [? _].
  Qed.

  Lemma quot_cases it l r :
    int_ok it -> fits it l -> fits it r -> ~ div_ub it l r ->
    (r =? 0) = false /\ can_represent it (Z.quot l r) = true /\ fits it (Z.quot l r).
  Proof.
    clear. intros Hs Hl Hr Hn. unfold div_ub in Hn. assert (r <> 0) by tauto.
    pose proof (quot_overflow it l r Hs Hl Hr ltac:(done)) as Ho.
    destruct (can_represent it (Z.quot l r)) eqn:E; [|tauto].
    split; [lia|]. split; [done|]. by apply fits_bounds.
  Qed.

  Lemma div_ub_is it l r (A : Type) (k : Outcome A) m1 m2 :
    int_ok it -> fits it l -> fits it r -> div_ub it l r ->
    is_ub (if r =? 0 then throw_ub m1 else
           if negb (can_represent it (Z.quot l r)) then throw_ub m2 else k).
  Proof.
    clear. intros Hs Hl Hr [->|Ho]; [by eexists|].
    destruct (Z.eqb_spec r 0); [by eexists|].
    apply (quot_overflow it l r) in Ho; [|done..]. rewrite Ho. by eexists.
  Qed.

  Lemma div_spec (m : Machine P F M) l r it ty :
    int_ok it -> fits it l -> fits it r ->
    (div_ub it l r -> is_ub (bin m IDiv (VInt l, TInt it) (VInt r, ty))) /\
    (~ div_ub it l r -> exists q rem, bin m IDiv (VInt l, TInt it) (VInt r, ty) = out q it /\
       trunc_div l r q rem /\ fits it q).
  Proof.
    clear. intros Hs Hl Hr. unfold eval_bin_op, int_bin_op. cbn [eval_int_bin_op]. split.
    - intros Hd. destruct (div_ub_is it l r _ (Ret (Z.quot l r)) "division by zero"
        "overflow in division" Hs Hl Hr Hd) as [msg ->]. by eexists.
    - intros Hd. destruct (quot_cases it l r Hs Hl Hr Hd) as (-> & -> & Hf). cbn [obind negb].
      exists (Z.quot l r), (Z.rem l r). rewrite wraps_id by done. split; [done|].
      split; [apply quot_trunc|done]. unfold div_ub in Hd. tauto.
  Qed.

  Lemma rem_fits it l r : int_ok it -> fits it l -> fits it r -> r <> 0 -> fits it (Z.rem l r).
  Proof.
    clear. intros Hs Hl Hr H0. pose proof (quot_trunc l r H0) as (_ & Ha & Hp & Hn).
    unfold fits in *. generalize dependent (Z.rem l r). intros rem Ha Hp Hn.
    generalize dependent (2 ^ (8 * Z.of_N (it_size it))).
    generalize dependent (2 ^ (8 * Z.of_N (it_size it) - 1)). clear -Ha Hp Hn.
    destruct (it_signed it); lia.
  Qed.

  Lemma rem_spec (m : Machine P F M) l r it ty :
    int_ok it -> fits it l -> fits it r ->
    (div_ub it l r -> is_ub (bin m IRem (VInt l, TInt it) (VInt r, ty))) /\
    (~ div_ub it l r -> exists q rem, bin m IRem (VInt l, TInt it) (VInt r, ty) = out rem it /\
       trunc_div l r q rem /\ fits it rem).
  Proof.
    clear. intros Hs Hl Hr. unfold eval_bin_op, int_bin_op. cbn [eval_int_bin_op]. split.
    - intros Hd. destruct (div_ub_is it l r _ (Ret (Z.rem l r)) "modulus of remainder is zero"
        "overflow in remainder" Hs Hl Hr Hd) as [msg ->]. by eexists.
    - intros Hd. destruct (quot_cases it l r Hs Hl Hr Hd) as (-> & -> & Hf). cbn [obind negb].
      exists (Z.quot l r), (Z.rem l r).
      assert (r <> 0) by (unfold div_ub in Hd; tauto).
      pose proof (rem_fits it l r Hs Hl Hr ltac:(done)) as Hrf.
      rewrite wraps_id by done. split; [done|]. split; [by apply quot_trunc|done].
  Qed.

  Lemma div_exact_spec (m : Machine P F M) l r it ty :
    int_ok it -> fits it l -> fits it r ->
    (div_ub it l r \/ ~ (r | l) -> is_ub (bin m IDivExact (VInt l, TInt it) (VInt r, ty))) /\
    (~ div_ub it l r -> (r | l) ->
       exists q, bin m IDivExact (VInt l, TInt it) (VInt r, ty) = out q it /\ l = q * r /\ fits it q).
  Proof.
    clear. intros Hs Hl Hr. unfold eval_bin_op, int_bin_op. cbn [eval_int_bin_op].
    assert (Hdiv : r <> 0 -> (r | l) <-> Z.rem l r = 0).
    { intros H0. rewrite Z.rem_divide by done. done. }
    split.
    - intros Hd.
      assert (div_ub it l r \/ ~ div_ub it l r /\ ~ (r | l)) as [Hu|[Hu Hn]].
      { destruct Hd as [?|Hn]; [by left|].
        destruct (Z.eqb_spec r 0) as [|Hr0]; [left; by left|].
        pose proof (quot_overflow it l r Hs Hl Hr Hr0) as Ho. unfold div_ub.
        destruct (can_represent it (Z.quot l r)); [right; intuition congruence|tauto]. }
      + match goal with |- context [if r =? 0 then _ else if _ then _ else ?k] =>
          destruct (div_ub_is it l r _ k "division by zero" "overflow in division" Hs Hl Hr Hu)
            as [msg ->] end. by eexists.
      + destruct (quot_cases it l r Hs Hl Hr Hu) as (-> & -> & Hf). cbn [negb].
        assert (r <> 0) by (unfold div_ub in Hu; tauto).
        destruct (Z.eqb_spec (Z.rem l r) 0) as [E|_]; [|by eexists].
        exfalso. apply Hn. by apply Hdiv.
    - intros Hu Hdv. destruct (quot_cases it l r Hs Hl Hr Hu) as (-> & -> & Hf). cbn [negb].
      assert (H0 : r <> 0) by (unfold div_ub in Hu; tauto).
      apply Hdiv in Hdv; [|done]. rewrite Hdv. cbn [Z.eqb negb obind].
      exists (Z.quot l r). rewrite wraps_id by done. split; [done|]. split; [|done].
      pose proof (quot_trunc l r H0) as (E & _). lia.
  Qed.

  Lemma unchecked_spec (m : Machine P F M) op l r it ty z :
    int_ok it -> unchecked_math op l r = Some z ->
    (~ fits it z -> is_ub (bin m op (VInt l, TInt it) (VInt r, ty))) /\
    (fits it z -> bin m op (VInt l, TInt it) (VInt r, ty) = out z it).
  Proof.
    clear. intros Hs Hz. unfold eval_bin_op, int_bin_op.
    destruct op; try discriminate; injection Hz as <-; cbn [eval_int_bin_op];
      (split; [intros Hf%(bounds_fits it _ Hs); rewrite Hf; by eexists|];
       intros Hf; pose proof Hf as Hb; apply fits_bounds in Hb; [|done]; rewrite Hb;
       cbn [negb obind]; by rewrite wraps_id).
  Qed.

  Lemma shl_unchecked_spec (m : Machine P F M) l r it ty :
    int_ok it ->
    (~ 0 <= r < 8 * Z.of_N (it_size it) -> is_ub (bin m IShlUnchecked (VInt l, TInt it) (VInt r, ty))) /\
    (0 <= r < 8 * Z.of_N (it_size it) ->
       exists res, bin m IShlUnchecked (VInt l, TInt it) (VInt r, ty) = out res it /\
         wraps_to it (l * 2 ^ r) res).
  Proof.
    clear. intros Hs. unfold eval_bin_op, int_bin_op. cbn [eval_int_bin_op]. unfold size_bits. split.
    - intros Hn. destruct ((r <? 0) || (8 * Z.of_N (it_size it) <=? r)) eqn:E; [by eexists|].
      exfalso. lia.
    - intros Hr. destruct ((r <? 0) || (8 * Z.of_N (it_size it) <=? r)) eqn:E; [lia|].
      cbn [obind]. eexists. split; [done|]. rewrite Z.shiftl_mul_pow2 by lia. by apply wraps_bring.
  Qed.

  Lemma shr_unchecked_spec (m : Machine P F M) l r it ty :
    int_ok it -> fits it l ->
    (~ 0 <= r < 8 * Z.of_N (it_size it) -> is_ub (bin m IShrUnchecked (VInt l, TInt it) (VInt r, ty))) /\
    (0 <= r < 8 * Z.of_N (it_size it) ->
       exists q, bin m IShrUnchecked (VInt l, TInt it) (VInt r, ty) = out q it /\
         q * 2 ^ r <= l < (q + 1) * 2 ^ r).
  Proof.
    clear. intros Hs Hl. unfold eval_bin_op, int_bin_op. cbn [eval_int_bin_op]. unfold size_bits. split.
    - intros Hn. destruct ((r <? 0) || (8 * Z.of_N (it_size it) <=? r)) eqn:E; [by eexists|].
      exfalso. lia.
    - intros Hr. destruct ((r <? 0) || (8 * Z.of_N (it_size it) <=? r)) eqn:E; [lia|].
      cbn [obind]. rewrite Z.shiftr_div_pow2 by lia.
      assert (Hp : 0 < 2 ^ r) by (apply Z.pow_pos_nonneg; lia).
      pose proof (Z.div_mod l (2 ^ r) ltac:(lia)). pose proof (Z.mod_pos_bound l (2 ^ r) Hp).
      exists (l / 2 ^ r). rewrite wraps_id; [split; [done|nia]|done|].
      set (p := 2 ^ r) in *. unfold fits in *. set (bits := 8 * Z.of_N (it_size it)) in *.
      destruct (it_signed it); nia.
  Qed.

  (** ** Overflow *)

  Lemma overflow_spec (m : Machine P F M) op l r it ty a :
    int_ok it -> int_align T it = Ret a ->
    exists res b rty,
      eval_bin_op T MO m (BIntWithOverflow op) (VInt l, TInt it) (VInt r, ty)
        = Ret (VTuple [VInt res; VBool b], rty) /\
      check_value T (chk_env MO m) rty (VTuple [VInt res; VBool b]) = Ret tt /\
      wraps_to it (overflow_math op l r) res /\ (b = true <-> ~ fits it (overflow_math op l r)).
  Proof.
    intros Hs Ha. unfold eval_bin_op, int_bin_op_overflow, with_overflow. rewrite Ha. cbn [obind].
    set (z := match op with OvAdd => _ | OvSub => _ | OvMul => _ end).
    assert (Hz : z = overflow_math op l r) by (by destruct op). rewrite <- Hz.
    pose proof (wraps_bring it z Hs) as Hw.
    eexists _, _, _. split; [reflexivity|]. split; [|split; [done|]].
    - cbn. destruct Hw as [Hf _]. apply fits_bounds in Hf; [|done]. by rewrite Hf.
    - rewrite negb_true_iff. by apply bounds_fits.
  Qed.

  (** ** Bit counts *)

  Lemma filter_map_length {A B} (f : A -> B) (p : B -> bool) l :
    length (List.filter p (List.map f l)) = length (List.filter (fun x => p (f x)) l).
  Proof. clear. induction l as [|x l IH]; [done|]. cbn. destruct (p (f x)); cbn; by rewrite IH. Qed.

  Lemma count_loop n acc x :
    count_ones_loop n acc x = acc + Z.of_nat (ones_below n x).
  Proof.
    clear. revert acc x. induction n as [|n IH]; intros acc x; [cbn; lia|].
    cbn [count_ones_loop]. rewrite IH. unfold ones_below. cbn [seq List.filter].
    assert (E : List.filter (fun k => Z.testbit x (Z.of_nat (S k))) (seq 0 n) =
                List.filter (fun k => Z.testbit (Z.shiftr x 1) (Z.of_nat k)) (seq 0 n)).
    { apply filter_ext. intros k. rewrite Z.shiftr_spec by lia. f_equal. lia. }
    rewrite <- seq_shift.
    assert (E' : length (List.filter (fun k => Z.testbit x (Z.of_nat k)) (List.map S (seq 0 n))) =
                 length (List.filter (fun k => Z.testbit (Z.shiftr x 1) (Z.of_nat k)) (seq 0 n))).
    { rewrite filter_map_length. by rewrite E. }
    destruct (Z.testbit x (Z.of_nat 0)) eqn:Eb; cbn [length]; rewrite E'; change (Z.of_nat 0) with 0 in Eb; rewrite Z.bit0_odd in Eb.
    - replace (Z.land x 1) with 1; [lia|]. change 1 with (Z.ones 1) at 2. rewrite Z.land_ones by lia.
      change (2 ^ 1) with 2. rewrite Zmod_odd, Eb. done.
    - replace (Z.land x 1) with 0; [lia|]. change 1 with (Z.ones 1). rewrite Z.land_ones by lia.
      change (2 ^ 1) with 2. rewrite Zmod_odd, Eb. done.
  Qed.

  Lemma ones_mod n x : ones_below n (x mod 2 ^ Z.of_nat n) = ones_below n x.
  Proof.
    clear. unfold ones_below. f_equal. apply filter_ext_in. intros k Hk%in_seq.
    rewrite Z.mod_pow2_bits_low by lia. done.
  Qed.

  Lemma ones_le n x : (ones_below n x <= n)%nat.
  Proof.
    clear. unfold ones_below. rewrite <- (seq_length n 0) at 2.
    generalize (seq 0 n). intros l. induction l as [|a l IH]; [done|].
    cbn. destruct (Z.testbit x (Z.of_nat a)); cbn; lia.
  Qed.

  Lemma count_value x it :
    eval_count_ones x it
    = Z.of_nat (ones_below (Z.to_nat (8 * Z.of_N (it_size it))) (x mod 2 ^ (8 * Z.of_N (it_size it)))).
  Proof.
    clear. unfold eval_count_ones. rewrite count_loop. unfold size_bits.
    rewrite <- (ones_mod (Z.to_nat (8 * Z.of_N (it_size it))) x). rewrite Z2Nat.id by lia. lia.
  Qed.

  Lemma count_ones_spec (m : Machine P F M) x it :
    8 * Z.of_N (it_size it) < 2 ^ 32 ->
    eval_un_op T MO m (UInt IUCountOnes) (VInt x, TInt it) =
      out (Z.of_nat (ones_below (Z.to_nat (8 * Z.of_N (it_size it)))
                       (x mod 2 ^ (8 * Z.of_N (it_size it))))) (mkIntTy Unsigned 4).
  Proof.
    intros Hb. unfold eval_un_op, eval_int_un_op. cbn [obind int_un_op_ty check_value].
    rewrite count_value. set (c := ones_below _ _).
    assert (Hc : (c <= Z.to_nat (8 * Z.of_N (it_size it)))%nat) by apply ones_le.
    assert (can_represent (mkIntTy Unsigned 4) (Z.of_nat c) = true) as ->; [|done].
    apply fits_bounds; [done|]. unfold fits. cbn. change (Z.pow_pos 2 32) with (2 ^ 32). lia.
  Qed.

  Lemma ones_all n : ones_below n (2 ^ Z.of_nat n - 1) = n.
  Proof.
    clear. unfold ones_below. transitivity (length (seq 0 n)); [f_equal|apply seq_length].
    assert (H : forall k, In k (seq 0 n) -> Z.testbit (2 ^ Z.of_nat n - 1) (Z.of_nat k) = true).
    { intros k Hk%in_seq. rewrite Z.sub_1_r, <- Z.ones_equiv. apply Z.ones_spec_low. lia. }
    revert H. generalize (seq 0 n). intros l. induction l as [|a l IH]; intros H; [done|].
    cbn. rewrite (H a (or_introl eq_refl)). f_equal. apply IH. intros k Hk. apply H. by right.
  Qed.

  Lemma count_ones_wide (m : Machine P F M) s :
    2 ^ 32 <= 8 * Z.of_N s ->
    eval_un_op T MO m (UInt IUCountOnes)
      (VInt (2 ^ (8 * Z.of_N s) - 1), TInt (mkIntTy Unsigned s)) = Panic.
  Proof.
    intros Hb. unfold eval_un_op, eval_int_un_op. cbn [obind int_un_op_ty check_value].
    rewrite count_value. cbn [it_size].
    rewrite Z.mod_small by (pose proof (pow_bits_pos s); lia).
    pose proof (ones_all (Z.to_nat (8 * Z.of_N s))) as Ho. rewrite Z2Nat.id in Ho by lia. rewrite Ho.
    rewrite Z2Nat.id by lia.
    assert (can_represent (mkIntTy Unsigned 4) (8 * Z.of_N s) = false) as ->; [|done].
    apply bounds_fits; [done|]. unfold fits. cbn. change (Z.pow_pos 2 32) with (2 ^ 32). lia.
  Qed.

  (** ** Casts *)

  Lemma cast_spec (m : Machine P F M) x it jt :
    int_ok jt -> exists r, eval_un_op T MO m (UCast (CIntToInt jt)) (VInt x, TInt it) = out r jt /\
      wraps_to jt x r /\ (fits jt x -> r = x).
  Proof.
    clear. intros Hs. eexists. split; [reflexivity|]. split.
    - by apply wraps_bring.
    - intros. by apply wraps_id.
  Qed.

  Lemma cast_round_trip (m : Machine P F M) x it jt :
    int_ok it -> (it_size it <= it_size jt)%N -> fits it x ->
    (let! vt := eval_un_op T MO m (UCast (CIntToInt jt)) (VInt x, TInt it) in
     eval_un_op T MO m (UCast (CIntToInt it)) vt) = out x it.
  Proof.
    clear. intros Hs Hle Hf.
    assert (Hj : int_ok jt) by (unfold int_ok in *; lia).
    cbn. f_equal. f_equal. f_equal. unfold int_to_int.
    apply (wraps_unique it (int_bring_in_bounds jt x)); [done|by apply wraps_bring|].
    split; [done|]. destruct (wraps_bring jt x Hj) as [_ [k Hk]].
    exists (- k * 2 ^ (8 * (Z.of_N (it_size jt) - Z.of_N (it_size it)))).
    assert (E : 2 ^ (8 * Z.of_N (it_size jt)) =
                2 ^ (8 * (Z.of_N (it_size jt) - Z.of_N (it_size it))) * 2 ^ (8 * Z.of_N (it_size it))).
    { rewrite <- Z.pow_add_r by lia. f_equal. lia. }
    rewrite E in Hk. nia.
  Qed.
End Ops.

(** ** Comparisons *)

Lemma lex_irrefl l : ~ lex_lt l l.
Proof. induction l; inversion 1; subst; [lia|done]. Qed.
Lemma lex_trans a b c : lex_lt a b -> lex_lt b c -> lex_lt a c.
Proof.
  intros H. revert c. induction H as [x y l k Hxy|x l k Hl IH]; intros c Hc; inversion Hc; subst.
  - constructor. lia.
  - by constructor.
  - by constructor.
  - apply lx_tail. by apply IH.
Qed.
Lemma lex_total a b : length a = length b -> lex_lt a b \/ a = b \/ lex_lt b a.
Proof.
  revert b. induction a as [|x a IH]; intros [|y b] E; try discriminate; [auto|].
  destruct (Z.lt_trichotomy x y) as [?|[->|?]]; [left; by constructor| |right; right; by constructor].
  destruct (IH b ltac:(by injection E)) as [?|[->|?]]; [left|auto|right; right]; by apply lx_tail.
Qed.
Lemma lex_one a b : lex_lt [a] [b] <-> a < b.
Proof. split; [inversion 1; subst; [done|by inversion H1]|by constructor]. Qed.
Lemma lex_two a b c d : lex_lt [a; b] [c; d] <-> a < c \/ a = c /\ b < d.
Proof.
  split.
  - inversion 1; subst; [by left|]. right. split; [done|]. by apply lex_one.
  - intros [?|[-> ?]]; [by constructor|]. apply lx_tail. by constructor.
Qed.

(** what a three-way comparison says about the keys *)
Definition cmp_says (c : comparison) (k1 k2 : list Z) : Prop :=
  match c with Lt => lex_lt k1 k2 | Eq => k1 = k2 | Gt => lex_lt k2 k1 end.

Lemma says_one a b : cmp_says (Z.compare a b) [a] [b].
Proof. destruct (Z.compare_spec a b); cbn; [by subst|by apply lex_one|by apply lex_one]. Qed.
Lemma says_two a b c d : cmp_says (ord_then (Z.compare a c) (Z.compare b d)) [a; b] [c; d].
Proof.
  destruct (Z.compare_spec a c); cbn.
  - subst. destruct (Z.compare_spec b d); cbn; [by subst| |]; apply lex_two; auto.
  - apply lex_two. auto.
  - apply lex_two. auto.
Qed.

Lemma compare_says {P} ty (v w : Value P) k1 k2 :
  cmp_key ty v k1 -> cmp_key ty w k2 ->
  exists c, compare_values ty v w = Ret c /\ cmp_says c k1 k2.
Proof.
  intros H1 H2. inversion H1; subst; inversion H2; subst; try congruence; cbn; unfold compare_ptr; cbn.
  - eexists. split; [done|]. apply says_one.
  - eexists. split; [done|]. by destruct b, b0; cbn; try (by apply lex_one).
  - eexists. split; [done|]. pose proof (says_one (tp_addr p) (tp_addr p0)).
    by destruct (Z.compare _ _).
  - eexists. split; [done|]. apply says_two.
  - eexists. split; [done|]. apply says_two.
Qed.

Lemma cmp_says_iff c k1 k2 : cmp_says c k1 k2 ->
  (c = Lt <-> lex_lt k1 k2) /\ (c = Eq <-> k1 = k2) /\ (c = Gt <-> lex_lt k2 k1).
Proof.
  pose proof (lex_irrefl k1). pose proof (lex_trans k1 k2 k1).
  destruct c; cbn; intros Hc; (split; [|split]; split; intros He; try discriminate; try done; exfalso);
    subst; firstorder.
Qed.

(** forgetting the provenance of all pointers of a value *)
Lemma compare_strip {P} ty (v w : Value P) :
  compare_values ty v w = compare_values ty (strip_val v) (strip_val w).
Proof.
  destruct ty, v as [| |[[] [[]|]]| | |], w as [| |[[] [[]|]]| | |]; done.
Qed.

Lemma key_strip {P} ty (v : Value P) k : cmp_key ty v k -> cmp_key ty (strip_val v) k.
Proof.
  intros H. inversion H; subst; cbn; try by constructor.
  - by apply (ck_thin pt (strip_thin p)).
  - by apply (ck_count pt (strip_thin p)).
  - by apply (ck_vtable pt tn (strip_thin p) (strip_thin v0)).
Qed.

Lemma key_length {P} ty (v w : Value P) k1 k2 :
  cmp_key ty v k1 -> cmp_key ty w k2 -> length k1 = length k2.
Proof. intros H1 H2. inversion H1; subst; inversion H2; subst; try done; congruence. Qed.

Lemma key_exists {P} `{EqDecision P} T (env : ChkEnv P) ty v :
  match ty with TInt _ | TBool | TPtr _ => True | _ => False end ->
  check_value T env ty v = Ret tt -> exists k, cmp_key ty v k.
Proof.
  destruct ty; cbn; try contradiction; intros _ Hc.
  - destruct v; try discriminate. eauto using @cmp_key.
  - destruct v; try discriminate. eauto using @cmp_key.
  - destruct v as [| |[p m]| | |]; try discriminate. unfold check_ptr in Hc.
    apply obind_ret in Hc as ([] & _ & Hc). apply obind_ret in Hc as ([] & Hm & _). cbn in Hm.
    destruct m as [[]|]; cbn in Hm; destruct (ptr_meta_kind pt) eqn:E; try discriminate;
      eauto using @cmp_key.
Qed.

(** ** Races *)

Lemma races_sym a b : races a b = races b a.
Proof.
  unfold races. destruct (ac_ty a), (ac_ty b), (ac_atomicity a), (ac_atomicity b); try done;
    apply andb_comm.
Qed.

Lemma races_exact a b : (0 < ac_len a)%N -> (0 < ac_len b)%N ->
  races a b = true <->
  (exists x, access_has a x /\ access_has b x) /\
  (ac_ty a = AcStore \/ ac_ty b = AcStore) /\
  (ac_atomicity a = NonAtomic \/ ac_atomicity b = NonAtomic).
Proof.
  intros Ha Hb. unfold access_has.
  assert (Hx : (exists x, ac_addr a <= x < ac_addr a + Z.of_N (ac_len a) /\
                  ac_addr b <= x < ac_addr b + Z.of_N (ac_len b)) <->
               (ac_addr b <? ac_addr a + Z.of_N (ac_len a)) &&
               (ac_addr a <? ac_addr b + Z.of_N (ac_len b)) = true).
  { split; [intros (x & ?); lia|]. intros. exists (Z.max (ac_addr a) (ac_addr b)). lia. }
  rewrite Hx. unfold races. set (o := _ && _).
  destruct (ac_ty a), (ac_ty b), (ac_atomicity a), (ac_atomicity b); intuition congruence.
Qed.
