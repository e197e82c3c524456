(** Lemmas about the base definitions. *)
From Verif Require Export Base.
From Coq Require Import ZifyBool ZifyN ZifyNat.

#[global] Arguments N.mul : simpl never.
#[global] Arguments N.add : simpl never.
#[global] Arguments N.sub : simpl never.
#[global] Arguments N.pow : simpl never.
#[global] Arguments N.div : simpl never.
#[global] Arguments N.modulo : simpl never.
#[global] Arguments Z.mul : simpl never.
#[global] Arguments Z.add : simpl never.
#[global] Arguments Z.sub : simpl never.
#[global] Arguments Z.pow : simpl never.
#[global] Arguments Z.div : simpl never.
#[global] Arguments Z.modulo : simpl never.

(** ** Outcomes *)

Lemma obind_ret {A B} (m : Outcome A) (f : A -> Outcome B) b :
  obind m f = Ret b -> exists a, m = Ret a /\ f a = Ret b.
Proof. destruct m; simpl; try discriminate. eauto. Qed.

Lemma assert_ret b u : assert_ b = Ret u -> b = true.
Proof. destruct b; [done|discriminate]. Qed.

Lemma unwrap_ret {A} (o : option A) a : unwrap o = Ret a -> o = Some a.
Proof. destruct o; simpl; congruence. Qed.

(** Decompose a hypothesis stating that a monadic computation returned. *)
Ltac inv1 :=
  match goal with
  | H : obind ?m ?f = Ret ?b |- _ =>
      apply obind_ret in H;
      let x := fresh "x" in let H1 := fresh "H" in let H2 := fresh "H" in
      destruct H as (x & H1 & H2); try (destruct x as []; []); cbv beta iota in H2
  | H : Ret _ = Ret _ |- _ => injection H as H
  | H : (_, _) = (_, _) |- _ => injection H as H
  | H : Stop _ = Ret _ |- _ => discriminate H
  | H : Panic = Ret _ |- _ => discriminate H
  | H : NoBehavior = Ret _ |- _ => discriminate H
  | H : throw_ub _ = Ret _ |- _ => discriminate H
  | H : throw_ill_formed _ = Ret _ |- _ => discriminate H
  | H : Some _ = Some _ |- _ => injection H as H
  | H : Some _ = None |- _ => discriminate H
  | H : None = Some _ |- _ => discriminate H
  | H : assert_ _ = Ret _ |- _ => apply assert_ret in H
  | H : unwrap _ = Ret _ |- _ => apply unwrap_ret in H
  end.
Ltac inv := repeat inv1.

(** ** Loops *)

Lemma for_each_ret {A} (f : A -> Outcome unit) l :
  for_each f l = Ret tt <-> Forall (fun x => f x = Ret tt) l.
Proof.
  induction l as [|x r IH]; simpl; [split; constructor|].
  rewrite Forall_cons_iff, <- IH. split.
  - intros H. apply obind_ret in H as ([] & ? & ?). auto.
  - intros [-> ?]. done.
Qed.

Lemma for_each2_ret {A B} (f : A -> B -> Outcome unit) l1 l2 :
  length l2 = length l1 ->
  for_each2 f l1 l2 = Ret tt <-> Forall2 (fun x y => f x y = Ret tt) l1 l2.
Proof.
  revert l2. induction l1 as [|x r IH]; intros [|y r2] Hl; simpl in *; try discriminate.
  - split; constructor.
  - rewrite list.Forall2_cons, <- IH by lia. split.
    + intros H. apply obind_ret in H as ([] & ? & ?). auto.
    + intros [-> ?]. done.
Qed.

Lemma map_m_ret {A B} (f : A -> Outcome B) l r :
  map_m f l = Ret r <-> Forall2 (fun x y => f x = Ret y) l r.
Proof.
  revert r. induction l as [|x l IH]; intros r; simpl.
  - split; [intros [= <-]; constructor|]. intros H; inversion H; done.
  - split.
    + intros H. inv. subst. constructor; [done|]. by apply IH.
    + intros H; inversion H as [|? y ? ys Hx Hr]; subst. apply IH in Hr. rewrite Hx; simpl.
      by rewrite Hr.
Qed.

Lemma try_map_ret_some {A B} (f : A -> Outcome (option B)) l r :
  try_map f l = Ret (Some r) <-> Forall2 (fun x y => f x = Ret (Some y)) l r.
Proof.
  revert r. induction l as [|x l IH]; intros r; simpl.
  - split; [intros [= <-]; constructor|]. intros H; inversion H; done.
  - split.
    + intros H. inv. destruct x0 as [y|]; [|discriminate]. inv.
      destruct x0 as [ys|]; simpl in *; [|discriminate]. inv. subst.
      constructor; [done|]. by apply IH.
    + intros H; inversion H as [|? y ? ys Hx Hr]; subst. apply IH in Hr. rewrite Hx; simpl.
      by rewrite Hr.
Qed.

Lemma map_get_with_spec {K V R} `{EqDecision K} (f : V -> R) (k : K) (m : list (K * V)) :
  map_get_with f k m = option_map f (map_get m k).
Proof.
  unfold map_get. induction m as [|[k' v] r IH]; simpl; [done|].
  case_bool_decide; simpl; [done|]. exact IH.
Qed.

Lemma map_get_in {K V} `{EqDecision K} (m : list (K * V)) k v :
  map_get m k = Some v -> In (k, v) m.
Proof.
  unfold map_get. destruct (List.find _ m) as [[k' v']|] eqn:E; [|discriminate].
  intros [= <-]. apply List.find_some in E as [Hin Heq].
  apply bool_decide_eq_true in Heq; simpl in *; subst. done.
Qed.

Lemma forall2b_Forall2 {A B} (f : A -> B -> bool) l1 l2 :
  forall2b f l1 l2 = true <-> Forall2 (fun x y => f x y = true) l1 l2.
Proof.
  revert l2. induction l1 as [|x r IH]; intros [|y r2]; simpl.
  - split; constructor.
  - split; [discriminate|]. intros H; inversion H.
  - split; [discriminate|]. intros H; inversion H.
  - rewrite andb_true_iff, IH, list.Forall2_cons. done.
Qed.

(** ** Powers and bounds *)

Lemma size_bits_pow s : 2 ^ size_bits s = 256 ^ Z.of_N s.
Proof. unfold size_bits. rewrite Z.pow_mul_r by lia. done. Qed.

Lemma pow256_pos n : 0 < 256 ^ Z.of_N n.
Proof. apply Z.pow_pos_nonneg; lia. Qed.

Lemma size_bits_half s : s <> 0%N -> 2 ^ size_bits s = 2 * 2 ^ (size_bits s - 1).
Proof.
  intros. unfold size_bits.
  replace (8 * Z.of_N s) with (1 + (8 * Z.of_N s - 1)) at 1 by lia.
  rewrite Z.pow_add_r by lia. done.
Qed.

Lemma half_pos s : s <> 0%N -> 0 < 2 ^ (size_bits s - 1).
Proof. intros. apply Z.pow_pos_nonneg; unfold size_bits; lia. Qed.

Definition int_min (sg : Signedness) (s : Size) : Z :=
  match sg with Unsigned => 0 | Signed => if (s =? 0)%N then 0 else - 2 ^ (size_bits s - 1) end.
Definition int_max (sg : Signedness) (s : Size) : Z :=
  match sg with
  | Unsigned => 2 ^ size_bits s - 1
  | Signed => if (s =? 0)%N then 0 else 2 ^ (size_bits s - 1) - 1
  end.

Lemma in_bounds_spec sg s i :
  in_bounds sg s i = true <-> int_min sg s <= i <= int_max sg s.
Proof.
  unfold in_bounds, int_min, int_max. destruct (N.eqb_spec s 0) as [->|Hs].
  - destruct sg; unfold size_bits; simpl; lia.
  - destruct sg; rewrite andb_true_iff; lia.
Qed.

Lemma int_range sg s : int_max sg s - int_min sg s = 2 ^ size_bits s - 1.
Proof.
  unfold int_min, int_max. destruct sg; [|lia].
  destruct (N.eqb_spec s 0) as [->|Hs]; [done|].
  rewrite size_bits_half by done. lia.
Qed.

Lemma bring_in_bounds_in sg s i : in_bounds sg s (bring_in_bounds sg s i) = true.
Proof.
  unfold in_bounds, bring_in_bounds. destruct (N.eqb_spec s 0) as [->|Hs]; [done|].
  assert (0 < 2 ^ size_bits s) by (rewrite size_bits_pow; apply pow256_pos).
  destruct sg; rewrite andb_true_iff.
  - pose proof (Z.mod_pos_bound (i + 2 ^ (size_bits s - 1)) (2 ^ size_bits s)).
    rewrite size_bits_half in * by done. lia.
  - pose proof (Z.mod_pos_bound i (2 ^ size_bits s)). lia.
Qed.

Lemma bring_in_bounds_mod sg s i :
  bring_in_bounds sg s i mod 2 ^ size_bits s = i mod 2 ^ size_bits s.
Proof.
  unfold bring_in_bounds. destruct (N.eqb_spec s 0) as [->|Hs].
  { change (2 ^ size_bits 0) with 1. by rewrite !Z.mod_1_r. }
  assert (0 < 2 ^ size_bits s) by (rewrite size_bits_pow; apply pow256_pos).
  destruct sg.
  - rewrite Zminus_mod_idemp_l. f_equal. lia.
  - by rewrite Z.mod_mod by lia.
Qed.

Lemma in_bounds_unique sg s i j :
  in_bounds sg s i = true -> in_bounds sg s j = true ->
  i mod 2 ^ size_bits s = j mod 2 ^ size_bits s -> i = j.
Proof.
  rewrite !in_bounds_spec. intros Hi Hj Hm.
  assert (0 < 2 ^ size_bits s) by (rewrite size_bits_pow; apply pow256_pos).
  pose proof (int_range sg s).
  assert ((i - j) mod 2 ^ size_bits s = 0).
  { rewrite Zminus_mod, Hm, Z.sub_diag. apply Z.mod_0_l. lia. }
  apply Z.mod_divide in H1; [|lia]. destruct H1 as [k Hk].
  destruct (Z.eq_dec k 0); [lia|].
  assert (k <= -1 \/ 1 <= k) as [|] by lia; nia.
Qed.

Lemma bring_in_bounds_id sg s i : in_bounds sg s i = true -> bring_in_bounds sg s i = i.
Proof.
  intros. eapply in_bounds_unique; [apply bring_in_bounds_in|done|apply bring_in_bounds_mod].
Qed.

Lemma bring_in_bounds_idem sg s i :
  bring_in_bounds sg s (bring_in_bounds sg s i) = bring_in_bounds sg s i.
Proof. apply bring_in_bounds_id, bring_in_bounds_in. Qed.

Lemma bring_in_bounds_mod_eq sg s i j :
  i mod 2 ^ size_bits s = j mod 2 ^ size_bits s ->
  bring_in_bounds sg s i = bring_in_bounds sg s j.
Proof.
  intros Hm. eapply in_bounds_unique; try apply bring_in_bounds_in.
  by rewrite !bring_in_bounds_mod.
Qed.

(** ** Bytes *)

Lemma Z_of_byte_range b : 0 <= Z_of_byte b < 256.
Proof.
  unfold Z_of_byte. pose proof (Byte.to_N_bounded b). lia.
Qed.

Lemma Z_of_byte_of_Z z : Z_of_byte (byte_of_Z z) = z mod 256.
Proof.
  unfold Z_of_byte, byte_of_Z.
  pose proof (Z.mod_pos_bound z 256).
  destruct (Byte.of_N (Z.to_N (z mod 256))) as [b|] eqn:E.
  - apply Byte.to_of_N in E. rewrite E. lia.
  - apply Byte.of_N_None_iff in E. lia.
Qed.

Lemma byte_of_Z_mod z : byte_of_Z (z mod 256) = byte_of_Z z.
Proof. unfold byte_of_Z. by rewrite Z.mod_mod. Qed.

Lemma byte_of_Z_of_byte b : byte_of_Z (Z_of_byte b) = b.
Proof.
  unfold byte_of_Z, Z_of_byte. pose proof (Byte.to_N_bounded b).
  rewrite Z.mod_small by lia. by rewrite N2Z.id, Byte.of_to_N.
Qed.

Lemma le_encode_length n i : length (le_encode n i) = n.
Proof. revert i; induction n; intros; simpl; auto. Qed.

Lemma le_decode_range l : 0 <= le_decode l < 256 ^ Z.of_nat (length l).
Proof.
  induction l as [|b r IH]; [simpl; lia|]. cbn [le_decode length].
  rewrite Nat2Z.inj_succ, Z.pow_succ_r by lia.
  pose proof (Z_of_byte_range b). lia.
Qed.

Lemma le_decode_encode n i : le_decode (le_encode n i) = i mod 256 ^ Z.of_nat n.
Proof.
  revert i; induction n as [|n IH]; intros i; [cbn; by rewrite Z.mod_1_r|].
  cbn [le_encode le_decode].
  rewrite Z_of_byte_of_Z, IH, Nat2Z.inj_succ, Z.pow_succ_r by lia.
  rewrite (Z.rem_mul_r i 256) by (try apply Z.pow_pos_nonneg; lia). lia.
Qed.

Lemma le_encode_decode l : le_encode (length l) (le_decode l) = l.
Proof.
  induction l as [|b r IH]; [done|]. cbn [le_encode le_decode length].
  pose proof (Z_of_byte_range b).
  f_equal.
  - rewrite <- byte_of_Z_mod. rewrite Z.mul_comm, Z.mod_add, byte_of_Z_mod by lia.
    apply byte_of_Z_of_byte.
  - rewrite Z.mul_comm, Z.div_add, Z.div_small by lia. done.
Qed.

Lemma le_encode_mod n i j :
  i mod 256 ^ Z.of_nat n = j mod 256 ^ Z.of_nat n -> le_encode n i = le_encode n j.
Proof.
  intros H. rewrite <- (le_encode_decode (le_encode n i)), <- (le_encode_decode (le_encode n j)).
  rewrite !le_encode_length, !le_decode_encode. by rewrite H.
Qed.

Lemma endian_encode_length e sg s i l :
  endian_encode e sg s i = Some l -> N.of_nat (length l) = s.
Proof.
  unfold endian_encode. destruct (in_bounds sg s i); [|discriminate]. intros [= <-].
  destruct e; rewrite ?reverse_length, le_encode_length; lia.
Qed.

Lemma endian_encode_some e sg s i :
  in_bounds sg s i = true <-> exists l, endian_encode e sg s i = Some l.
Proof.
  unfold endian_encode. destruct (in_bounds sg s i); split; eauto; try done.
  intros [? ?]; done.
Qed.

Lemma endian_decode_in e sg l :
  in_bounds sg (N.of_nat (length l)) (endian_decode e sg l) = true.
Proof.
  unfold endian_decode. destruct e; rewrite ?reverse_length; apply bring_in_bounds_in.
Qed.

Lemma endian_decode_encode e sg s i l :
  endian_encode e sg s i = Some l -> endian_decode e sg l = i.
Proof.
  unfold endian_encode, endian_decode. destruct (in_bounds sg s i) eqn:E; [|discriminate].
  intros [= <-].
  assert (bring_in_bounds sg (N.of_nat (length (le_encode (N.to_nat s) i)))
            (le_decode (le_encode (N.to_nat s) i)) = i).
  { rewrite le_encode_length, N2Nat.id, le_decode_encode.
    rewrite N_nat_Z, <- size_bits_pow.
    rewrite <- (bring_in_bounds_id sg s i E) at 2. apply bring_in_bounds_mod_eq.
    apply Z.mod_mod. rewrite size_bits_pow. pose proof (pow256_pos s). lia. }
  destruct e; rewrite ?reverse_involutive; done.
Qed.

Lemma endian_encode_decode e sg l :
  endian_encode e sg (N.of_nat (length l)) (endian_decode e sg l) = Some l.
Proof.
  unfold endian_encode. rewrite endian_decode_in. f_equal.
  unfold endian_decode.
  assert (forall l, le_encode (length l) (bring_in_bounds sg (N.of_nat (length l)) (le_decode l)) = l)
    as Hl.
  { intros l'. rewrite <- (le_encode_decode l') at 4. apply le_encode_mod.
    pose proof (bring_in_bounds_mod sg (N.of_nat (length l')) (le_decode l')) as Hm.
    rewrite size_bits_pow, nat_N_Z in Hm. done. }
  rewrite Nat2N.id.
  destruct e; [apply Hl|].
  rewrite <- (reverse_length l), Hl. apply reverse_involutive.
Qed.

(** ** Alignment *)

Lemma align_bytes_pos a : (0 < align_bytes a)%N.
Proof. unfold align_bytes. apply N.neq_0_lt_0, N.pow_nonzero. done. Qed.

Lemma align_to_spec s a :
  (s <= align_to s a)%N /\ (align_to s a mod align_bytes a = 0)%N /\
  (align_to s a < s + align_bytes a)%N.
Proof.
  unfold align_to. pose proof (align_bytes_pos a) as Hp. set (b := align_bytes a) in *.
  assert (b <> 0)%N by lia.
  pose proof (N.div_mod (s + b - 1) b ltac:(done)).
  pose proof (N.mod_lt (s + b - 1) b ltac:(done)).
  split; [|split].
  - nia.
  - apply N.mod_mul. done.
  - nia.
Qed.

Lemma align_to_id s a : (s mod align_bytes a = 0)%N -> align_to s a = s.
Proof.
  intros Hs. unfold align_to. pose proof (align_bytes_pos a) as Hp.
  set (b := align_bytes a) in *.
  apply N.mod_divides in Hs; [|lia]. destruct Hs as [c ->].
  replace (b * c + b - 1)%N with (c * b + (b - 1))%N by lia.
  rewrite N.div_add_l, (N.div_small (b - 1)) by lia. lia.
Qed.

Lemma align_to_least s a m :
  (s <= m)%N -> (m mod align_bytes a = 0)%N -> (align_to s a <= m)%N.
Proof.
  intros Hs Hm. unfold align_to. pose proof (align_bytes_pos a) as Hp.
  set (b := align_bytes a) in *.
  apply N.mod_divides in Hm; [|lia]. destruct Hm as [c ->].
  assert ((s + b - 1) / b < c + 1)%N; [|nia].
  apply N.div_lt_upper_bound; nia.
Qed.

Lemma align_from_bytes_some n a :
  align_from_bytes n = Some a <-> align_bytes a = n.
Proof.
  unfold align_from_bytes, is_power_of_two, align_bytes. split.
  - destruct (N.eqb_spec n 0), (N.eqb_spec n (2 ^ N.log2 n)); simpl; try discriminate.
    intros [= <-]. done.
  - intros <-. destruct a as [k]. simpl. rewrite N.log2_pow2 by lia.
    rewrite N.eqb_refl. destruct (N.eqb_spec (2 ^ k) 0) as [E|]; [|done].
    apply N.pow_nonzero in E; done.
Qed.

Lemma align_le_divides a b :
  align_le a b = true -> (align_bytes b mod align_bytes a = 0)%N.
Proof.
  unfold align_le, align_bytes. intros H%N.leb_le.
  replace (align_log2 b) with (align_log2 a + (align_log2 b - align_log2 a))%N by lia.
  rewrite N.pow_add_r, N.mul_comm. apply N.mod_mul, N.pow_nonzero. done.
Qed.

Lemma align_le_bytes a b : align_le a b = true <-> (align_bytes a <= align_bytes b)%N.
Proof.
  unfold align_le, align_bytes. rewrite N.leb_le. apply N.pow_le_mono_r_iff. lia.
Qed.

Lemma N_mod_mod_divide (a b c : N) :
  (c <> 0)%N -> (b <> 0)%N -> (a mod b = 0)%N -> (b mod c = 0)%N -> (a mod c = 0)%N.
Proof.
  intros Hc Hb Ha Hbc. apply N.mod_divides in Ha as [x ->]; [|done].
  apply N.mod_divides in Hbc as [y ->]; [|done].
  replace (c * y * x)%N with ((y * x) * c)%N by lia. apply N.mod_mul. done.
Qed.

(** ** Sub-slices *)

Lemma subslice_ret {A} (l : list A) off len r :
  subslice l off len = Ret r <->
  (N.to_nat off + N.to_nat len <= length l)%nat /\ r = take (N.to_nat len) (drop (N.to_nat off) l).
Proof.
  unfold subslice. destruct (Nat.leb_spec (N.to_nat off + N.to_nat len) (length l)).
  - split; [intros [= <-]; done|]. intros [_ ->]; done.
  - split; [discriminate|lia].
Qed.

Lemma subslice_length {A} (l : list A) off len r :
  subslice l off len = Ret r -> N.of_nat (length r) = len.
Proof.
  rewrite subslice_ret. intros [Hl ->]. rewrite take_length, drop_length. lia.
Qed.

Lemma write_subslice_ret {A} (l : list A) off new r :
  write_subslice l off new = Ret r <->
  (N.to_nat off + length new <= length l)%nat /\
  r = take (N.to_nat off) l ++ new ++ drop (N.to_nat off + length new) l.
Proof.
  unfold write_subslice. destruct (Nat.leb_spec (N.to_nat off + length new) (length l)).
  - split; [intros [= <-]; done|]. intros [_ ->]; done.
  - split; [discriminate|lia].
Qed.

Lemma write_subslice_length {A} (l : list A) off new r :
  write_subslice l off new = Ret r -> length r = length l.
Proof.
  rewrite write_subslice_ret. intros [Hl ->].
  rewrite !app_length, take_length, drop_length. lia.
Qed.

(** Byte [i] of the result of a write *)
Lemma write_subslice_lookup {A} (l : list A) off new r i :
  write_subslice l off new = Ret r ->
  r !! i = if (N.to_nat off <=? i)%nat && (i <? N.to_nat off + length new)%nat
           then new !! (i - N.to_nat off)%nat else l !! i.
Proof.
  rewrite write_subslice_ret. intros [Hl ->].
  destruct (Nat.leb_spec (N.to_nat off) i); simpl.
  - rewrite lookup_app_r by (rewrite take_length; lia).
    rewrite take_length_le by lia.
    destruct (Nat.ltb_spec i (N.to_nat off + length new)).
    + rewrite lookup_app_l by lia. done.
    + rewrite lookup_app_r by lia. rewrite lookup_drop. f_equal. lia.
  - rewrite lookup_app_l by (rewrite take_length; lia).
    apply lookup_take. lia.
Qed.

Lemma subslice_lookup {A} (l : list A) off len r i :
  subslice l off len = Ret r -> (i < N.to_nat len)%nat -> r !! i = l !! (N.to_nat off + i)%nat.
Proof.
  rewrite subslice_ret. intros [Hl ->] Hi. rewrite lookup_take by done. apply lookup_drop.
Qed.

Lemma subslice_total {A} (l : list A) off len :
  (off + len <= N.of_nat (length l))%N -> exists r, subslice l off len = Ret r.
Proof. intros. eexists. apply subslice_ret. split; [lia|done]. Qed.

Lemma write_subslice_total {A} (l : list A) off new :
  (off + N.of_nat (length new) <= N.of_nat (length l))%N -> exists r, write_subslice l off new = Ret r.
Proof. intros. eexists. apply write_subslice_ret. split; [lia|done]. Qed.

(** reading back what was written *)
Lemma subslice_write_same {A} (l : list A) off new r :
  write_subslice l off new = Ret r -> subslice r off (N.of_nat (length new)) = Ret new.
Proof.
  intros H. pose proof (write_subslice_length _ _ _ _ H) as Hlen.
  apply write_subslice_ret in H as [Hl ->].
  apply subslice_ret. rewrite Nat2N.id. split.
  - rewrite Hlen. lia.
  - rewrite drop_app_alt by (rewrite take_length; lia). by rewrite take_app.
Qed.

(** reading a disjoint range *)
Lemma subslice_write_disjoint {A} (l : list A) off new r off' len' :
  write_subslice l off new = Ret r ->
  (off' + len' <= off \/ off + N.of_nat (length new) <= off')%N ->
  subslice r off' len' = subslice l off' len'.
Proof.
  intros H Hd. pose proof (write_subslice_length _ _ _ _ H) as Hlen.
  unfold subslice. rewrite Hlen. destruct (Nat.leb_spec (N.to_nat off' + N.to_nat len') (length l)); [|done].
  f_equal. apply list_eq. intros i.
  destruct (decide (i < N.to_nat len')%nat).
  - rewrite !lookup_take, !lookup_drop by done.
    rewrite (write_subslice_lookup _ _ _ _ _ H).
    destruct (Nat.leb_spec (N.to_nat off) (N.to_nat off' + i)); simpl; [|done].
    destruct (Nat.ltb_spec (N.to_nat off' + i) (N.to_nat off + length new)); [lia|done].
  - rewrite !lookup_take_ge by lia. done.
Qed.

Lemma list_repeat_length {A} (x : A) n : length (list_repeat x n) = N.to_nat n.
Proof. apply replicate_length. Qed.

(** ** Sorting *)

Lemma insert_by_key_perm {A} (key : A -> N) x l : insert_by_key key x l ≡ₚ x :: l.
Proof.
  induction l as [|y r IH]; simpl; [done|]. destruct (key x <=? key y)%N; [done|].
  rewrite IH. constructor.
Qed.

Lemma sort_by_key_perm {A} (key : A -> N) l : sort_by_key key l ≡ₚ l.
Proof. induction l as [|x r IH]; simpl; [done|]. by rewrite insert_by_key_perm, IH. Qed.
