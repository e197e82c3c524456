(** Lemmas about writing several disjoint parts into a byte list. *)
From Verif Require Export BaseProofs.
From Coq Require Import ZifyBool ZifyN ZifyNat.

Definition write_all {A} (ps : list (N * list A)) (b : list A) : Outcome (list A) :=
  fold_m (fun b p => write_subslice b (fst p) (snd p)) ps b.

(** two ranges (offset, length) do not overlap *)
Definition rdisj (a b : N * N) : Prop := (fst a + snd a <= fst b \/ fst b + snd b <= fst a)%N.

Lemma rdisj_sym a b : rdisj a b -> rdisj b a.
Proof. unfold rdisj. lia. Qed.

Definition part_range {A} (p : N * list A) : N * N := (fst p, N.of_nat (length (snd p))).

Definition range_has (r : N * N) (i : nat) : Prop :=
  (N.to_nat (fst r) <= i < N.to_nat (fst r) + N.to_nat (snd r))%nat.

Lemma ForallOrdPairs_perm {A} (R : A -> A -> Prop) l l' :
  (forall x y, R x y -> R y x) -> l ≡ₚ l' -> ForallOrdPairs R l -> ForallOrdPairs R l'.
Proof.
  intros Hsym Hp. induction Hp as [|x l l' Hp IH|x y l|l l' l'' ? IH1 ? IH2]; intros HF; auto.
  - inversion HF; subst. constructor; [|auto]. by rewrite <- Hp.
  - inversion HF as [|? ? Hy Hl]; subst. inversion Hl as [|? ? Hx Hl']; subst.
    inversion Hy; subst. constructor; [constructor; auto|]. constructor; auto.
Qed.

Lemma ForallOrdPairs_impl {A} (R S : A -> A -> Prop) l :
  ForallOrdPairs R l -> (forall x y, R x y -> S x y) -> ForallOrdPairs S l.
Proof.
  intros H Hi. induction H as [|x l Hx Hl IH]; constructor; auto.
  eapply Forall_impl; [exact Hx|]. auto.
Qed.

Lemma ForallOrdPairs_map {A B} (f : A -> B) (R : B -> B -> Prop) l :
  ForallOrdPairs R (List.map f l) <-> ForallOrdPairs (fun x y => R (f x) (f y)) l.
Proof.
  induction l as [|x l IH]; simpl; [split; constructor|].
  split; intros H; inversion H as [|? ? Hx Hl]; subst; constructor.
  - rewrite List.Forall_map in Hx; exact Hx.
  - by apply IH.
  - rewrite List.Forall_map; exact Hx.
  - by apply IH.
Qed.

Lemma write_all_length {A} ps (b r : list A) : write_all ps b = Ret r -> length r = length b.
Proof.
  revert b. induction ps as [|p ps IH]; intros b; simpl; intros H; inv; subst; [done|].
  apply IH in H1. apply write_subslice_length in H0. lia.
Qed.

Lemma write_all_total {A} ps (b : list A) :
  Forall (fun p => (fst (part_range p) + snd (part_range p) <= N.of_nat (length b))%N) ps ->
  exists r, write_all ps b = Ret r.
Proof.
  revert b. induction ps as [|p ps IH]; intros b HF; simpl; [eauto|].
  inversion HF as [|? ? Hp Hps]; subst.
  destruct (write_subslice_total b (fst p) (snd p) Hp) as [r Hr]. rewrite Hr. simpl.
  apply IH. rewrite (write_subslice_length _ _ _ _ Hr). done.
Qed.

Lemma write_all_bounds {A} ps (b r : list A) :
  write_all ps b = Ret r ->
  Forall (fun p => (fst (part_range p) + snd (part_range p) <= N.of_nat (length b))%N) ps.
Proof.
  revert b. induction ps as [|p ps IH]; intros b; simpl; intros H; [constructor|]. inv.
  pose proof (write_subslice_length _ _ _ _ H0) as Hl.
  apply write_subslice_ret in H0 as [Hb _]. constructor.
  - unfold part_range; simpl. lia.
  - apply IH in H1. rewrite Hl in H1. done.
Qed.

(** Outside all the parts nothing changes. *)
Lemma write_all_outside {A} ps (b r : list A) i :
  write_all ps b = Ret r ->
  Forall (fun p => ~ range_has (part_range p) i) ps -> r !! i = b !! i.
Proof.
  revert b. induction ps as [|p ps IH]; intros b; simpl; intros H HF; inv; subst; [done|].
  inversion HF as [|? ? Hp Hps]; subst. rewrite (IH _ H1 Hps).
  rewrite (write_subslice_lookup _ _ _ _ i H0). unfold range_has, part_range in Hp; simpl in Hp.
  destruct (Nat.leb_spec (N.to_nat (fst p)) i); simpl; [|done].
  destruct (Nat.ltb_spec i (N.to_nat (fst p) + length (snd p))); [lia|done].
Qed.

(** Reading a range disjoint from all parts. *)
Lemma write_all_subslice_outside {A} ps (b r : list A) off len :
  write_all ps b = Ret r ->
  Forall (fun p => rdisj (part_range p) (off, len)) ps ->
  subslice r off len = subslice b off len.
Proof.
  revert b. induction ps as [|p ps IH]; intros b; simpl; intros H HF; inv; subst; [done|].
  inversion HF as [|? ? Hp Hps]; subst. rewrite (IH _ H1 Hps).
  eapply subslice_write_disjoint; [exact H0|].
  unfold rdisj, part_range in Hp; simpl in Hp. lia.
Qed.

(** Each part of a family of pairwise disjoint parts can be read back. *)
Lemma write_all_readback {A} ps (b r : list A) :
  write_all ps b = Ret r ->
  ForallOrdPairs (fun p q => rdisj (part_range p) (part_range q)) ps ->
  Forall (fun p => subslice r (fst p) (N.of_nat (length (snd p))) = Ret (snd p)) ps.
Proof.
  revert b. induction ps as [|p ps IH]; intros b; simpl; intros H HF; [constructor|]. inv.
  inversion HF as [|? ? Hp Hps]; subst. constructor; [|by eapply IH].
  rewrite (write_all_subslice_outside _ _ _ _ _ H1).
  - by eapply subslice_write_same.
  - eapply Forall_impl; [exact Hp|]. intros q Hq. apply rdisj_sym in Hq. exact Hq.
Qed.

(** Pointwise relation between two runs of [write_all]. *)
Lemma write_subslice_rel {A B} (R : A -> B -> Prop) b1 b2 off n1 n2 r1 r2 :
  Forall2 R b1 b2 -> Forall2 R n1 n2 ->
  write_subslice b1 off n1 = Ret r1 -> write_subslice b2 off n2 = Ret r2 -> Forall2 R r1 r2.
Proof.
  intros Hb Hn H1 H2. apply write_subslice_ret in H1 as [_ ->], H2 as [_ ->].
  rewrite (Forall2_length _ _ _ Hn).
  repeat apply Forall2_app; auto using Forall2_take, Forall2_drop.
Qed.

Lemma write_all_rel {A B} (R : A -> B -> Prop) ps1 ps2 b1 b2 r1 r2 :
  Forall2 R b1 b2 ->
  Forall2 (fun p1 p2 => fst p1 = fst p2 /\ Forall2 R (snd p1) (snd p2)) ps1 ps2 ->
  write_all ps1 b1 = Ret r1 -> write_all ps2 b2 = Ret r2 -> Forall2 R r1 r2.
Proof.
  intros Hb Hps. revert b1 b2 Hb. induction Hps as [|p1 p2 ps1 ps2 [Hf Hp] Hps IH];
    intros b1 b2 Hb H1 H2; simpl in *; inv; subst; [done|].
  eapply IH; [|eassumption..]. eapply write_subslice_rel; [exact Hb|exact Hp|..]; eauto.
  by rewrite Hf.
Qed.

(** Writing parts that are all below a bound gives something below the bound. *)
Lemma write_all_below {A B} (R : A -> B -> Prop) ps (b r : list A) (bound : list B) :
  Forall2 R b bound ->
  Forall (fun p => exists s, subslice bound (fst p) (N.of_nat (length (snd p))) = Ret s /\
                             Forall2 R (snd p) s) ps ->
  write_all ps b = Ret r -> Forall2 R r bound.
Proof.
  revert b. induction ps as [|p ps IH]; intros b Hb HF H; simpl in *; inv; subst; [done|].
  inversion HF as [|? ? (s & Hs & Hp) Hps]; subst. eapply IH; [|exact Hps|exact H1].
  clear IH HF Hps H1. apply Forall2_same_length_lookup_2.
  - rewrite (write_subslice_length _ _ _ _ H0). by apply Forall2_length in Hb.
  - intros i y z Hy Hz. rewrite (write_subslice_lookup _ _ _ _ i H0) in Hy.
    destruct (_ && _) eqn:E.
    + apply andb_true_iff in E as [E1%Nat.leb_le E2%Nat.ltb_lt].
      pose proof (subslice_lookup _ _ _ _ (i - N.to_nat (fst p)) Hs) as Hl.
      rewrite Nat2N.id in Hl. specialize (Hl ltac:(lia)).
      replace (N.to_nat (fst p) + (i - N.to_nat (fst p)))%nat with i in Hl by lia.
      rewrite Hz in Hl. eapply Forall2_lookup_lr; [exact Hp|exact Hy|exact Hl].
    + eapply Forall2_lookup_lr; [exact Hb|exact Hy|exact Hz].
Qed.

(** The [fold_m2] loops of the encoders are [write_all] of the encoded parts. *)
Lemma fold_m2_parts {F V A} (off : F -> N) (enc : F -> V -> Outcome (list A)) fs vs b0 r :
  length vs = length fs ->
  fold_m2 (fun b f v => let! e := enc f v in write_subslice b (off f) e) fs vs b0 = Ret r <->
  exists es, Forall2 (fun fv e => enc (fst fv) (snd fv) = Ret e) (zip fs vs) es /\
             write_all (zip (List.map off fs) es) b0 = Ret r.
Proof.
  revert vs b0. induction fs as [|f fs IH]; intros [|v vs] b0 Hl; simpl in *; try discriminate.
  - split.
    + intros [= <-]. exists []. split; [constructor|done].
    + intros (es & He & Hw). inversion He; subst. done.
  - split.
    + intros H. apply obind_ret in H as (b1 & H1 & H). apply obind_ret in H1 as (e & He1 & H1).
      apply IH in H as (es & He & Hw); [|lia].
      exists (e :: es). split; [by constructor|]. simpl. rewrite H1. done.
    + intros (es & He & Hw). inversion He as [|? e ? es' Hfe Hes]; subst. simpl in *.
      rewrite Hfe; simpl. apply obind_ret in Hw as (b1 & Hb1 & Hw). simpl in Hb1. rewrite Hb1; simpl.
      apply IH; [lia|]. eauto.
Qed.

(** Sequential scan over offsets, as the well-formedness checks do it: in ascending order and
    without overlap. *)
Lemma ascending_scan {A} (off sz : A -> N) l e0 e1 :
  fold_m (fun last x => if (last <=? off x)%N then Ret (off x + sz x)%N else Panic) l e0 = Ret e1 ->
  (e0 <= e1)%N /\
  Forall (fun x => e0 <= off x /\ off x + sz x <= e1)%N l /\
  ForallOrdPairs (fun x y => off x + sz x <= off y)%N l.
Proof.
  revert e0. induction l as [|x l IH]; intros e0; simpl.
  - intros [= ->]. repeat split; [lia|constructor|constructor].
  - destruct (N.leb_spec e0 (off x)); simpl; [|discriminate]. intros Hs.
    apply IH in Hs as (H1 & H2 & H3). repeat split; [lia|..].
    + constructor; [lia|]. eapply Forall_impl; [exact H2|]. simpl; intros; lia.
    + constructor; [|done]. eapply Forall_impl; [exact H2|]. simpl; intros; lia.
Qed.
