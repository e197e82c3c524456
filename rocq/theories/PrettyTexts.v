(** The reader of PrettyRead.v gets back the numbers and types that were printed. *)
From Coq Require Import Ascii String DecimalString.
From Verif Require Export PrettyRead.
Local Open Scope string_scope.

Lemma str_assoc (a b c : string) : (a ++ b) ++ c = a ++ b ++ c.
Proof. induction a as [|x a IH]; [done|]. cbn. by rewrite IH. Qed.
Lemma str_nil (a : string) : a ++ "" = a.
Proof. induction a as [|x a IH]; [done|]. cbn. by rewrite IH. Qed.
Lemma str_cons c (a b : string) : String c a ++ b = String c (a ++ b).
Proof. done. Qed.

Definition nodigit (s : string) : Prop := match s with String c _ => digit_value c = None | EmptyString => True end.

Lemma read_digits_ok s : forall acc n r, numeral acc s = Some n -> nodigit r -> read_digits acc (s ++ r) = (n, r).
Proof.
  induction s as [|c s IH]; intros acc n r Hn Hr; cbn [numeral append read_digits] in *.
  - injection Hn as ->. destruct r as [|c r]; [done|]. cbn in Hr |- *. by rewrite Hr.
  - destruct (digit_value c) as [d|]; [|done]. by apply IH.
Qed.
Lemma decimal_head n s : decimal_nat n s -> exists c r d, s = String c r /\ digit_value c = Some d.
Proof.
  intros (Hn & Hne & _). destruct s as [|c r]; [done|]. cbn [numeral] in Hn. destruct (digit_value c) as [d|] eqn:Ed; [|done]. by exists c, r, d.
Qed.
Lemma read_decimal n s r : decimal_nat n s -> nodigit r -> read_nat (s ++ r) = Some (n, r).
Proof.
  intros Hd Hr. destruct (decimal_head _ _ Hd) as (c & r0 & d & -> & Ed). cbn [append read_nat]. rewrite Ed.
  by rewrite <- str_cons, (read_digits_ok _ _ n) by (done || apply Hd).
Qed.
Lemma read_nat_ok n r : nodigit r -> read_nat (show_nat n ++ r) = Some (n, r).
Proof.
  intros Hr. unfold show_nat, show_int. destruct (int_decimal (Z.of_N n)) as [[_ H]|[H _]]; [|lia]. rewrite N2Z.id in H. by apply read_decimal.
Qed.
Lemma digit_not_minus c d : digit_value c = Some d -> Ascii.eqb "-" c = false.
Proof. intros H. destruct (Ascii.eqb_spec "-" c) as [<-|]; done. Qed.
Lemma read_int_ok i r : nodigit r -> read_int (show_int i ++ r) = Some (i, r).
Proof.
  intros Hr. unfold show_int, read_int. destruct (int_decimal i) as [[H0 H]|[H0 (s & -> & H)]].
  - destruct (decimal_head _ _ H) as (c & r0 & d & E & Ed). rewrite E in H |- *. cbn [append eat]. rewrite (digit_not_minus _ _ Ed).
    rewrite <- str_cons, (read_decimal _ _ _ H Hr). cbn [then_]. by rewrite Z2N.id.
  - cbn [append eat]. change (Ascii.eqb "-" "-") with true. cbv iota beta. rewrite (read_decimal _ _ _ H Hr). cbn [then_]. rewrite Z2N.id by lia. by rewrite Z.opp_involutive.
Qed.
Lemma read_align_ok a r : nodigit r -> read_align (show_nat (align_bytes a) ++ r) = Some (a, r).
Proof. intros Hr. unfold read_align. rewrite read_nat_ok by done. cbn [then_]. destruct a as [k]. unfold align_bytes. cbn [align_log2]. by rewrite N.log2_pow2 by lia. Qed.

Ltac nd := first [assumption|reflexivity|exact I|done].
Ltac rd := repeat first
  [ progress cbn [alt eat append Ascii.eqb Bool.eqb then_ expect fst snd List.map to_string to_atomic_string]
  | rewrite str_assoc | rewrite read_nat_ok by nd | rewrite read_int_ok by nd | rewrite read_align_ok by nd ].

(** ** Types *)

Lemma read_meta_ok k r : read_meta_kind (fmt_meta_kind k ++ r) = Some (k, r).
Proof. unfold read_meta_kind. destruct k as [| |tn]; cbn [fmt_meta_kind]; unfold fmt_trait_name; by rd. Qed.

Lemma read_layout_ok l : exists n0, forall n r, (n0 <= n)%nat -> nodigit r ->
  read_layout n (meta_trait (layout_meta_kind l)) (fmt_layout_strategy l ++ r) = Some (l, r).
Proof.
  induction l as [s a|s a|tn|h l [n0 IH]].
  - exists 1%nat. intros [|n] r Hn Hr; [lia|]. cbn [read_layout fmt_layout_strategy]. by rd.
  - exists 1%nat. intros [|n] r Hn Hr; [lia|]. cbn [read_layout fmt_layout_strategy]. by rd.
  - exists 1%nat. intros [|n] r Hn Hr; [lia|]. cbn [read_layout fmt_layout_strategy]. by rd.
  - exists (S n0). intros [|n] r Hn Hr; [lia|]. cbn [read_layout fmt_layout_strategy]. destruct h as [e a [p|]]; cbn [th_end th_align th_packed layout_meta_kind]; rd.
    + rewrite IH by (lia || done). by rd.
    + rewrite IH by (lia || done). by rd.
Qed.

Lemma read_pointee_ok pi : exists n0, forall n r, (n0 <= n)%nat -> read_pointee n (fmt_pointee_info pi ++ r) = Some (forget_pointee pi, r).
Proof.
  destruct (read_layout_ok (pi_layout pi)) as [n0 H]. exists n0. intros n r Hn. unfold read_pointee, fmt_pointee_info. rd.
  rewrite read_meta_ok. rd. rewrite H; [|done|destruct (pi_inhabited pi), (pi_freeze pi), (pi_unpin pi); done].
  unfold forget_pointee. destruct pi as [l i c f u]. cbn [pi_layout pi_inhabited pi_freeze pi_unpin]. unfold read_flag. destruct i, f, u; by rd.
Qed.

Lemma pointee_head pi r : exists t, fmt_pointee_info pi ++ r = String "p" t.
Proof. unfold fmt_pointee_info. cbn [append]. by eexists. Qed.
Lemma read_ptr_ok pt : exists n0, forall n r, (n0 <= n)%nat -> read_ptr n (to_string (fmt_ptr_type pt) ++ r) = Some (forget_ptr pt, r).
Proof.
  destruct pt as [m pi|pi|mk| |tn].
  - destruct (read_pointee_ok pi) as [n0 H]. exists n0. intros n r Hn. unfold read_ptr. destruct m; cbn [fmt_ptr_type]; rd.
    + rewrite H by done. by rd.
    + destruct (pointee_head pi r) as [t E]. specialize (H n r Hn). rewrite E in H |- *. rd. rewrite H. by rd.
  - destruct (read_pointee_ok pi) as [n0 H]. exists n0. intros n r Hn. unfold read_ptr. cbn [fmt_ptr_type]. rd. rewrite H by done. by rd.
  - exists 0%nat. intros n r Hn. unfold read_ptr. cbn [fmt_ptr_type]. rd. rewrite read_meta_ok. by rd.
  - exists 0%nat. intros n r Hn. unfold read_ptr. cbn [fmt_ptr_type]. by rd.
  - exists 0%nat. intros n r Hn. unfold read_ptr. cbn [fmt_ptr_type]. by rd.
Qed.

Lemma show_bits s : show_int (8 * Z.of_N s) = show_nat (8 * s).
Proof. unfold show_nat. f_equal. lia. Qed.
Lemma bits_size s : (8 * s / 8 = s)%N.
Proof. rewrite N.mul_comm. by apply N.div_mul. Qed.
Lemma read_int_ty_ok it r : nodigit r -> read_int_ty (fmt_int_type it ++ r) = Some (it, r).
Proof.
  intros Hr. unfold read_int_ty, fmt_int_type. destruct it as [[] s]; cbn [it_signed it_size]; rewrite show_bits; rd; by rewrite bits_size.
Qed.

(** ** The table of composite types *)

Lemma position_get t ct i : position t ct = Some i -> ct !! i = Some t.
Proof.
  revert i. induction ct as [|x ct IH]; intros i; cbn [position]; [done|]. case_bool_decide as E; [intros [= <-]; by subst|].
  destruct (position t ct) as [j|]; [|done]. intros [= <-]. cbn. by apply IH.
Qed.
Lemma position_none t ct : position t ct = None -> t ∉ ct.
Proof.
  induction ct as [|x ct IH]; cbn [position]; [intros _ H; inversion H|]. case_bool_decide as E; [done|].
  destruct (position t ct); [done|]. intros _ H. apply elem_of_cons in H as [->|H]; [done|]. by apply IH.
Qed.
Lemma index_get t ct i ct' : get_comptype_index t ct = (i, ct') -> ct' !! i = Some t /\ ct `prefix_of` ct'.
Proof.
  unfold get_comptype_index. destruct (position t ct) as [j|] eqn:E; intros [= <- <-].
  - split; [by apply position_get|done].
  - split; [by apply list_lookup_middle|by apply prefix_app_r].
Qed.

Lemma type_grows t : forall ct f ct', fmt_type t ct = (f, ct') -> ct `prefix_of` ct'.
Proof.
  induction t as [it| |pt|fs h u IHf IHu|e n IH|e IH|fs ch s a IHf|vs dt d s a IHv|tn] using Ty_ind'; intros ct f ct' H; cbn [fmt_type] in H; try (by injection H as <- <-).
  all: try (destruct (get_comptype_index _ ct) as [i ct1] eqn:E; injection H as <- <-; by eapply index_get).
  all: destruct (fmt_type e ct) as [g ct1] eqn:E; injection H as <- <-; by eapply IH.
Qed.

Lemma prefix_get (F ct : list Ty) i t : ct `prefix_of` F -> ct !! i = Some t -> F !! i = Some t.
Proof. intros [k ->] H. by apply lookup_app_l_Some. Qed.

Section Table.
  Variable F : list Ty.

  Lemma read_comp_ok t ct i ct' r : get_comptype_index t ct = (i, ct') -> ct' `prefix_of` F -> nodigit r ->
    read_comp F (show_nat (N.of_nat i) ++ r) = Some (t, r).
  Proof.
    intros H HF Hr. unfold read_comp. rd. rewrite Nat2N.id. apply index_get in H as [H _]. by rewrite (prefix_get _ _ _ _ HF H).
  Qed.

  Lemma ptr_not_ty n pt r : read_ty F (S n) (to_string (fmt_ptr_type pt) ++ r) = (let* q, r := read_ptr n (to_string (fmt_ptr_type pt) ++ r) in Some (TPtr q, r)).
  Proof. cbn [read_ty]. destruct pt as [[] pi|pi|mk| |tn]; cbn [fmt_ptr_type]; by rd. Qed.

  Lemma read_ty_ok t : forall ct f ct', fmt_type t ct = (f, ct') -> ct' `prefix_of` F ->
    exists n0, forall n r, (n0 <= n)%nat -> nodigit r -> read_ty F n (to_string f ++ r) = Some (forget_ty t, r).
  Proof.
    induction t as [it| |pt|fs h u IHf IHu|e n IH|e IH|fs ch s a IHf|vs dt d s a IHv|tn] using Ty_ind'; intros ct f ct' H HF; cbn [fmt_type] in H.
    - injection H as <- <-. exists 1%nat. intros [|k] r Hk Hr; [lia|]. cbn [read_ty to_string]. unfold fmt_int_type.
      destruct it as [[] s]; cbn [it_signed it_size]; rewrite show_bits; rd; by rewrite bits_size.
    - injection H as <- <-. exists 1%nat. intros [|k] r Hk Hr; [lia|]. cbn [read_ty]. by rd.
    - injection H as <- <-. destruct (read_ptr_ok pt) as [n0 Hp]. exists (S n0). intros [|k] r Hk Hr; [lia|].
      rewrite ptr_not_ty, Hp by lia. by rd.
    - destruct (get_comptype_index _ ct) as [i ct1] eqn:E. injection H as <- <-. exists 1%nat. intros [|k] r Hk Hr; [lia|].
      cbn [read_ty]. unfold fmt_comptype_index. rd. by apply (read_comp_ok _ _ _ _ _ E HF).
    - destruct (fmt_type e ct) as [g ct1] eqn:E. injection H as <- <-. destruct (IH _ _ _ E HF) as [n0 He]. exists (S n0). intros [|k] r Hk Hr; [lia|].
      cbn [read_ty]. rd. rewrite He by (lia || done). by rd.
    - destruct (fmt_type e ct) as [g ct1] eqn:E. injection H as <- <-. destruct (IH _ _ _ E HF) as [n0 He]. exists (S n0). intros [|k] r Hk Hr; [lia|].
      cbn [read_ty]. rd. rewrite He by (lia || done). by rd.
    - destruct (get_comptype_index _ ct) as [i ct1] eqn:E. injection H as <- <-. exists 1%nat. intros [|k] r Hk Hr; [lia|].
      cbn [read_ty]. unfold fmt_comptype_index. rd. by apply (read_comp_ok _ _ _ _ _ E HF).
    - destruct (get_comptype_index _ ct) as [i ct1] eqn:E. injection H as <- <-. exists 1%nat. intros [|k] r Hk Hr; [lia|].
      cbn [read_ty]. unfold fmt_comptype_index. rd. by apply (read_comp_ok _ _ _ _ _ E HF).
    - injection H as <- <-. exists 1%nat. intros [|k] r Hk Hr; [lia|]. cbn [read_ty]. unfold fmt_trait_name. by rd.
  Qed.
End Table.
