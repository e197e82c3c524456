(** The printed text of an expression determines it, up to what PrettySpec.v says is left out. *)
From Coq Require Import Ascii String DecimalString.
From Verif Require Export PrettyExprs.
Local Open Scope string_scope.

Lemma pair_inv {A B} (a c : A) (b d : B) : (a, b) = (c, d) -> a = c /\ b = d.
Proof. by intros [= -> ->]. Qed.
Lemma ret_inv {A B} (a c : A) (b d : B) : Ret (a, b) = Ret (c, d) -> a = c /\ b = d.
Proof. by intros [= -> ->]. Qed.

Section Backwards.
  Variable F : list Ty.
  Notation rv := (read_value F).
  Notation ra := (read_atom F).
  Notation rp := (read_place F).
  Notation rpa := (read_patom F).

  Ltac rx := repeat first [rewrite str_assoc | rewrite expect_app | rewrite read_nat_ok by nd | rewrite read_int_ok by nd | progress cbn [then_]].
  Ltac nosp := let r := fresh in let Hr := fresh in intros r Hr; rewrite ?str_assoc; repeat (constructor; [reflexivity|]); constructor.

  Lemma constant_text c : good_text F (fmt_constant c) (EConstant c no_type) 3.
  Proof.
    destruct c as [i|b|g|f|v|a]; cbn [fmt_constant].
    - split; [|intros [|n] r Hn Hr; [lia|by apply ra_int]]. intros r Hr.
      destruct (int_head i r) as (c & s & -> & [Hc|(-> & c' & s' & -> & Hc)]); cbn [In] in Hc; repeat (destruct Hc as [<-|Hc]; [repeat (constructor; [reflexivity|]); constructor|]); done.
    - split; [destruct b; nosp|intros [|n] r Hn Hr; [lia|by apply ra_bool]].
    - destruct g as [g o]. unfold fmt_relocation. cbn [r_name r_offset]. unfold fmt_global_name. destruct (N.eqb_spec o 0) as [->|Ho].
      + split; [nosp|]. intros [|n] r Hn Hr; [lia|]. rewrite !str_assoc, ra_global. by rx.
      + intros [|[|n]] r Hn Hr; [lia|lia|]. rewrite !str_assoc. rewrite value_default by (repeat (constructor; [reflexivity|]); constructor).
        rewrite ra_global. rewrite read_nat_ok by nd. cbn [then_]. rewrite expect_app. cbn [then_].
        assert (Hop : forall s, read_op (" + " ++ s) = Some (BInt IAdd, s)) by done. rewrite Hop. cbv iota beta. rewrite read_nat_ok by apply Hr. done.
    - split; [|intros [|n] r Hn Hr; [lia|by apply ra_fn]]. nosp.
    - split; [|intros [|n] r Hn Hr; [lia|by apply ra_vtable]]. intros r Hr. unfold fmt_vtable_name. rewrite str_assoc.
      destruct (nat_head v r) as (c & s & -> & Hc). cbn [In] in Hc. repeat (destruct Hc as [<-|Hc]; [repeat (constructor; [reflexivity|]); constructor|]); done.
    - destruct (Z.eqb_spec a 0) as [->|Ha]; split; [nosp| |nosp|]; (intros [|n] r Hn Hr; [lia|]).
      + apply ra_null.
      + rewrite !str_assoc, ra_invalid. by rx.
  Qed.

  Lemma un_text op e f n0 ct g ct' : value_text F e f n0 -> fmt_un_op op (to_string f) ct = (g, ct') -> ct' `prefix_of` F ->
    exists n1, good_text F g (EUnOp (forget_un op) (forget_value e)) n1.
  Proof.
    intros He H HF. apply text_value in He.
    assert (Hone : forall n op r, (S n0 <= n)%nat -> read_one (rv n) op (to_string f ++ ")" ++ r) = Some (EUnOp op (forget_value e), r)).
    { intros n o r Hn. unfold read_one. rewrite He by (lia || apply ends_paren). by rx. }
    destruct op as [[]|[it|ty]| | |ty|ty|m]; cbn [fmt_un_op forget_un] in *.
    - apply pair_inv in H as [<- <-]. exists (S (S n0)). intros [|n] r Hn Hr; [lia|]. rewrite !str_assoc, rv_neg. apply Hone. lia.
    - apply pair_inv in H as [<- <-]. exists (S (S n0)). intros [|n] r Hn Hr; [lia|]. rewrite !str_assoc, rv_not. rewrite He by (lia || done). done.
    - apply pair_inv in H as [<- <-]. exists (S (S n0)). intros [|n] r Hn Hr; [lia|]. rewrite !str_assoc, rv_ones. rewrite He by (lia || done). done.
    - apply pair_inv in H as [<- <-]. exists (S (S n0)). split; [nosp|]. intros [|n] r Hn Hr; [lia|]. rewrite !str_assoc, ra_int2int. rewrite read_int_ty_ok by nd. rx. apply Hone. lia.
    - destruct (fmt_type ty ct) as [t c1] eqn:E. apply pair_inv in H as [<- <-]. destruct (read_ty_ok F _ _ _ _ E HF) as [n1 Ht]. exists (S (S (n0 + n1))).
      split; [nosp|]. intros [|n] r Hn Hr; [lia|]. rewrite !str_assoc, ra_transmute. rewrite Ht by (lia || nd). rx. apply Hone. lia.
    - apply pair_inv in H as [<- <-]. exists (S (S n0)). split; [nosp|]. intros [|n] r Hn Hr; [lia|]. rewrite !str_assoc, ra_thin. apply Hone. lia.
    - apply pair_inv in H as [<- <-]. exists (S (S n0)). split; [nosp|]. intros [|n] r Hn Hr; [lia|]. rewrite !str_assoc, ra_meta. apply Hone. lia.
    - destruct (fmt_type ty ct) as [t c1] eqn:E. apply pair_inv in H as [<- <-]. destruct (read_ty_ok F _ _ _ _ E HF) as [n1 Ht]. exists (S (S (n0 + n1))).
      split; [nosp|]. intros [|n] r Hn Hr; [lia|]. rewrite !str_assoc, ra_size. rewrite Ht by (lia || nd). rx. apply Hone. lia.
    - destruct (fmt_type ty ct) as [t c1] eqn:E. apply pair_inv in H as [<- <-]. destruct (read_ty_ok F _ _ _ _ E HF) as [n1 Ht]. exists (S (S (n0 + n1))).
      split; [nosp|]. intros [|n] r Hn Hr; [lia|]. rewrite !str_assoc, ra_align. rewrite Ht by (lia || nd). rx. apply Hone. lia.
    - apply pair_inv in H as [<- <-]. exists (S (S n0)). intros [|n] r Hn Hr; [lia|]. unfold fmt_trait_method_name. rewrite !str_assoc, rv_lookup. rx. apply Hone. lia.
  Qed.

  Lemma bin_text op e1 e2 f1 f2 n0 : value_text F e1 f1 n0 -> value_text F e2 f2 n0 -> ok_value (EBinOp op e1 e2) ->
    exists n1, good_text F (fmt_bin_op op f1 f2) (EBinOp (forget_bin op) (forget_value e1) (forget_value e2)) n1.
  Proof.
    intros H1 H2 Hok. cbn [ok_value] in Hok. destruct Hok as (_ & _ & Hok).
    assert (Hv : forall n op r, (S n0 <= n)%nat -> read_two (rv n) op (to_string f1 ++ ", " ++ to_string f2 ++ ")" ++ r) = Some (EBinOp op (forget_value e1) (forget_value e2), r)).
    { intros n o r Hn. unfold read_two. rewrite (text_value _ _ _ _ H1) by (lia || apply ends_comma). rx. rewrite (text_value _ _ _ _ H2) by (lia || apply ends_paren). by rx. }
    assert (Ha : no_tuple e1 -> no_tuple e2 -> forall n op r, (S n0 <= n)%nat ->
      read_two (ra n) op (to_atomic_string f1 ++ ", " ++ to_atomic_string f2 ++ ")" ++ r) = Some (EBinOp op (forget_value e1) (forget_value e2), r)).
    { intros N1 N2 n o r Hn. unfold read_two. rewrite (text_atom _ _ _ _ N1 H1) by (lia || nd). rx. rewrite (text_atom _ _ _ _ N2 H2) by (lia || nd). by rx. }
    destruct op as [o|o|o|b|b1 b2|pt]; cbn [fmt_bin_op forget_bin].
    - destruct Hok as (N1 & N2 & Hg). destruct (fmt_int_op o) as [s|s] eqn:Eo.
      + exists (S (S (S n0))). intros n r Hn Hr. apply read_infix with n0; try done.
        * intros [= ->]. by apply Hg.
        * intros s'. destruct o; try discriminate Eo; by injection Eo as <-.
      + exists (S (S n0)). split; [destruct o; try discriminate Eo; injection Eo as <-; nosp|]. intros [|n] r Hn Hr; [lia|]. rewrite !str_assoc, (ra_unchecked F o) by done. apply Ha; [done|done|lia].
    - destruct Hok as (N1 & N2). exists (S (S n0)). split; [destruct o; nosp|]. intros [|n] r Hn Hr; [lia|]. rewrite !str_assoc, ra_overflow. apply Ha; [done|done|lia].
    - destruct Hok as (N1 & N2). exists (S (S (S n0))). intros n r Hn Hr. apply read_infix with n0; try done. intros s'. by destruct o.
    - exists (S (S n0)). split; [destruct b; nosp|]. intros [|n] r Hn Hr; [lia|]. rewrite !str_assoc, ra_offset. apply Hv. lia.
    - exists (S (S n0)). split; [destruct b1, b2; nosp|]. intros [|n] r Hn Hr; [lia|]. rewrite !str_assoc, ra_offset_from. apply Hv. lia.
    - destruct (read_ptr_ok pt) as [n1 Hp]. exists (S (S (n0 + n1))). split; [nosp|]. intros [|n] r Hn Hr; [lia|]. rewrite !str_assoc, ra_wide. rewrite Hp by lia. rx. apply Hv. lia.
  Qed.

  (** a list of values *)
  Lemma list_text es : Forall (fun e => forall ct f ct', fmt_value_expr e ct = Ret (f, ct') -> ct' `prefix_of` F -> ok_value e -> exists n0, value_text F e f n0) es ->
    forall ct fs ct', map_st (fun ct x => fmt_value_expr x ct) es ct = Ret (fs, ct') -> ct' `prefix_of` F -> Forall ok_value es ->
    exists n0, Forall2 (fun f e => value_text F e f n0) fs es.
  Proof.
    induction 1 as [|e es He IH IH']; intros ct fs ct' H HF Hok; cbn in H.
    - apply ret_inv in H as [<- <-]. exists 0%nat. constructor.
    - apply obind_ret in H as ([f c1] & E1 & H). apply obind_ret in H as ([fs2 c2] & E2 & H). apply ret_inv in H as [<- <-]. inversion Hok as [|? ? Hok1 Hok2]; subst.
      destruct (IH' _ _ _ E2 HF Hok2) as [n2 H2].
      assert (Hg : c1 `prefix_of` c2).
      { clear - E2. revert c1 fs2 c2 E2. induction es as [|x es IH]; intros c1 fs2 c2 E; cbn in E; [by injection E as <- <-|]. 
        apply obind_ret in E as ([g c3] & Ea & E). apply obind_ret in E as ([gs c4] & Eb & E). injection E as <- <-. etransitivity; [eapply (proj1 exprs_grow); eassumption|by eapply IH]. }
      destruct (He _ _ _ E1) as [n1 H1]; [by etransitivity|done|]. exists (n1 + n2)%nat. constructor.
      + eapply value_le; [exact H1|lia].
      + eapply Forall2_impl; [exact H2|]. intros g x Hx. eapply value_le; [exact Hx|lia].
  Qed.
  Lemma ok_tuple es t : ok_value (ETuple es t) <-> Forall ok_value es.
  Proof.
    cbn. induction es as [|e es IH]; [split; [constructor|done]|]. split.
    - intros [H1 H2]. constructor; [done|by apply IH].
    - inversion 1; subst. split; [done|by apply IH].
  Qed.

  Lemma composite_text t ct f ct' r : composite t -> fmt_type t ct = (f, ct') -> ct' `prefix_of` F -> nodigit r ->
    exists s, to_string f ++ r = "T" ++ s /\ read_comp F s = Some (t, r) /\ forget_ty t = t.
  Proof.
    intros Hc H HF Hr. destruct t; try done; cbn [fmt_type] in H; destruct (get_comptype_index _ ct) as [i c1] eqn:E; apply pair_inv in H as [<- <-];
      exists (show_nat (N.of_nat i) ++ r); (split; [done|]); (split; [by eapply read_comp_ok|done]).
  Qed.
  Lemma place_first p f n0 : place_text F p f n0 -> forall ct ct', fmt_place_expr p ct = Ret (f, ct') ->
    forall r, eat "raw " (to_atomic_string f ++ r) = None /\ eat "mut " (to_atomic_string f ++ r) = None.
  Proof.
    intros _. revert f. assert (H : forall f ct ct', fmt_place_expr p ct = Ret (f, ct') -> exists c s, to_atomic_string f = String c s /\ In c ["_"; "d"; "("]%char).
    { induction p as [l|e ty|p IH i|p IH e|p IH d]; intros f ct ct' H; cbn [fmt_place_expr] in H.
      - apply ret_inv in H as [<- <-]. do 2 eexists. split; [reflexivity|cbn; tauto].
      - destruct (fmt_type ty ct). apply obind_ret in H as ([? ?] & _ & H). apply ret_inv in H as [<- <-]. do 2 eexists. split; [reflexivity|cbn; tauto].
      - apply obind_ret in H as ([g c1] & E & H). apply ret_inv in H as [<- <-]. destruct (IH _ _ _ E) as (c & s & Es & Hc). cbn [to_atomic_string]. rewrite Es. do 2 eexists. split; [reflexivity|done].
      - apply obind_ret in H as ([g c1] & E & H). apply obind_ret in H as ([? ?] & _ & H). apply ret_inv in H as [<- <-]. destruct (IH _ _ _ E) as (c & s & Es & Hc). cbn [to_atomic_string]. rewrite Es. do 2 eexists. split; [reflexivity|done].
      - apply obind_ret in H as ([g c1] & E & H). apply ret_inv in H as [<- <-]. do 2 eexists. split; [reflexivity|cbn; tauto]. }
    intros f ct ct' E r. destruct (H _ _ _ E) as (c & s & -> & Hc). cbn [In] in Hc. by destruct Hc as [<-|[<-|[<-|[]]]].
  Qed.

  Lemma back : (forall e ct f ct', fmt_value_expr e ct = Ret (f, ct') -> ct' `prefix_of` F -> ok_value e -> exists n0, value_text F e f n0) /\
               (forall p ct f ct', fmt_place_expr p ct = Ret (f, ct') -> ct' `prefix_of` F -> ok_place p -> exists n0, place_text F p f n0).
  Proof.
    apply Expr_ind'.
    - intros c ty ct f ct' H HF _. apply ret_inv in H as [<- <-]. exists 3%nat. apply constant_text.
    - intros es ty IH ct f ct' H HF Hok. cbn [fmt_value_expr] in H. apply obind_ret in H as ([lp rp0] & Ep & H). apply obind_ret in H as ([l c1] & E & H). apply ret_inv in H as [<- <-].
      apply ok_tuple in Hok. destruct (list_text _ IH _ _ _ E HF Hok) as [n0 Hl].
      assert (Hls : forall n, (S n0 <= n)%nat -> Forall2 (fun s x => forall r, ends r -> rv n (s ++ r) = Some (x, r)) (List.map to_string l) (List.map forget_value es)).
      { intros n Hn. clear - Hl Hn. induction Hl as [|f e fs es H Hl IH]; cbn [List.map]; constructor; [|done]. intros r Hr. by apply (text_value _ _ _ _ H). }
      destruct ty; try done; injection Ep as <- <-; cbn [value_text].
      + exists (S (S (n0 + length l))). eexists. split; [reflexivity|]. intros [|n] r Hn Hr; [lia|]. rewrite !str_assoc, rv_paren.
        rewrite (list_ok _ ")" _ _ (Hls n ltac:(lia))); [|by left|apply no_value_paren|rewrite map_length; lia]. cbn [then_]. by rewrite (en_op _ Hr).
      + exists (S (S (n0 + length l))). split; [nosp|]. intros [|n] r Hn Hr; [lia|]. rewrite !str_assoc, ra_array.
        rewrite (list_ok _ "]" _ _ (Hls n ltac:(lia))); [|by right|apply no_value_bracket|rewrite map_length; lia]. done.
    - intros i e ty IH ct f ct' H HF [Hc Hok]. cbn [fmt_value_expr] in H. destruct (fmt_type ty ct) as [t c1] eqn:Et. apply obind_ret in H as ([g c2] & E & H). apply ret_inv in H as [<- <-].
      destruct (IH _ _ _ E HF Hok) as [n0 He]. assert (HF1 : c1 `prefix_of` F) by (etransitivity; [eapply (proj1 exprs_grow); eassumption|done]).
      exists (S (S n0)). intros [|n] r Hn Hr; [lia|]. rewrite !str_assoc.
      destruct (composite_text ty ct t c1 (" { field" ++ show_int i ++ ": " ++ to_string g ++ " }" ++ r) Hc Et HF1 ltac:(done)) as (s & -> & Hs & Hf).
      rewrite rv_comp, Hs. cbn [then_]. etransitivity; [exact (alt_app " { field" _ _ _ _)|cbv beta]. rx. rewrite (text_value _ _ _ _ He) by (lia || en). rx. cbn [forget_value]. by rewrite Hf.
    - intros i e ty IH ct f ct' H HF [Hc Hok]. cbn [fmt_value_expr] in H. destruct (fmt_type ty ct) as [t c1] eqn:Et. apply obind_ret in H as ([g c2] & E & H). apply ret_inv in H as [<- <-].
      destruct (IH _ _ _ E HF Hok) as [n0 He]. assert (HF1 : c1 `prefix_of` F) by (etransitivity; [eapply (proj1 exprs_grow); eassumption|done]).
      exists (S (S n0)). intros [|n] r Hn Hr; [lia|]. rewrite !str_assoc.
      destruct (composite_text ty ct t c1 ("(variant " ++ show_int i ++ "): " ++ to_string g ++ r) Hc Et HF1 ltac:(done)) as (s & -> & Hs & Hf).
      rewrite rv_comp, Hs. cbn [then_]. assert (Ha : forall A f1 f2 (d : Reader A) s, alt [(" { field", f1); ("(variant ", f2)] d ("(variant " ++ s) = f2 s) by done.
      rewrite Ha. rx. rewrite (text_value _ _ _ _ He) by (lia || en). rx. cbn [forget_value]. by rewrite Hf.
    - intros p IH ct f ct' H HF Hok. cbn [fmt_value_expr] in H. apply obind_ret in H as ([g c1] & E & H). apply ret_inv in H as [<- <-]. destruct (IH _ _ _ E HF Hok) as [n0 [Hp _]].
      exists (S n0). split; [nosp|]. intros [|n] r Hn Hr; [lia|]. rewrite !str_assoc, ra_discr. rewrite Hp by (lia || apply pends_paren). by rx.
    - intros p IH ct f ct' H HF Hok. cbn [fmt_value_expr] in H. apply obind_ret in H as ([g c1] & E & H). apply ret_inv in H as [<- <-]. destruct (IH _ _ _ E HF Hok) as [n0 [Hp _]].
      exists (S n0). split; [nosp|]. intros [|n] r Hn Hr; [lia|]. rewrite !str_assoc, ra_load. rewrite Hp by (lia || apply pends_paren). by rx.
    - intros p pt IH ct f ct' H HF Hok. destruct pt as [m pi|pi|mk| |tn]; cbn [fmt_value_expr] in H; try done.
      + apply obind_ret in H as ([g c1] & E & H). apply ret_inv in H as [<- <-]. destruct (IH _ _ _ E HF Hok) as [n0 Hp]. exists (S (S n0)). intros [|n] r Hn Hr; [lia|]. rewrite !str_assoc.
        destruct m.
        * change ("&" ++ "mut " ++ to_atomic_string g ++ r) with ("&mut " ++ to_atomic_string g ++ r). rewrite rv_mut. rewrite (patom_ends _ _ _ _ Hp) by (lia || done). done.
        * change ("" ++ to_atomic_string g ++ r) with (to_atomic_string g ++ r). destruct (place_first _ _ _ Hp _ _ E r). rewrite rv_ref by done. rewrite (patom_ends _ _ _ _ Hp) by (lia || done). done.
      + apply obind_ret in H as ([g c1] & E & H). apply ret_inv in H as [<- <-]. destruct (IH _ _ _ E HF Hok) as [n0 Hp]. exists (S (S n0)). intros [|n] r Hn Hr; [lia|].
        rewrite !str_assoc, rv_raw. rewrite (patom_ends _ _ _ _ Hp) by (lia || done). done.
    - intros op e IH ct f ct' H HF Hok. cbn [fmt_value_expr] in H. apply obind_ret in H as ([g c1] & E & H). injection H as H.
      assert (HF1 : c1 `prefix_of` F) by (etransitivity; [by eapply un_op_grows|done]). destruct (IH _ _ _ E HF1 Hok) as [n0 He].
      destruct (un_text _ _ _ _ _ _ _ He H HF) as [n1 H1]. by exists n1.
    - intros op e1 e2 IH1 IH2 ct f ct' H HF Hok. cbn [fmt_value_expr] in H. apply obind_ret in H as ([f1 c1] & E1 & H). apply obind_ret in H as ([f2 c2] & E2 & H). apply ret_inv in H as [<- <-].
      assert (HF1 : c1 `prefix_of` F) by (etransitivity; [eapply (proj1 exprs_grow); eassumption|done]).
      destruct (IH1 _ _ _ E1 HF1 ltac:(apply Hok)) as [n1 H1]. destruct (IH2 _ _ _ E2 HF ltac:(apply Hok)) as [n2 H2].
      destruct (bin_text op e1 e2 f1 f2 (n1 + n2)) as [n3 H3]; [eapply value_le; [exact H1|lia]|eapply value_le; [exact H2|lia]|done|]. by exists n3.
    - intros l ct f ct' H HF _. apply ret_inv in H as [<- <-]. exists 3%nat. apply atomic_place with 0%nat; [lia|]. intros n r Hn Hr. unfold fmt_local_name. rewrite !str_assoc, rpa_local. rx. by rewrite Nat.sub_0_r.
    - intros e ty IH ct f ct' H HF Hok. cbn [fmt_place_expr] in H. destruct (fmt_type ty ct) as [t c1] eqn:Et. apply obind_ret in H as ([g c2] & E & H). apply ret_inv in H as [<- <-].
      destruct (IH _ _ _ E HF Hok) as [n0 He]. assert (HF1 : c1 `prefix_of` F) by (etransitivity; [eapply (proj1 exprs_grow); eassumption|done]). destruct (read_ty_ok F _ _ _ _ Et HF1) as [n1 Ht].
      exists (S (S (S (n0 + n1)))). apply atomic_place with 0%nat; [lia|]. intros n r Hn Hr. rewrite !str_assoc, rpa_deref. rewrite Ht by (lia || nd). rx.
      rewrite (text_value _ _ _ _ He) by (lia || apply ends_paren). rx. by rewrite Nat.sub_0_r.
    - intros p i IH ct f ct' H HF Hok. cbn [fmt_place_expr] in H. apply obind_ret in H as ([g c1] & E & H). apply ret_inv in H as [<- <-]. destruct (IH _ _ _ E HF Hok) as [n0 (_ & j & Hj & Hp)].
      exists (S (S (S (S n0)))). apply atomic_place with (S j); [lia|]. intros n r Hn Hr. rewrite !str_assoc. rewrite Hp by (lia || nd).
      replace (n - j)%nat with (S (n - S j)) by lia. rewrite suffix_field. by rx.
    - intros p e IHp IHe ct f ct' H HF [Hok1 Hok2]. cbn [fmt_place_expr] in H. apply obind_ret in H as ([g c1] & E & H). apply obind_ret in H as ([g2 c2] & E2 & H). apply ret_inv in H as [<- <-].
      assert (HF1 : c1 `prefix_of` F) by (etransitivity; [eapply (proj1 exprs_grow); eassumption|done]).
      destruct (IHp _ _ _ E HF1 Hok1) as [n0 (_ & j & Hj & Hp)]. destruct (IHe _ _ _ E2 HF Hok2) as [n1 He].
      exists (S (S (S (S (n0 + n1))))). apply atomic_place with (S j); [lia|]. intros n r Hn Hr. rewrite !str_assoc. rewrite Hp by (lia || nd).
      replace (n - j)%nat with (S (n - S j)) by lia. rewrite suffix_index. rewrite (text_value _ _ _ _ He) by (lia || en). by rx.
    - intros p d IH ct f ct' H HF Hok. cbn [fmt_place_expr] in H. apply obind_ret in H as ([g c1] & E & H). apply ret_inv in H as [<- <-]. destruct (IH _ _ _ E HF Hok) as [n0 (_ & j & Hj & Hp)].
      assert (Hr0 : forall n r, (S (S n0) <= n)%nat -> nodigit r -> rp n (to_atomic_string g ++ " as variant " ++ show_int d ++ r) = Some (PDowncast (forget_place p) d, r)).
      { intros n r Hn Hr. destruct n as [|[|n]]; [lia|lia|]. rewrite rp_eq, Hp by (lia || nd). rewrite read_suffix_stop by done. cbn [then_].
        etransitivity; [exact (alt_app " as variant " _ _ _ _)|cbv beta]. by rx. }
      exists (S (S n0)). split; cbn [to_string to_atomic_string].
      + intros n r Hn Hr. rewrite !str_assoc. apply Hr0; [lia|apply Hr].
      + exists 0%nat. split; [lia|]. intros n r Hn Hr. rewrite !str_assoc, rpa_paren. rewrite Hr0 by (lia || nd). rx. by rewrite Nat.sub_0_r.
  Qed.
End Backwards.
