(** The translation of well-typed MIR: places, operands and rvalues become well-formed expressions of the right type. *)
From Verif Require Export MiniWf.
From Coq Require Import ZifyBool ZifyN ZifyNat.

Lemma fine_map_st2 {A B C S} (f : S -> A -> Outcome (B * S)) (I : S -> Prop) (grow : S -> S -> Prop) (K : A -> C -> Prop) (W : S -> C -> B -> Prop) l ts s :
  (forall s, grow s s) -> (forall s1 s2 s3, grow s1 s2 -> grow s2 s3 -> grow s1 s3) ->
  (forall s s' t b, grow s s' -> W s t b -> W s' t b) ->
  (forall s a t, a ∈ l -> I s -> K a t -> fine (f s a) (fun r => I (snd r) /\ grow s (snd r) /\ W (snd r) t (fst r))) ->
  I s -> Forall2 K l ts -> fine (map_st f l s) (fun r => I (snd r) /\ grow s (snd r) /\ Forall2 (W (snd r)) ts (fst r)).
Proof.
  intros Hrefl Htrans HW Hf HI Hl. revert s HI Hf. induction Hl as [|x t l ts Hx Hl IH]; intros s HI Hf; cbn [map_st].
  - cbn. by split_and!.
  - eapply fine_bind; [apply Hf; [left|done|done]|]. intros [y s1] (HI1 & Hg1 & HW1). cbn [fst snd] in *.
    eapply fine_bind; [apply IH; [done|]; intros; apply Hf; [by right|done|done]|]. intros [ys s2] (HI2 & Hg2 & HW2). cbn [fst snd] in *.
    cbn. split_and!; [done|by eapply Htrans|]. constructor; [by eapply HW|done].
Qed.

(** induction on constants *)
Section CValInd.
  Variable Q : CVal -> Prop.
  Hypothesis Hs : forall ty b, Q (CvScalar ty b).
  Hypothesis Hb : forall ty b, Q (CvBool ty b).
  Hypothesis Hp : forall ty p o m, Q (CvPtr ty p o m).
  Hypothesis Hf : forall ty fs, Forall Q fs -> Q (CvFields ty fs).
  Hypothesis Hv : forall ty i fs, Forall Q fs -> Q (CvVariant ty i fs).
  Hypothesis Ho : forall ty, Q (CvOther ty).
  Fixpoint CVal_ind' (c : CVal) : Q c.
  Proof.
    destruct c; [apply Hs|apply Hb|apply Hp|apply Hf|apply Hv|apply Ho];
      (induction fields as [|x r IH]; constructor; [apply CVal_ind'|apply IH]).
  Defined.
End CValInd.

Lemma int_from_bits_fits it bits : it_size it <> 0%N -> can_represent it (int_from_bits bits it) = true.
Proof.
  intros Hn. unfold can_represent, in_bounds, int_from_bits. rewrite (proj2 (N.eqb_neq _ _) Hn).
  change (8 * Z.of_N (it_size it)) with (size_bits (it_size it)).
  pose proof (size_bits_half _ Hn) as Hh.
  assert (0 < 2 ^ size_bits (it_size it)) by (rewrite size_bits_pow; apply pow256_pos).
  set (m := 2 ^ size_bits (it_size it)) in *. set (h := 2 ^ (size_bits (it_size it) - 1)) in *.
  pose proof (Z.mod_pos_bound bits m ltac:(lia)). destruct (it_signed it).
  - destruct (2 * (bits mod m) <? m) eqn:E; lia.
  - lia.
Qed.

(** the checks of the expressions that mix places and values *)
Lemma wf_load P L p : value_check_wf T P L (ELoad p) =
  (let! ty := place_check_wf T P L p in let! l := layout T ty in let! _ := ensure_wf (is_sized l) "ValueExpr::Load: unsized value type" in Ret ty).
Proof. done. Qed.
Lemma wf_discr P L p : value_check_wf T P L (EGetDiscriminant p) =
  (let! ty := place_check_wf T P L p in match ty with TEnum _ dty _ _ _ => Ret (TInt dty) | _ => throw_ill_formed "ValueExpr::GetDiscriminant: invalid type" end).
Proof. done. Qed.
Lemma wf_addr P L p pt : value_check_wf T P L (EAddrOf p pt) =
  (let! _ := ptrtype_check_wf T (has_trait P) pt in let! ty := place_check_wf T P L p in
   let! _ := ensure_wf (bool_decide (ty_meta_kind ty = ptr_meta_kind pt)) "ValueExpr::AddrOf: mismatched metadata kind" in Ret (TPtr pt)).
Proof. done. Qed.
Lemma wf_deref P L e ty : place_check_wf T P L (PDeref e ty) =
  (let! _ := ty_check_wf T (has_trait P) ty in let! op_ty := value_check_wf T P L e in
   match op_ty with
   | TPtr pt => let! _ := ensure_wf (bool_decide (ptr_meta_kind pt = ty_meta_kind ty)) "PlaceExpr::Deref: metadata kind of operand and type don't match" in Ret ty
   | _ => throw_ill_formed "PlaceExpr::Deref: invalid operand type"
   end).
Proof. done. Qed.
Lemma wf_index P L p e : place_check_wf T P L (PIndex p e) =
  (let! root := place_check_wf T P L p in let! index := value_check_wf T P L e in
   let! _ := ensure_wf (match index with TInt _ => true | _ => false end) "PlaceExpr::Index: invalid index type" in
   match root with TArray elem _ | TSlice elem => Ret elem | _ => throw_ill_formed "PlaceExpr::Index: expression type is not indexable" end).
Proof. done. Qed.

Section Expr.
  Context (R : Rustc) (HR : rustc_ok T R) (fuel : nat) (Hfuel : enough R fuel) (B : RBody).

  (** ** The state of the translation of a body *)
  Record iv (s : Fcx) : Prop := {
    iv_cx : cx_ok R [] (fx_cx s);
    iv_body : fx_body s = B;
    iv_lmap : forall l, (l < length (ro_locals B))%nat -> map_get (fx_lmap s) l = Some (N.of_nat l);
    iv_bmap : forall b, (b < length (ro_blocks B))%nat -> map_get (fx_bmap s) b = Some (N.of_nat b);
    iv_local : forall l r, ro_locals B !! l = Some r -> exists t, rc_ty R r = Some t /\ map_get (fx_locals s) (N.of_nat l) = Some t;
    iv_ty : forall n t, In (n, t) (fx_locals s) -> sized_ty T t /\ wf_ty T R t;
    iv_lt : forall n t, map_get (fx_locals s) n = Some t -> (n < fx_next_local s)%N;
    iv_nl : (N.of_nat (length (ro_locals B)) <= fx_next_local s)%N;
    iv_nb : (N.of_nat (length (ro_blocks B)) < fx_next_bb s)%N;
    iv_bb : forall n b, map_get (fx_blocks s) n = Some b -> (n < fx_next_bb s)%N;
  }.

  (** [grow X s s']: the state has grown; no block was added under an old name, except those in [X] *)
  Record grow (X : list BbName) (s s' : Fcx) : Prop := {
    gr_cx : ext (fx_cx s) (fx_cx s');
    gr_locals : forall n t, map_get (fx_locals s) n = Some t -> map_get (fx_locals s') n = Some t;
    gr_new : forall n, (n < fx_next_local s)%N -> map_get (fx_locals s) n = None -> map_get (fx_locals s') n = None;
    gr_blocks : forall n b, map_get (fx_blocks s) n = Some b -> map_get (fx_blocks s') n = Some b;
    gr_fresh : forall n, (n < fx_next_bb s)%N -> n ∉ X -> map_get (fx_blocks s) n = None -> map_get (fx_blocks s') n = None;
    gr_nl : (fx_next_local s <= fx_next_local s')%N;
    gr_nb : (fx_next_bb s <= fx_next_bb s')%N;
  }.
  Lemma grow_refl X s : grow X s s.
  Proof. split; [apply ext_refl|done..]. Qed.
  Lemma grow_trans X s1 s2 s3 : grow X s1 s2 -> grow X s2 s3 -> grow X s1 s3.
  Proof.
    intros [] []. split; [by eapply ext_trans|auto..|lia|lia].
    - intros n Hn Hnone. apply gr_new1; [lia|]. auto.
    - intros n Hn HX Hnone. apply gr_fresh1; [lia|done|]. auto.
  Qed.
  Lemma grow_weak X X' s s' : X ⊆ X' -> grow X s s' -> grow X' s s'.
  Proof. intros HX []. split; auto. Qed.

  (** programs and locals that have what the state names *)
  Definition compat (P : Program) (L : list (LocalName * Ty)) (s : Fcx) : Prop :=
    holds R P (fx_cx s) /\ forall n t, map_get (fx_locals s) n = Some t -> map_get L n = Some t.
  Lemma compat_grow P L X s s' : grow X s s' -> compat P L s' -> compat P L s.
  Proof. intros [] [H1 H2]. split; [by eapply holds_ext|auto]. Qed.

  (** expressions of type [t] *)
  Definition vok (s : Fcx) (t : Ty) (e : ValueExpr) : Prop := forall P L, compat P L s -> value_check_wf T P L e = Ret t.
  Definition pok (s : Fcx) (t : Ty) (e : PlaceExpr) : Prop := forall P L, compat P L s -> place_check_wf T P L e = Ret t.
  Lemma vok_grow X s s' t e : grow X s s' -> vok s t e -> vok s' t e.
  Proof. intros Hg H P L Hc. apply H. by eapply compat_grow. Qed.
  Lemma pok_grow X s s' t e : grow X s s' -> pok s t e -> pok s' t e.
  Proof. intros Hg H P L Hc. apply H. by eapply compat_grow. Qed.

  (** the context changes *)
  Lemma set_cx_iv s c : iv s -> cx_ok R [] c -> iv (set_cx s c).
  Proof. intros [] Hc. by split. Qed.
  Lemma set_cx_grow X s c : ext (fx_cx s) c -> grow X s (set_cx s c).
  Proof. intros Hc. by split. Qed.

  (** only the context changes *)
  Definition gcx (s s' : Fcx) : Prop := s' = set_cx s (fx_cx s') /\ ext (fx_cx s) (fx_cx s').
  Lemma gcx_refl s : gcx s s.
  Proof. split; [by destruct s|apply ext_refl]. Qed.
  Lemma gcx_trans s1 s2 s3 : gcx s1 s2 -> gcx s2 s3 -> gcx s1 s3.
  Proof. intros [H1 H2] [H3 H4]. split; [|by eapply ext_trans]. rewrite H3, H1. done. Qed.
  Lemma set_cx_gcx s c : ext (fx_cx s) c -> gcx s (set_cx s c).
  Proof. by split. Qed.
  Lemma gcx_grow X s s' : gcx s s' -> grow X s s'.
  Proof. intros [-> H]. by apply set_cx_grow. Qed.
  Lemma gcx_blocks s s' : gcx s s' -> fx_blocks s' = fx_blocks s.
  Proof. by intros [-> H]. Qed.
  Lemma vok_gcx s s' t e : gcx s s' -> vok s t e -> vok s' t e.
  Proof. intros Hg. eapply (vok_grow []). by apply gcx_grow. Qed.
  Lemma pok_gcx s s' t e : gcx s s' -> pok s t e -> pok s' t e.
  Proof. intros Hg. eapply (pok_grow []). by apply gcx_grow. Qed.

  Lemma local_name_fine s l : iv s -> (l < length (ro_locals B))%nat -> local_name s l = Ret (N.of_nat l).
  Proof. intros Hs Hl. unfold local_name. by rewrite (iv_lmap _ Hs _ Hl). Qed.
  Lemma bb_name_fine s b : iv s -> (b < length (ro_blocks B))%nat -> bb_name s b = Ret (N.of_nat b).
  Proof. intros Hs Hl. unfold bb_name. by rewrite (iv_bmap _ Hs _ Hl). Qed.

  (** ** Places *)
  Lemma local_pok s l r t : iv s -> ro_locals B !! l = Some r -> rc_ty R r = Some t -> pok s t (PLocal (N.of_nat l)).
  Proof.
    intros Hs Hl Ht P L [_ HL]. cbn [place_check_wf]. destruct (iv_local _ Hs _ _ Hl) as (t' & Ht' & Hm).
    rewrite (HL _ _ Hm). congruence.
  Qed.
  Lemma load_vok s t e : pok s t e -> sized_ty T t -> vok s t (ELoad e).
  Proof.
    intros He (l & Hl & Hsz) P L Hc. rewrite wf_load, (He P L Hc). cbn [obind]. rewrite Hl. cbn [obind]. rewrite Hsz. done.
  Qed.
  Lemma sized_int s l r it : iv s -> ro_locals B !! l = Some r -> rc_ty R r = Some (TInt it) -> sized_ty T (TInt it).
  Proof.
    intros Hs Hl Ht. destruct (iv_local _ Hs _ _ Hl) as (t & Ht' & Hm). apply map_get_in, (iv_ty _ Hs) in Hm as [H _]. congruence.
  Qed.

  Lemma projs_fine s x ps y e : iv s -> projs_ok R B x ps y -> pok s (snd x) e ->
    fine (fold_m (translate_proj R s) ps (e, fst x)) (fun r => snd r = fst y /\ pok s (snd y) (fst r)).
  Proof.
    intros Hs Hp. revert e. induction Hp as [x|x p y ps z Hp Hps IH]; intros e He; [done|]. cbn [fold_m].
    eapply (fine_bind _ _ (fun r => snd r = fst y /\ pok s (snd y) (fst r))); [|intros [e' r'] [Hr He']; cbn [fst snd] in *; subst r'; by apply IH].
    clear IH Hps. destruct Hp as [r t f r' t' Hf Hr'|r pt r' t' Hd Hr' Hm|r el n l r' rl it Hel Hr' Hl Hrl|r el l r' rl it Hel Hr' Hl Hrl|
                                   r vs dty d sz al v bits it vt tg Hdi Hv|x y]; cbn [fst snd] in *; unfold translate_proj; cbn [proj_ty obind].
    - cbn. split; [done|]. intros P L Hc. cbn [place_check_wf]. rewrite (He P L Hc). cbn [obind]. destruct t as [| | |fields h u| | |fields ch sz al| |]; try discriminate Hf; cbn [field_ty] in Hf.
      + destruct (fields !! f) as [fx|] eqn:Ef.
        * injection Hf as <-. apply lookup_lt_Some in Ef as Hlt. rewrite (proj2 (andb_true_iff _ _)) by lia.
          unfold list_get. rewrite (proj2 (Z.ltb_ge _ _)) by lia. rewrite Nat2Z.id. change (fields !! f) with (fields !! f) in Ef. rewrite Ef. done.
        * apply lookup_ge_None in Ef. destruct (f =? length fields)%nat eqn:Efl; [|done]. subst u.
          destruct ((0 <=? Z.of_nat f) && (Z.of_nat f <? Z.of_nat (length fields))) eqn:E1; [lia|].
          destruct (Z.of_nat f =? Z.of_nat (length fields)) eqn:E2; [done|lia].
      + destruct (fields !! f) as [fx|] eqn:Ef; [|done]. injection Hf as <-.
        unfold list_get. rewrite (proj2 (Z.ltb_ge _ _)) by lia. rewrite Nat2Z.id, Ef. done.
    - rewrite Hd. cbn [unwrap obind]. rewrite Hr'. cbn. split; [done|]. intros P L Hc.
      rewrite wf_deref, (wf_in R P _ t' (proj1 Hc) (ro_ty _ _ HR _ _ Hr')). cbn [obind].
      rewrite (load_vok _ _ _ He (sized_ptr pt) P L Hc). cbn [obind]. rewrite bool_decide_eq_true_2 by done. done.
    - rewrite Hel. cbn [unwrap obind]. rewrite (local_name_fine _ _ Hs) by (by eapply lookup_lt_Some). cbn.
      split; [done|]. intros P L Hc. rewrite wf_index, (He P L Hc). cbn [obind].
      rewrite (load_vok _ _ _ (local_pok _ _ _ _ Hs Hl Hrl) (sized_int _ _ _ _ Hs Hl Hrl) P L Hc). done.
    - rewrite Hel. cbn [unwrap obind]. rewrite (local_name_fine _ _ Hs) by (by eapply lookup_lt_Some). cbn.
      split; [done|]. intros P L Hc. rewrite wf_index, (He P L Hc). cbn [obind].
      rewrite (load_vok _ _ _ (local_pok _ _ _ _ Hs Hl Hrl) (sized_int _ _ _ _ Hs Hl Hrl) P L Hc). done.
    - unfold discriminant_for_variant. rewrite Hdi. cbn. split; [done|]. intros P L Hc. cbn [place_check_wf]. rewrite (He P L Hc). cbn [obind].
      by rewrite Hv.
    - done.
  Qed.
  Lemma place_fine s p r t : iv s -> place_ok R B p r t -> fine (translate_place R s p) (pok s t).
  Proof.
    intros Hs (_ & r0 & t0 & Hl & Ht & Hp). unfold translate_place. rewrite (local_name_fine _ _ Hs) by (by eapply lookup_lt_Some). cbn [obind].
    rewrite (iv_body _ Hs), Hl. cbn [unwrap obind]. eapply fine_bind; [apply (projs_fine _ (r0, t0) _ (r, t)); [done..|]; by eapply local_pok|].
    intros [e r'] [_ He]. done.
  Qed.
  Lemma projs_rty x ps y : projs_ok R B x ps y -> fine (fold_m (proj_ty R) ps (fst x)) (fun r => r = fst y).
  Proof.
    induction 1 as [x|x p y ps z Hp Hps IH]; [done|]. cbn [fold_m]. eapply (fine_bind _ _ (fun r => r = fst y)); [|intros r ->; exact IH].
    clear IH Hps. destruct Hp as [r t f r' t' Hf Hr'|r pt r' t' Hd Hr' Hm|r el n l r' rl it Hel Hr' Hl Hrl|r el l r' rl it Hel Hr' Hl Hrl|
                                   r vs dty d sz al v bits it vt tg Hdi Hv|x y]; cbn [fst snd proj_ty]; try done.
    - by rewrite Hd.
    - by rewrite Hel.
    - by rewrite Hel.
  Qed.
  Lemma place_rty_fine s p r t : iv s -> place_ok R B p r t -> fine (place_rty R s p) (fun r' => r' = r).
  Proof.
    intros Hs (_ & r0 & t0 & Hl & Ht & Hp). unfold place_rty. rewrite (iv_body _ Hs), Hl. cbn [unwrap obind]. apply (projs_rty (r0, t0) _ (r, t) Hp).
  Qed.

  (** ** Constants *)
  Definition cok (c : Cx) (t : Ty) (e : ValueExpr) : Prop := forall P L, holds R P c -> value_check_wf T P L e = Ret t.
  Lemma cok_ext c c' t e : ext c c' -> cok c t e -> cok c' t e.
  Proof. intros Hx H P L Hh. apply H. by eapply holds_ext. Qed.

  Lemma for_each2_vok P L es ts (msg : string) (fs : list (Offset * Ty)) : ts = List.map snd fs -> Forall2 (fun t e => value_check_wf T P L e = Ret t) ts es ->
    length es = length fs /\
    for_each2 (fun e (f : Offset * Ty) => let! checked := value_check_wf T P L e in ensure_wf (bool_decide (checked = snd f)) msg) es fs = Ret tt.
  Proof.
    intros -> H. assert (Hlen : length es = length fs) by (apply Forall2_length in H; by rewrite map_length in H). split; [done|].
    revert es H Hlen. induction fs as [|f fs IH]; intros [|e es] H Hlen; try done. cbn [List.map] in H. apply Forall2_cons in H as [He H].
    cbn [for_each2]. rewrite He. cbn [obind]. rewrite bool_decide_eq_true_2 by done. cbn [ensure_wf obind]. apply IH; [done|]. by injection Hlen.
  Qed.
  Lemma for_each_vok P L es n e (msg : string) : Forall2 (fun t e => value_check_wf T P L e = Ret t) (repeat e n) es ->
    length es = n /\ for_each (fun x => let! checked := value_check_wf T P L x in ensure_wf (bool_decide (checked = e)) msg) es = Ret tt.
  Proof.
    revert es. induction n as [|n IH]; intros [|x es] H; try (by inversion H). cbn [repeat] in H. apply Forall2_cons in H as [He H].
    destruct (IH _ H) as [Hl Hf]. split; [cbn; lia|]. cbn [for_each]. rewrite He. cbn [obind]. by rewrite bool_decide_eq_true_2.
  Qed.
  (** values of tuple, array and variant type *)
  Lemma tuple_wf P L fs h es : ty_check_wf T (has_trait P) (TTuple fs h None) = Ret tt ->
    Forall2 (fun t e => value_check_wf T P L e = Ret t) (List.map snd fs) es -> value_check_wf T P L (ETuple es (TTuple fs h None)) = Ret (TTuple fs h None).
  Proof.
    intros Hw H. cbn [value_check_wf]. rewrite Hw. cbn [obind ensure_wf].
    destruct (for_each2_vok P L es _ "ValueExpr::Tuple: invalid tuple field type" fs eq_refl H) as [Hl ->]. by rewrite (proj2 (Nat.eqb_eq _ _) Hl).
  Qed.
  Lemma array_wf P L e n es : ty_check_wf T (has_trait P) (TArray e (Z.of_nat n)) = Ret tt ->
    Forall2 (fun t e => value_check_wf T P L e = Ret t) (repeat e n) es -> value_check_wf T P L (ETuple es (TArray e (Z.of_nat n))) = Ret (TArray e (Z.of_nat n)).
  Proof.
    intros Hw H. cbn [value_check_wf]. rewrite Hw. cbn [obind ensure_wf].
    destruct (for_each_vok P L es _ e "ValueExpr::Tuple: invalid array element type" H) as [Hl ->]. rewrite Hl, Z.eqb_refl. done.
  Qed.
  Lemma variant_wf P L vts dty d sz al k fs h tg es : ty_check_wf T (has_trait P) (TEnum vts dty d sz al) = Ret tt ->
    map_get vts k = Some (TTuple fs h None, tg) -> Forall2 (fun t e => value_check_wf T P L e = Ret t) (List.map snd fs) es ->
    value_check_wf T P L (EVariant k (ETuple es (TTuple fs h None)) (TEnum vts dty d sz al)) = Ret (TEnum vts dty d sz al).
  Proof.
    intros Hw Hk H. cbn [value_check_wf]. fold (value_check_wf T P L). rewrite Hw. cbn [obind]. rewrite Hk.
    assert (Hwv : ty_check_wf T (has_trait P) (TTuple fs h None) = Ret tt).
    { destruct (wf_enum _ _ _ _ _ _ _ Hw) as [Hv _]. apply map_get_in in Hk. rewrite List.Forall_forall in Hv. by destruct (Hv _ Hk) as (_ & ? & _). }
    pose proof (tuple_wf P L fs h es Hwv H) as Ht. cbn [value_check_wf] in Ht. rewrite Ht. cbn [obind fst].
    by rewrite bool_decide_eq_true_2.
  Qed.

  Lemma const_fine v c t : cx_ok R [] c -> const_ok T R v t ->
    fine (translate_const_val fuel R T c v) (fun x => cx_ok R [] (snd x) /\ ext c (snd x) /\ cok (snd x) t (fst x)).
  Proof.
    revert c t. induction v as [ty b|ty b|ty p o m|ty fs IH|ty i fs IH|ty] using CVal_ind'; intros c t Hc Ht; inversion Ht; subst; cbn [translate_const_val cval_ty];
      match goal with H : rc_ty R ?r = Some _ |- _ => rewrite H; pose proof (ro_ty _ _ HR _ _ H) as Hw end; cbn [ask obind].
    - cbn [fine fst snd]. split_and!; [done|apply ext_refl|]. intros P L Hh. cbn [value_check_wf]. rewrite (wf_in R _ _ _ Hh Hw). cbn [obind constant_check_wf].
      rewrite int_from_bits_fits; [done|]. apply pow2_nonzero. by eapply wf_int.
    - cbn [fine fst snd]. split_and!; [done|apply ext_refl|]. intros P L Hh. cbn [value_check_wf]. rewrite (wf_in R _ _ _ Hh Hw). done.
    - (* an address *)
      destruct (decide (pt = PFnPtr)) as [->|Hpt]; [done|]. replace (match pt with PFnPtr => _ | _ => Ret tt end) with (Ret tt : Outcome unit) by (by destruct pt).
      cbn [obind].
      assert (Ha : forall P t, constant_check_wf T P (KPointerWithoutProvenance (Z.of_N o)) (TPtr t) = Ret tt).
      { intros P t. cbn [constant_check_wf]. unfold in_bounds. cbn [PTR_SIZE x86_64 N.eqb]. change (size_bits 8) with 64. change (8 * Z.of_N (PTR_SIZE T)) with 64 in *.
        rewrite (proj2 (andb_true_iff _ _)); [done|]. split; lia. }
      destruct (ptr_meta_kind pt) eqn:Em; cbn [obind]; [| |done].
      + cbn [fine fst snd]. split_and!; [done|apply ext_refl|]. intros P L Hh. cbn [value_check_wf]. rewrite (wf_in R _ _ _ Hh Hw). cbn [obind]. by rewrite Ha.
      + match goal with H : meta_ok _ _ _ |- _ => destruct (H Em) as (n & -> & Hn) end. cbn. split_and!; [done|apply ext_refl|]. intros P L Hh.
        cbn [value_check_wf]. unfold b_raw_void_ptr_ty, b_raw_ptr_ty, b_const_int. rewrite wf_raw. cbn [obind]. rewrite Ha. cbn [obind value_check_wf].
        change (b_int_ty Unsigned 8) with (TInt (usize_ty T)). rewrite wf_usize. cbn [obind constant_check_wf].
        unfold can_represent, in_bounds. cbn [usize_ty it_size it_signed PTR_SIZE x86_64 N.eqb]. change (size_bits 8) with 64. change (8 * Z.of_N (PTR_SIZE T)) with 64 in *.
        rewrite (proj2 (andb_true_iff _ _)) by lia. cbn [ensure_wf obind binop_check_wf ptr_meta_kind].
        rewrite bool_decide_eq_false_2 by (by intros []). rewrite Em. cbn [meta_kind_ty]. by rewrite bool_decide_eq_false_2 by (by intros []).
    - (* a pointer into an allocation *)
      destruct (decide (pt = PFnPtr)) as [->|Hpt]; [done|]. replace (match pt with PFnPtr => _ | _ => Ret tt end) with (Ret tt : Outcome unit) by (by destruct pt).
      cbn [obind].
      destruct (ptr_meta_kind pt) eqn:Em; cbn [obind]; [| |done].
      + eapply (fine_bind _ _ (fun x => cx_ok R [] (snd x) /\ ext c (snd x) /\ forall P t, holds R P (snd x) -> constant_check_wf T P (fst x) (TPtr t) = Ret tt)).
        { eapply fine_bind; [by eapply alloc_fine|]. intros [n c'] (Hc' & Hx & Hn). cbn [fst snd] in *. cbn. split_and!; [done..|]. intros P t Hh.
          unfold reloc_check_wf. cbn [r_name r_offset]. destruct (ho_allocs _ _ _ Hh _ _ d Hn) as (g & Hg & Hb); [done|]. rewrite Hg, Hb.
          by rewrite (proj2 (N.leb_le _ _)). }
        intros [k c'] (Hc' & Hx & Hk). cbn [fst snd] in *. cbn. split_and!; [done..|]. intros P L Hh. cbn [value_check_wf].
        rewrite (wf_in R _ _ _ Hh Hw). cbn [obind]. by rewrite (Hk P pt Hh).
      + match goal with H : meta_ok _ _ _ |- _ => destruct (H Em) as (n & -> & Hn) end. cbn [unwrap obind].
        eapply (fine_bind _ _ (fun x => cx_ok R [] (snd x) /\ ext c (snd x) /\ forall P t, holds R P (snd x) -> constant_check_wf T P (fst x) (TPtr t) = Ret tt)).
        { eapply fine_bind; [by eapply alloc_fine|]. intros [n' c'] (Hc' & Hx & Hn'). cbn [fst snd] in *. cbn. split_and!; [done..|]. intros P t Hh.
          unfold reloc_check_wf. cbn [r_name r_offset]. destruct (ho_allocs _ _ _ Hh _ _ d Hn') as (g & Hg & Hb); [done|]. rewrite Hg, Hb.
          by rewrite (proj2 (N.leb_le _ _)). }
        intros [k c'] (Hc' & Hx & Hk). cbn [fst snd] in *. cbn. split_and!; [done..|]. intros P L Hh.
        cbn [value_check_wf]. unfold b_raw_void_ptr_ty, b_raw_ptr_ty, b_const_int. rewrite wf_raw. cbn [obind]. rewrite (Hk P _ Hh). cbn [obind value_check_wf].
        change (b_int_ty Unsigned 8) with (TInt (usize_ty T)). rewrite wf_usize. cbn [obind constant_check_wf].
        unfold can_represent, in_bounds. cbn [usize_ty it_size it_signed PTR_SIZE x86_64 N.eqb]. change (size_bits 8) with 64. change (8 * Z.of_N (PTR_SIZE T)) with 64 in *.
        rewrite (proj2 (andb_true_iff _ _)) by lia. cbn [ensure_wf obind binop_check_wf ptr_meta_kind].
        rewrite bool_decide_eq_false_2 by (by intros []). rewrite Em. cbn [meta_kind_ty]. by rewrite bool_decide_eq_false_2 by (by intros []).
    - (* a tuple *)
      match goal with H : Forall2 _ fs _ |- _ => rename H into Hfs end. cbn [assert_ obind].
      pose proof (Forall2_length _ _ _ Hfs) as Hlen. rewrite map_length in Hlen. rewrite Hlen, Nat.eqb_refl. cbn [assert_ obind].
      eapply fine_bind; [apply (fine_map_st2 _ (cx_ok R []) ext (const_ok T R) cok fs (List.map snd fs0)); [apply ext_refl|apply ext_trans|intros *; apply cok_ext| |done|done]|].
      { intros s v t Hv. rewrite Forall_forall in IH. by apply IH. }
      intros [es c'] (Hc' & Hx & Hes). cbn [fst snd] in *. cbn. split_and!; [done..|]. intros P L Hh. apply tuple_wf; [by eapply wf_in|].
      eapply Forall2_impl; [done|]. intros t e He. by apply He.
    - (* an array *)
      match goal with H : Forall2 _ fs _ |- _ => rename H into Hfs end.
      eapply fine_bind; [apply (fine_map_st2 _ (cx_ok R []) ext (const_ok T R) cok fs (repeat e (length fs))); [apply ext_refl|apply ext_trans|intros *; apply cok_ext| |done|done]|].
      { intros s v t Hv. rewrite Forall_forall in IH. by apply IH. }
      intros [es c'] (Hc' & Hx & Hes). cbn [fst snd] in *. cbn. split_and!; [done..|]. intros P L Hh. apply array_wf; [by eapply wf_in|].
      eapply Forall2_impl; [done|]. intros t e' He. by apply He.
    - (* a variant *)
      match goal with H : Forall2 _ fs _ |- _ => rename H into Hfs end.
      eapply fine_bind; [apply (fine_map_st2 _ (cx_ok R []) ext (const_ok T R) cok fs (List.map snd fs0)); [apply ext_refl|apply ext_trans|intros *; apply cok_ext| |done|done]|].
      { intros s' v t Hv. rewrite Forall_forall in IH. by apply IH. }
      intros [es c'] (Hc' & Hx & Hes). cbn [fst snd] in *.
      match goal with H : rc_discr R _ _ = Some _ |- _ => rewrite H end. cbn [ask obind].
      match goal with H : map_get _ _ = Some _ |- _ => rename H into Hk; rewrite Hk end. cbn. split_and!; [done..|]. intros P L Hh.
      eapply variant_wf; [by eapply wf_in|done|]. eapply Forall2_impl; [done|]. intros t e' He. by apply He.
  Qed.

  (** ** Operands *)
  Lemma operand_fine s o r t : iv s -> operand_ok T R B o r t ->
    fine (translate_operand fuel R T s o) (fun x => iv (snd x) /\ gcx s (snd x) /\ vok (snd x) t (fst x)).
  Proof.
    intros Hs Ho. destruct Ho as [c t Hc Ht|p r t [Hp Ht]|p r t [Hp Ht]|c]; cbn [translate_operand].
    - eapply fine_bind; [by eapply const_fine; [apply iv_cx|]|]. intros [e c'] (Hc' & Hx & He). cbn [fst snd] in *. cbn.
      split_and!; [by apply set_cx_iv|by apply set_cx_gcx|]. intros P L [Hh _]. by apply He.
    - eapply fine_bind; [by eapply place_fine|]. intros e He. cbn. split_and!; [done|apply gcx_refl|]. by apply load_vok.
    - eapply fine_bind; [by eapply place_fine|]. intros e He. cbn. split_and!; [done|apply gcx_refl|]. by apply load_vok.
    - cbn. split_and!; [done|apply gcx_refl|]. intros P L _. unfold b_const_bool. cbn [value_check_wf]. by rewrite wf_bool.
  Qed.
  Lemma operand_sized o r t : operand_ok T R B o r t -> sized_ty T t.
  Proof. intros [c t' Hc Ht|p r' t' [Hp Ht]|p r' t' [Hp Ht]|c]; try done. apply sized_bool. Qed.
  Lemma operand_ty_fine s o t : iv s -> operand_ty T R B o t ->
    fine (translate_operand fuel R T s o) (fun x => iv (snd x) /\ gcx s (snd x) /\ vok (snd x) t (fst x)).
  Proof. intros Hs [r Ho]. by eapply operand_fine. Qed.
  Lemma operand_rc o r t : operand_ok T R B o r t -> rc_ty R r = Some t.
  Proof. intros [c t' Hc Ht|p r' t' [[? Hp] Ht]|p r' t' [[? Hp] Ht]|c]; try done; [by destruct Hc|apply HR]. Qed.
  Lemma operand_rty_fine s o r t : iv s -> operand_ok T R B o r t -> fine (operand_rty R s o) (fun r' => r' = r).
  Proof.
    intros Hs Ho. destruct Ho as [c t Hc Ht|p r t [Hp Ht]|p r t [Hp Ht]|c]; cbn [operand_rty]; try done; by eapply place_rty_fine.
  Qed.
End Expr.
