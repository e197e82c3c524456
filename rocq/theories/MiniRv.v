(** The translation of well-typed MIR: rvalues. *)
From Verif Require Export MiniExpr.
From Coq Require Import ZifyBool ZifyN ZifyNat.

Section Rv.
  Context (R : Rustc) (HR : rustc_ok T R) (fuel : nat) (Hfuel : enough R fuel) (B : RBody).

  (** ** Operators *)
  Lemma un_vok s op t t' e : vok R s t e -> (forall P, pr_traits P = traits_of R -> unop_check_wf T P op t = Ret t') -> vok R s t' (EUnOp op e).
  Proof. intros He Hop P L Hc. cbn [value_check_wf]. rewrite (He P L Hc). cbn [obind]. apply Hop, (ho_traits _ _ _ (proj1 Hc)). Qed.
  Lemma bin_vok s op tl tr t l r : vok R s tl l -> vok R s tr r -> binop_check_wf T op tl tr = Ret t -> vok R s t (EBinOp op l r).
  Proof. intros Hl Hr Hop P L Hc. cbn [value_check_wf]. rewrite (Hl P L Hc). cbn [obind]. by rewrite (Hr P L Hc). Qed.
  Lemma transmute_vok s t t' e : vok R s t e -> sized_ty T t -> sized_ty T t' -> vok R s t' (b_transmute e t').
  Proof.
    intros He (l & Hl & Hsl) (l' & Hl' & Hsl'). eapply un_vok; [done|]. intros P _. cbn [unop_check_wf].
    rewrite Hl. cbn [obind]. rewrite Hsl. cbn [ensure_wf obind]. rewrite Hl'. cbn [obind]. by rewrite Hsl'.
  Qed.
  Lemma sized_u8 : sized_ty T u8_ty.
  Proof. eexists. split; [vm_compute; reflexivity|done]. Qed.
  Lemma int_vok s op it l r : vok R s (TInt it) l -> vok R s (TInt it) r -> vok R s (TInt it) (b_int_binop op l r).
  Proof.
    intros Hl Hr. eapply bin_vok; [done..|]. cbn [binop_check_wf]. rewrite bool_decide_eq_true_2 by done. by destruct (is_shift op).
  Qed.
  Lemma shift_vok s op it it' l r : is_shift op = true -> vok R s (TInt it) l -> vok R s (TInt it') r -> vok R s (TInt it) (b_int_binop op l r).
  Proof. intros Ho Hl Hr. eapply bin_vok; [done..|]. cbn [binop_check_wf]. by rewrite Ho. Qed.
  Lemma rel_vok s op t l r : comparable t = true -> vok R s t l -> vok R s t r -> vok R s (match op with RCmp => TInt i8_ty | _ => TBool end) (b_rel op l r).
  Proof.
    intros Ht Hl Hr. eapply bin_vok; [done..|]. cbn [binop_check_wf]. rewrite (bool_decide_eq_true_2 (t = t)) by done. by destruct t.
  Qed.
  Lemma bool_u8_vok s e : vok R s TBool e -> vok R s u8_ty (b_bool_to_u8 e).
  Proof. intros He. eapply transmute_vok; [done|apply sized_bool|apply sized_u8]. Qed.
  Lemma bool_op_vok s op l r : vok R s TBool l -> vok R s TBool r -> vok R s TBool (b_transmute (b_int_binop op (b_bool_to_u8 l) (b_bool_to_u8 r)) TBool).
  Proof.
    intros Hl Hr. eapply (transmute_vok _ u8_ty); [|apply sized_u8|apply sized_bool]. unfold u8_ty. apply int_vok; by apply bool_u8_vok.
  Qed.
  Lemma const_vok s it i : can_represent it i = true -> (forall ht, ty_check_wf T ht (TInt it) = Ret tt) -> vok R s (TInt it) (EConstant (KInt i) (TInt it)).
  Proof. intros Hi Hw P L Hc. cbn [value_check_wf]. rewrite Hw. cbn [obind constant_check_wf]. by rewrite Hi. Qed.
  Lemma const_wf_vok s it i : can_represent it i = true -> wf_ty T R (TInt it) -> vok R s (TInt it) (EConstant (KInt i) (TInt it)).
  Proof. intros Hi Hw P L Hc. cbn [value_check_wf]. rewrite (wf_in _ _ _ _ (proj1 Hc) Hw). cbn [obind constant_check_wf]. by rewrite Hi. Qed.
  Lemma not_vok s e : vok R s TBool e -> vok R s TBool (b_not e).
  Proof.
    intros He. eapply (transmute_vok _ u8_ty); [|apply sized_u8|apply sized_bool]. apply int_vok; [|by apply bool_u8_vok].
    apply const_vok; [done|]. apply wf_u8.
  Qed.
  Lemma addr_vok s e t pt : pok R s t e -> ty_meta_kind t = ptr_meta_kind pt -> (forall P, pr_traits P = traits_of R -> ptrtype_check_wf T (has_trait P) pt = Ret tt) ->
    vok R s (TPtr pt) (EAddrOf e pt).
  Proof.
    intros He Hm Hp P L Hc. rewrite wf_addr, Hp by apply (ho_traits _ _ _ (proj1 Hc)). cbn [obind]. rewrite (He P L Hc). cbn [obind].
    by rewrite bool_decide_eq_true_2.
  Qed.
  Lemma meta_vok s e pt : vok R s (TPtr pt) e -> vok R s (meta_kind_ty T (ptr_meta_kind pt)) (b_get_metadata e).
  Proof. intros He. eapply un_vok; [done|]. done. Qed.
  Lemma thin_vok s e pt : vok R s (TPtr pt) e -> vok R s (TPtr (PRaw MKNone)) (b_get_thin_pointer e).
  Proof. intros He. eapply un_vok; [done|]. done. Qed.
  Lemma wide_vok s e m pt npt : vok R s (TPtr pt) e -> ptr_meta_kind pt = MKNone -> vok R s (meta_kind_ty T (ptr_meta_kind npt)) m ->
    vok R s (TPtr npt) (EBinOp (BConstructWidePointer npt) e m).
  Proof.
    intros He Hp Hm. eapply bin_vok; [done..|]. cbn [binop_check_wf]. rewrite Hp, bool_decide_eq_false_2 by (by intros []).
    by rewrite bool_decide_eq_false_2 by (by intros []).
  Qed.
  Lemma offset_vok s e o it b : vok R s (TPtr (PRaw MKNone)) e -> vok R s (TInt it) o -> vok R s (TPtr (PRaw MKNone)) (b_ptr_offset e o b).
  Proof. intros He Ho. by eapply bin_vok. Qed.
  Lemma tuple_vok s fs h es : wf_ty T R (TTuple fs h None) -> Forall2 (vok R s) (List.map snd fs) es -> vok R s (TTuple fs h None) (ETuple es (TTuple fs h None)).
  Proof.
    intros Hw H P L Hc. apply tuple_wf; [by eapply wf_in; [apply Hc|]|]. eapply Forall2_impl; [done|]. intros t e He. by apply He.
  Qed.
  Lemma array_vok s e n es : wf_ty T R (TArray e (Z.of_nat n)) -> Forall2 (vok R s) (repeat e n) es -> vok R s (TArray e (Z.of_nat n)) (ETuple es (TArray e (Z.of_nat n))).
  Proof.
    intros Hw H P L Hc. apply array_wf; [by eapply wf_in; [apply Hc|]|]. eapply Forall2_impl; [done|]. intros t x He. by apply He.
  Qed.
  Lemma variant_vok s vts dty d sz al k fs h tg es : wf_ty T R (TEnum vts dty d sz al) -> map_get vts k = Some (TTuple fs h None, tg) ->
    Forall2 (vok R s) (List.map snd fs) es -> vok R s (TEnum vts dty d sz al) (EVariant k (ETuple es (TTuple fs h None)) (TEnum vts dty d sz al)).
  Proof.
    intros Hw Hk H P L Hc. eapply variant_wf; [by eapply wf_in; [apply Hc|]|done|]. eapply Forall2_impl; [done|]. intros t x He. by apply He.
  Qed.

  (** ** Lists of operands *)
  Lemma operands_fine s os ts : iv R B s -> Forall2 (operand_ty T R B) os ts ->
    fine (map_st (translate_operand fuel R T) os s) (fun x => iv R B (snd x) /\ gcx s (snd x) /\ Forall2 (vok R (snd x)) ts (fst x)).
  Proof.
    intros Hs H. apply (fine_map_st2 _ (iv R B) gcx (operand_ty T R B) (vok R)).
    - apply gcx_refl.
    - apply gcx_trans.
    - intros *. apply vok_gcx.
    - intros s' o t _ Hs' Ho. by apply operand_ty_fine.
    - done.
    - done.
  Qed.

  Lemma two_operands s l r tl tr {A} (k : ValueExpr -> ValueExpr -> Fcx -> Outcome A) Q : iv R B s -> operand_ty T R B l tl -> operand_ty T R B r tr ->
    (forall el er s', iv R B s' -> gcx s s' -> vok R s' tl el -> vok R s' tr er -> fine (k el er s') Q) ->
    fine (let! ' (el, s1) := translate_operand fuel R T s l in let! ' (er, s2) := translate_operand fuel R T s1 r in k el er s2) Q.
  Proof.
    intros Hs Hl Hr Hk. eapply fine_bind; [by eapply operand_ty_fine|]. intros [el s1] (Hs1 & Hg1 & He1). cbn [fst snd] in *.
    eapply fine_bind; [by eapply operand_ty_fine|]. intros [er s2] (Hs2 & Hg2 & He2). cbn [fst snd] in *.
    apply Hk; [done|by eapply gcx_trans|by eapply vok_gcx|done].
  Qed.

  Lemma ask_ty r t {A} (k : Ty -> Outcome A) Q : rc_ty R r = Some t -> fine (k t) Q -> fine (let! x := ask (rc_ty R r) in k x) Q.
  Proof. by intros ->. Qed.
  Lemma with_rty s o r t {A} (k : RTy -> Outcome A) Q : iv R B s -> operand_ok T R B o r t -> fine (k r) Q -> fine (let! x := operand_rty R s o in k x) Q.
  Proof. intros Hs Ho Hk. eapply fine_bind; [by eapply operand_rty_fine|]. by intros ? ->. Qed.
  Lemma with_place_rty s p r t {A} (k : RTy -> Outcome A) Q : iv R B s -> place_ok R B p r t -> fine (k r) Q -> fine (let! x := place_rty R s p in k x) Q.
  Proof. intros Hs Ho Hk. eapply fine_bind; [by eapply place_rty_fine|]. by intros ? ->. Qed.

  (** ** Binary operators *)
  Definition res (s : Fcx) (t : Ty) (x : ValueExpr * Fcx) : Prop := iv R B (snd x) /\ gcx s (snd x) /\ vok R (snd x) t (fst x).

  Lemma binary_fine s op l r tl tr t : iv R B s -> operand_ty T R B l tl -> operand_ty T R B r tr ->
    (forall s' el er ol, operand_ok T R B l ol tl -> vok R s' tl el -> vok R s' tr er ->
       fine (translate_binop R op tl tr (match rc_deref R ol with Some p => rc_size R p | None => None end) el er) (vok R s' t)) ->
    fine (translate_rvalue fuel R T s (RvBinary op l r)) (res s t).
  Proof.
    intros Hs [ol Hl] [or Hr] Hop. cbn [translate_rvalue].
    eapply with_rty; [done..|]. eapply ask_ty; [by eapply operand_rc|].
    eapply with_rty; [done..|]. eapply ask_ty; [by eapply operand_rc|].
    eapply two_operands; [done|by eexists|by eexists|]. intros el er s' Hs' Hg Hel Her.
    eapply fine_bind; [by eapply Hop|]. intros e He. by split_and!.
  Qed.

  Lemma wf_ptr_meta P c t l : holds R P c -> wf_ty T R t -> layout T t = Ret l -> layout_meta_kind l = ty_meta_kind t.
  Proof. intros _ Hw Hl. destruct (wf_layout _ _ _ Hw) as (l' & Hl' & _ & _ & Hm). congruence. Qed.

  Lemma cast_fine s k o r t : iv R B s -> rvalue_ok T R B (RvCast k o r) t -> fine (translate_rvalue fuel R T s (RvCast k o r)) (res s t).
  Proof.
    intros Hs H. cbn [translate_rvalue]. inversion H; subst; unfold translate_cast.
    - match goal with H : operand_ty _ _ _ _ _ |- _ => destruct H as [ro Ho] end.
      eapply with_rty; [done..|]. eapply ask_ty; [by eapply operand_rc|].
      eapply fine_bind; [by eapply operand_fine|]. intros [e s'] (Hs' & Hg & He). cbn [fst snd] in *.
      eapply ask_ty; [done|]. destruct t0 as [it'| | | | | | | |]; try done; cbn; (split_and!; [done..|]).
      + eapply un_vok; [done|]. done.
      + eapply (un_vok _ _ u8_ty); [by apply bool_u8_vok|]. done.
    - match goal with H : operand_ty _ _ _ _ _ |- _ => destruct H as [ro Ho] end.
      eapply with_rty; [done..|]. eapply ask_ty; [by eapply operand_rc|]. eapply ask_ty; [done|].
      destruct t0 as [| |[| |old| |]| | | | | |]; try done. destruct pt as [| |new| |]; try done.
      eapply fine_bind; [by eapply operand_fine|]. intros [e s'] (Hs' & Hg & He). cbn [fst snd] in *.
      case_bool_decide as E1; [subst; by cbn|]. case_bool_decide as E2; [subst; cbn|done]. split_and!; [done..|]. by eapply thin_vok.
    - eapply with_rty; [done..|].
      match goal with H : rc_deref R ro = Some _ |- _ => rewrite H end. cbn [unwrap obind].
      match goal with H : rc_deref R r = Some _ |- _ => rewrite H end. cbn [unwrap obind].
      eapply ask_ty; [done|].
      eapply fine_bind; [by eapply operand_fine|]. intros [e s'] (Hs' & Hg & He). cbn [fst snd] in *.
      match goal with H : unsize_ok _ _ _ _ _ _ |- _ => destruct H as [old new pt npt n Hu Hpt Hnpt Hn|old new pt Hu|old new pt npt tn Hu Hd Hpt Hnpt|old new pt npt Hu] end;
        rewrite Hu; [| | |done].
      + cbn. split_and!; [done..|]. eapply wide_vok; [done|done|]. rewrite Hnpt. cbn [meta_kind_ty].
        apply const_vok; [done|]. apply wf_usize.
      + by cbn.
      + rewrite Hd. cbn [ask obind]. eapply fine_bind; [eapply get_vtable_fine, (iv_cx _ _ _ Hs')|]. intros [v c] (Hc & Hx & Hv). cbn [fst snd] in *.
        cbn. split_and!; [by apply set_cx_iv|eapply gcx_trans; [done|by apply set_cx_gcx]|].
        eapply wide_vok; [by eapply vok_gcx; [apply set_cx_gcx|]|done|]. rewrite Hnpt. cbn [meta_kind_ty].
        intros P L Hcp. unfold b_const_vtable. cbn [value_check_wf]. destruct (ro_dyn _ _ HR _ _ TBool Hd) as [Htn _].
        assert (Hwv : ty_check_wf T (has_trait P) (TPtr (PVTablePtr tn)) = Ret tt).
        { cbn [ty_check_wf ptrtype_check_wf]. unfold has_trait. rewrite (ho_traits _ _ _ (proj1 Hcp)), Htn. vm_compute; reflexivity. }
        rewrite Hwv. cbn [obind constant_check_wf]. destruct (ho_vts _ _ _ (proj1 Hcp) _ _ _ Hv) as (vt & Hvt & <-). rewrite Hvt.
        by rewrite bool_decide_eq_true_2.
    - eapply fine_bind; [by eapply operand_ty_fine|]. intros [e s'] (Hs' & Hg & He). cbn [fst snd] in *.
      eapply ask_ty; [done|]. cbn. split_and!; [done..|]. match goal with H : operand_ty _ _ _ _ _ |- _ => destruct H as [ro Ho] end.
      eapply transmute_vok; [done|by eapply operand_sized|done].
    - destruct (get_fn_name (fx_cx s) f) as [n c] eqn:E. pose proof (get_fn_name_ok R [] (fx_cx s) f (iv_cx _ _ _ Hs)) as Hok.
      pose proof (get_fn_name_ext (fx_cx s) f) as [Hx _]. rewrite E in Hok, Hx. cbn [snd] in *.
      cbn. split_and!; [by apply set_cx_iv|by apply set_cx_gcx|]. intros P L [Hh _].
      change n with (fst (n, c)). rewrite <-E. apply (fn_ptr_wf R). by rewrite E.
    - done.
  Qed.

  Lemma rvalue_fine s rv t : iv R B s -> rvalue_ok T R B rv t -> fine (translate_rvalue fuel R T s rv) (res s t).
  Proof.
    intros Hs H. destruct rv as [o|op l r|op l r|op o|m p|p|k r os|p|p|p|o n|k o r|]; try (by eapply cast_fine); inversion H; subst;
      try (match goal with H : operand_ty _ _ _ ?l _, H' : operand_ty _ _ _ ?r _ |- fine (translate_rvalue _ _ _ _ (RvBinary _ ?l ?r)) _ => idtac end;
           eapply binary_fine; [done..|]; intros s' el er ol Hol Hl Hr; cbn [translate_binop]).
    - cbn [translate_rvalue]. by eapply operand_ty_fine.
    - destruct op; try discriminate; cbn; by apply int_vok.
    - destruct op; try discriminate; cbn; by eapply shift_vok.
    - destruct op; try discriminate; cbn; by apply bool_op_vok.
    - destruct op; try discriminate; destruct t0; try discriminate; cbn;
        match goal with |- vok _ _ _ (b_rel ?o _ _) => by eapply (rel_vok _ o) end.
    - match goal with H : rc_ordering R = Some _ |- _ => rename H into Ho; rewrite Ho end. destruct t0; try discriminate; cbn;
        (eapply (transmute_vok _ (TInt i8_ty)); [by eapply (rel_vok _ RCmp)|eexists; (split; [vm_compute; reflexivity|done])|by apply HR]).
    - (* offset *)
      match goal with H : operand_ok _ _ _ l rl _ |- _ => rename H into Hl end.
      match goal with H : operand_ty _ _ _ r _ |- _ => destruct H as [rr Hr] end. cbn [translate_rvalue].
      eapply with_rty; [done..|]. eapply ask_ty; [by eapply operand_rc|].
      eapply with_rty; [done..|]. eapply ask_ty; [by eapply operand_rc|].
      eapply two_operands; [done|by eexists|by eexists|]. intros el er s' Hs' Hg Hel Her.
      match goal with H : rc_deref R rl = Some _ |- _ => rewrite H end. match goal with H : rc_size R _ = Some _ |- _ => rewrite H end.
      cbn. split_and!; [done..|]. eapply offset_vok; [done|]. apply int_vok; [done|]. apply const_wf_vok; [done|].
      apply operand_rc in Hr; [|done]. by apply HR in Hr.
    - cbn [translate_rvalue]. eapply two_operands; [done..|]. intros el er s' Hs' Hg Hel Her.
      match goal with H : _ \/ _ \/ _ |- _ => destruct H as [-> | [-> | ->]] end; cbn; (split_and!; [done..|]);
        (eapply bin_vok; [done..|]); cbn [binop_check_wf]; by rewrite bool_decide_eq_true_2.
    - match goal with H : operand_ty _ _ _ o _ |- _ => destruct H as [ro Ho] end. cbn [translate_rvalue].
      eapply with_rty; [done..|]. eapply ask_ty; [by eapply operand_rc|].
      eapply fine_bind; [by eapply operand_fine|]. intros [e s'] (Hs' & Hg & He). cbn. split_and!; [done..|]. by eapply un_vok.
    - match goal with H : operand_ty _ _ _ o _ |- _ => destruct H as [ro Ho] end. cbn [translate_rvalue].
      eapply with_rty; [done..|]. eapply ask_ty; [by eapply operand_rc|].
      eapply fine_bind; [by eapply operand_fine|]. intros [e s'] (Hs' & Hg & He). cbn. split_and!; [done..|]. by eapply un_vok.
    - match goal with H : operand_ty _ _ _ o _ |- _ => destruct H as [ro Ho] end. cbn [translate_rvalue].
      eapply with_rty; [done..|]. eapply ask_ty; [by eapply operand_rc|].
      eapply fine_bind; [by eapply operand_fine|]. intros [e s'] (Hs' & Hg & He). cbn. split_and!; [done..|]. by apply not_vok.
    - match goal with H : operand_ty _ _ _ o _ |- _ => destruct H as [ro Ho] end. cbn [translate_rvalue].
      eapply with_rty; [done..|]. eapply ask_ty; [by eapply operand_rc|].
      eapply fine_bind; [by eapply operand_fine|]. intros [e s'] (Hs' & Hg & He). cbn. split_and!; [done..|]. by eapply meta_vok.
    - (* a reference *)
      cbn [translate_rvalue]. eapply with_place_rty; [done..|].
      match goal with H : rc_pointee R _ = Some _ |- _ => rename H into Hpi; rewrite Hpi end. cbn [ask obind].
      eapply fine_bind; [by eapply place_fine|]. intros e He. cbn. split_and!; [done|apply gcx_refl|].
      match goal with H : place_ok _ _ _ _ _ |- _ => destruct H as [Ht _] end. destruct (ro_pointee _ _ HR _ _ _ Ht Hpi) as [Hl Hw].
      eapply addr_vok; [done| |].
      + destruct (wf_layout _ _ _ (ro_ty _ _ HR _ _ Ht)) as (l' & Hl' & _ & _ & Hm). cbn [ptr_meta_kind]. congruence.
      + intros P HP. cbn [ptrtype_check_wf]. unfold has_trait. by rewrite HP.
    - (* a raw pointer *)
      cbn [translate_rvalue]. eapply with_place_rty; [done..|].
      eapply fine_bind; [by eapply place_fine|]. intros e He. eapply fine_bind; [apply fine_ask'|]. intros pi Hpi. cbn.
      match goal with H : place_ok _ _ _ _ _ |- _ => destruct H as [Ht _] end. destruct (ro_pointee _ _ HR _ _ _ Ht Hpi) as [Hl Hw].
      destruct (wf_layout _ _ _ (ro_ty _ _ HR _ _ Ht)) as (l' & Hl' & _ & _ & Hm). assert (l' = pi_layout pi) as -> by congruence. rewrite Hm.
      split_and!; [done|apply gcx_refl|]. by eapply addr_vok.
    - (* aggregates *)
      cbn [translate_rvalue]. eapply ask_ty; [done|].
      match goal with H : ag_field k = Some _ |- _ => rewrite H end. cbn [unwrap obind].
      match goal with H : rc_ty R _ = Some _ |- _ => pose proof (ro_ty _ _ HR _ _ H) as Hw end.
      match goal with H : _ !! _ = Some _ |- _ => rename H into Hx end.
      eapply fine_bind; [by eapply operand_ty_fine|]. intros [e s'] (Hs' & Hg & He). cbn. split_and!; [done..|].
      intros P L Hc. cbn [fst snd] in *. cbn [value_check_wf].
      rewrite (wf_in _ _ _ _ (proj1 Hc) Hw). cbn [obind]. apply lookup_lt_Some in Hx as Hlt.
      rewrite (proj2 (Z.ltb_lt _ _)) by lia. cbn [ensure_wf obind]. unfold list_get. rewrite (proj2 (Z.ltb_ge _ _)) by lia. rewrite Nat2Z.id, Hx.
      cbn [unwrap obind]. destruct x as [off ty]. cbn [fst snd] in *. rewrite (He P L Hc). cbn [obind]. by rewrite bool_decide_eq_true_2.
    - cbn [translate_rvalue]. eapply ask_ty; [done|]. match goal with H : rc_ty R _ = Some _ |- _ => pose proof (ro_ty _ _ HR _ _ H) as Hw end.
      eapply fine_bind; [by eapply operands_fine|]. intros [es s'] (Hs' & Hg & Hes). cbn. split_and!; [done..|]. by apply tuple_vok.
    - cbn [translate_rvalue]. eapply ask_ty; [done|]. match goal with H : rc_ty R _ = Some _ |- _ => pose proof (ro_ty _ _ HR _ _ H) as Hw end.
      eapply fine_bind; [by eapply operands_fine|]. intros [es s'] (Hs' & Hg & Hes). cbn. split_and!; [done..|]. by apply array_vok.
    - cbn [translate_rvalue]. eapply ask_ty; [done|]. match goal with H : rc_ty R _ = Some _ |- _ => pose proof (ro_ty _ _ HR _ _ H) as Hw end.
      match goal with H : ag_variant k = Some _ |- _ => rewrite H end. cbn [unwrap obind].
      unfold discriminant_for_variant. match goal with H : rc_discr _ _ _ = Some _ |- _ => rewrite H end. cbn [ask obind].
      eapply fine_bind; [by eapply operands_fine|]. intros [es s'] (Hs' & Hg & Hes).
      match goal with H : map_get _ _ = Some _ |- _ => rename H into Hk; rewrite Hk end. cbn. split_and!; [done..|]. by eapply variant_vok.
    - cbn [translate_rvalue]. eapply ask_ty; [done|]. cbn match. eapply two_operands; [done..|]. intros el er s' Hs' Hg Hel Her.
      cbn. split_and!; [done..|]. by eapply wide_vok.
    - cbn [translate_rvalue]. match goal with H : sized_place _ _ _ _ _ _ |- _ => destruct H as [Hp Hsz] end.
      eapply fine_bind; [by eapply place_fine|]. intros e He. cbn. split_and!; [done|apply gcx_refl|]. by apply load_vok.
    - cbn [translate_rvalue]. match goal with H : place_ok _ _ _ _ _ |- _ => pose proof H as [Ht _] end.
      eapply with_place_rty; [done..|]. eapply ask_ty; [done|]. cbn. split_and!; [done|apply gcx_refl|].
      apply const_vok; [done|]. apply wf_usize.
    - cbn [translate_rvalue]. match goal with H : place_ok _ _ _ _ _ |- _ => pose proof H as [Ht _] end.
      eapply with_place_rty; [done..|]. eapply ask_ty; [done|]. eapply fine_bind; [by eapply place_fine|]. intros e' He. cbn.
      split_and!; [done|apply gcx_refl|]. apply (meta_vok _ _ (PRaw MKElementCount)). by eapply addr_vok.
    - cbn [translate_rvalue]. eapply fine_bind; [by eapply place_fine|]. intros e He. cbn. split_and!; [done|apply gcx_refl|].
      intros P L Hc. cbn [fst snd] in *. rewrite wf_discr, (He P L Hc). done.
    - cbn [translate_rvalue]. match goal with H : operand_ty _ _ _ o _ |- _ => destruct H as [ro Ho] end.
      eapply with_rty; [done..|]. eapply ask_ty; [by eapply operand_rc|].
      eapply fine_bind; [by eapply operand_fine|]. intros [e s'] (Hs' & Hg & He). cbn. split_and!; [done..|].
      match goal with H : wf_ty _ _ _ |- _ => rename H into Hw end. cbn [fst snd] in *. replace (Z.of_N n) with (Z.of_nat (N.to_nat n)) in * by lia.
      apply array_vok; [done|]. clear -He. induction (N.to_nat n); cbn [repeat]; by constructor.
    - done.
  Qed.
End Rv.
