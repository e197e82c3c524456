(** What translated rvalues mean. *)
From Verif Require Export MirMeanProofs.
From Verif Require Import ExprProofs.
From Coq Require Import ZifyBool ZifyN ZifyNat.

Section Plain.
  Context {PE AE F : Type} `{EqDecision (nat * PE)}.
  Notation P := (nat * PE)%type.
  Notation Mach := (Machine P F (BMem PE AE)).
  Variable m : Mach.

  (** ** Checks without memory *)
  Lemma env_exists : exists env : ChkEnv P, (forall p n, ce_deref env p n = Ret tt <-> span m p (Z.of_N n)) /\
    ce_vtable_from_ptr env = vtable_from_ptr m /\ ce_vtable_lookup env = vtable_lookup m.
  Proof.
    set (deref := fun (p : ThinPtr P) (n : Size) => if (n =? 0)%N then Ret tt else
      match tp_prov p with
      | Some (id, _) => match cm_mem (m_mem m) !! id with
                        | Some a => if al_live a && (al_addr a <=? tp_addr p) && (tp_addr p - al_addr a + Z.of_N n <=? Z.of_N (al_size a)) then Ret tt else Panic
                        | None => Panic
                        end
      | None => Panic
      end).
    exists (mkChkEnv deref (vtable_from_ptr m) (vtable_lookup m)). split_and!; [|done..]. intros p n. cbn [ce_deref]. unfold deref, span. split.
    - destruct (N.eqb_spec n 0) as [->|Hn]; [by left|]. destruct (tp_prov p) as [[id pe]|] eqn:Ep; [|done].
      destruct (cm_mem (m_mem m) !! id) as [a|] eqn:Ea; [|done]. destruct (_ && _) eqn:E; [|done]. intros _.
      right. exists id, (Z.to_nat (tp_addr p - al_addr a)), a. split_and!; [|done|lia|lia]. exists pe, a. split_and!; [done..| |]; [by destruct (al_live a)|lia].
    - intros [Hn|(id & i & a & (pe & a' & Hp & Ha & Hl & Hadd) & Ha' & H0 & Hle)]; [by rewrite (proj2 (N.eqb_eq _ _)) by lia|].
      assert (a' = a) as -> by congruence. rewrite (proj2 (N.eqb_neq _ _)) by lia. rewrite Hp, Ha, Hl. cbn [andb].
      by rewrite (proj2 (Z.leb_le _ _)), (proj2 (Z.leb_le _ _)) by lia.
  Qed.
  Lemma valid_u8 b : valid T m u8_ty (VInt (Z.b2z b)).
  Proof. destruct env_exists as (env & H1 & H2 & H3). exists env. split_and!; try done. constructor. destruct b; cbn; lia. Qed.
  Lemma valid_bool b : valid T m TBool (VBool b).
  Proof. destruct env_exists as (env & H1 & H2 & H3). exists env. split_and!; try done. constructor. Qed.

  (** ** Booleans as bytes *)
  Lemma transmute_bool v w : transmutes T m TBool v u8_ty w <-> exists b, v = VBool b /\ w = VInt (Z.b2z b).
  Proof.
    split.
    - intros (s & bs & Hs & _ & He & Hd & _). destruct v as [|b| | | |]; try discriminate He. exists b. split; [done|].
      destruct b; injection He as <-; vm_compute in Hd; by injection Hd as <-.
    - intros (b & -> & ->). exists 1%N. destruct b; (eexists; split_and!; [reflexivity|reflexivity|reflexivity|reflexivity|]).
      + apply (valid_u8 true). 
      + apply (valid_u8 false).
  Qed.
  Lemma transmute_byte b w : transmutes T m u8_ty (VInt (Z.b2z b)) TBool w <-> w = VBool b.
  Proof.
    split.
    - intros (s & bs & Hs & _ & He & Hd & _). destruct b; vm_compute in He; injection He as <-; vm_compute in Hd; by injection Hd as <-.
    - intros ->. exists 1%N. destruct b; (eexists; split_and!; [reflexivity|reflexivity|reflexivity|reflexivity|apply valid_bool]).
  Qed.

  (** ** Operators *)
  Lemma un_iff op e K : (forall v t, value_means T m e v t <-> K v t) ->
    forall w tw, value_means T m (EUnOp op e) w tw <-> exists v t, K v t /\ un_means T m op v t w tw.
  Proof.
    intros He w tw. split.
    - inversion 1; subst. eexists _, _. split; [by apply He|done].
    - intros (v & t & Hk & Hu). econstructor; [by apply He|done].
  Qed.
  Lemma bin_iff op e1 e2 K1 K2 : (forall v t, value_means T m e1 v t <-> K1 v t) -> (forall v t, value_means T m e2 v t <-> K2 v t) ->
    forall w tw, value_means T m (EBinOp op e1 e2) w tw <-> exists v1 t1 v2 t2, K1 v1 t1 /\ K2 v2 t2 /\ bin_means T m op v1 t1 v2 w tw.
  Proof.
    intros H1 H2 w tw. split.
    - inversion 1; subst. eexists _, _, _, _. split_and!; [by apply H1|by apply H2|done].
    - intros (v1 & t1 & v2 & t2 & Hk1 & Hk2 & Hb). econstructor; [by apply H1|by apply H2|done].
  Qed.
  Lemma transmute_iff e K t' : (forall v t, value_means T m e v t <-> K v t) ->
    forall w tw, value_means T m (b_transmute e t') w tw <-> exists v t, K v t /\ transmutes T m t v t' w /\ tw = t'.
  Proof.
    intros He w tw. unfold b_transmute. rewrite (un_iff _ _ _ He). split; intros (v & t & Hk & Hu); exists v, t; (split; [done|]).
    - inversion Hu; subst. split; [|done]. eexists _, _. split_and!; done.
    - destruct Hu as [(s & bs & H1 & H2 & H3 & H4 & H5) ->]. by econstructor.
  Qed.
  Lemma bool_u8_iff e K : (forall v t, value_means T m e v t <-> K v t) -> (forall v t, K v t -> t = TBool) ->
    forall w tw, value_means T m (b_bool_to_u8 e) w tw <-> exists b, K (VBool b) TBool /\ w = VInt (Z.b2z b) /\ tw = u8_ty.
  Proof.
    intros He Ht w tw. unfold b_bool_to_u8. rewrite (transmute_iff _ _ _ He). split.
    - intros (v & t & Hk & Htr & ->). pose proof (Ht _ _ Hk) as ->. apply transmute_bool in Htr as (b & -> & ->). by exists b.
    - intros (b & Hk & -> & ->). eexists _, _. split_and!; [done|apply transmute_bool; by eexists|done].
  Qed.
  Lemma bool_op_iff op g e1 e2 K1 K2 : (forall v t, value_means T m e1 v t <-> K1 v t) -> (forall v t, value_means T m e2 v t <-> K2 v t) ->
    (forall v t, K1 v t -> t = TBool) -> (forall v t, K2 v t -> t = TBool) ->
    (forall a b, int_bin_op op (Z.b2z a) (Z.b2z b) (mkIntTy Unsigned 1) = Ret (Z.b2z (g a b))) ->
    forall w tw, value_means T m (b_transmute (b_int_binop op (b_bool_to_u8 e1) (b_bool_to_u8 e2)) TBool) w tw <->
      exists a b, K1 (VBool a) TBool /\ K2 (VBool b) TBool /\ w = VBool (g a b) /\ tw = TBool.
  Proof.
    intros H1 H2 T1 T2 Hop w tw. unfold b_int_binop. rewrite (transmute_iff _ _ _ (bin_iff _ _ _ _ _ (bool_u8_iff _ _ H1 T1) (bool_u8_iff _ _ H2 T2))). split.
    - intros (v & t & (v1 & t1 & v2 & t2 & (a & Ha & -> & ->) & (b & Hb & -> & ->) & Hbin) & Htr & ->). inversion Hbin as [? ? ? ? r Hr| | | | | | |]; subst.
      exists a, b. split_and!; [done..| |done]. rewrite Hop in Hr. injection Hr as <-. by apply transmute_byte.
    - intros (a & b & Ha & Hb & -> & ->). eexists _, _. split_and!; [|by apply transmute_byte|done].
      eexists _, _, _, _. split_and!; [by eexists|by eexists|]. constructor. apply Hop.
  Qed.
  Lemma not_iff e K : (forall v t, value_means T m e v t <-> K v t) -> (forall v t, K v t -> t = TBool) ->
    forall w tw, value_means T m (b_not e) w tw <-> exists b, K (VBool b) TBool /\ w = VBool (negb b) /\ tw = TBool.
  Proof.
    intros He Ht w tw. unfold b_not, b_int_binop, b_const_int.
    assert (forall v t, value_means T m (EConstant (KInt 1) u8_ty) v t <-> v = VInt 1 /\ t = u8_ty) as H1.
    { intros v t. split; [inversion 1 as [k v' ty' Hk| | | | | | | |]; subst; by inversion Hk; subst|]. intros [-> ->]. do 2 constructor. }
    rewrite (transmute_iff _ _ _ (bin_iff _ _ _ _ _ H1 (bool_u8_iff _ _ He Ht))).
    assert (forall b, int_bin_op ISub 1 (Z.b2z b) (mkIntTy Unsigned 1) = Ret (Z.b2z (negb b))) as Hop by (by intros []). split.
    - intros (v & t & (v1 & t1 & v2 & t2 & (-> & ->) & (b & Hb & -> & ->) & Hbin) & Htr & ->). inversion Hbin as [? ? ? ? r Hr| | | | | | |]; subst.
      exists b. split_and!; [done| |done]. rewrite Hop in Hr. injection Hr as <-. by apply transmute_byte.
    - intros (b & Hb & -> & ->). eexists _, _. split_and!; [|by apply transmute_byte|done].
      exists (VInt 1), u8_ty. eexists _, _. split; [done|]. split; [by eexists|]. constructor. apply Hop.
  Qed.

  (** comparisons by keys *)
  Lemma rel_iff op rop t v w k1 k2 r tr : cmp_key t v k1 -> cmp_key t w k2 ->
    (op, rop) ∈ [(RoLt, RLt); (RoLe, RLe); (RoGt, RGt); (RoGe, RGe); (RoEq, REq); (RoNe, RNe)] ->
    bin_means T m (BRel rop) v t w r tr <-> tr = TBool /\ exists c, r = VBool c /\ (c = true <-> rel_math op k1 k2).
  Proof.
    intros H1 H2 Hop. destruct (compare_says _ _ _ _ _ H1 H2) as (c & Hc & Hs). destruct (cmp_says_iff _ _ _ Hs) as (HL & HE & HG).
    assert (bin_means T m (BRel rop) v t w r tr <-> (r, tr) = eval_rel_op rop c) as ->.
    { split; [inversion 1 as [| |rel' v' ty' w' r' rty' Hr| | | | |]; subst; unfold rel_op in Hr; rewrite Hc in Hr; cbn [obind] in Hr; congruence|].
      intros E. constructor. unfold rel_op. rewrite Hc. cbn. by rewrite E. }
    assert (c = Lt /\ lex_lt k1 k2 /\ k1 <> k2 /\ ~ lex_lt k2 k1 \/ c = Eq /\ ~ lex_lt k1 k2 /\ k1 = k2 /\ ~ lex_lt k2 k1 \/
      c = Gt /\ ~ lex_lt k1 k2 /\ k1 <> k2 /\ lex_lt k2 k1) as Hcases.
    { clear -HL HE HG. destruct c; [right; left|left|right; right]; (split_and!; [done|..]); first [by apply HL|by apply HE|by apply HG|by intros ?%HL|by intros ?%HE|by intros ?%HG]. }
    clear HL HE HG Hs Hc H1 H2. set_unfold in Hop.
    destruct Hcases as [(-> & H1 & H2 & H3)|[(-> & H1 & H2 & H3)|(-> & H1 & H2 & H3)]];
    destruct_or! Hop; try done; injection Hop as -> ->; cbn [eval_rel_op rel_math];
      (split; [intros [= -> ->]; split; [done|]; eexists; split; [done|]; split; [intros; discriminate || tauto|intros; tauto]|]);
      (intros (-> & b & -> & Hb); do 2 f_equal; destruct b; try done; exfalso; clear -Hb H1 H2 H3; intuition congruence).
  Qed.
  Lemma cmp_iff t v w k1 k2 r tr : cmp_key t v k1 -> cmp_key t w k2 ->
    bin_means T m (BRel RCmp) v t w r tr <-> tr = TInt i8_ty /\ exists c, r = VInt c /\ cmp_math k1 k2 c.
  Proof.
    intros H1 H2. destruct (compare_says _ _ _ _ _ H1 H2) as (c & Hc & Hs). destruct (cmp_says_iff _ _ _ Hs) as (HL & HE & HG). unfold cmp_math.
    assert (bin_means T m (BRel RCmp) v t w r tr <-> (r, tr) = eval_rel_op RCmp c) as ->.
    { split; [inversion 1 as [| |rel' v' ty' w' r' rty' Hr| | | | |]; subst; unfold rel_op in Hr; rewrite Hc in Hr; cbn [obind] in Hr; congruence|].
      intros E. constructor. unfold rel_op. rewrite Hc. cbn. by rewrite E. }
    assert (c = Lt /\ lex_lt k1 k2 /\ k1 <> k2 /\ ~ lex_lt k2 k1 \/ c = Eq /\ ~ lex_lt k1 k2 /\ k1 = k2 /\ ~ lex_lt k2 k1 \/
      c = Gt /\ ~ lex_lt k1 k2 /\ k1 <> k2 /\ lex_lt k2 k1) as Hcases.
    { clear -HL HE HG. destruct c; [right; left|left|right; right]; (split_and!; [done|..]); first [by apply HL|by apply HE|by apply HG|by intros ?%HL|by intros ?%HE|by intros ?%HG]. }
    clear HL HE HG Hs Hc H1 H2. cbn [eval_rel_op].
    destruct Hcases as [(-> & H1 & H2 & H3)|[(-> & H1 & H2 & H3)|(-> & H1 & H2 & H3)]];
      (split; [intros [= -> ->]; split; [done|]; eexists; split; [done|]; tauto|]);
      (intros (-> & b & -> & Hb); do 2 f_equal; clear -Hb H1 H2 H3; intuition congruence).
  Qed.
End Plain.

Local Ltac in_list := repeat first [apply elem_of_list_here|apply elem_of_list_further].

Section Rv.
  Context {PE AE F : Type} `{EqDecision (nat * PE)}.
  Notation P := (nat * PE)%type.
  Notation Mach := (Machine P F (BMem PE AE)).
  Context (m : Mach) (f : StackFrame P F) (Hf : top_frame m f) (R : Rustc) (HR : rustc_ok T R) (HD : discr_ok R) (fuel : nat) (Hfuel : enough R fuel)
    (B : RBody) (env : Env P).
  Notation vsem := (vsem m f B env).
  Notation psem := (psem m f B env).
  Notation interp := (interp m f B env).
  Notation om := (operand_means T m R B env).
  Notation rm := (rvalue_means T m R B env).

  Lemma operand_both s o r t : iv R B s -> operand_ok T R B o r t ->
    rets (translate_operand fuel R T s o) (fun x => iv R B (snd x) /\ gcx s (snd x) /\ vsem (snd x) (fst x) (om o)).
  Proof.
    intros Hs Ho. eapply rets_weak; [apply rets_and; [by apply rets_fine; eapply operand_fine|by eapply operand_sem]|].
    intros [e s'] ((H1 & H2 & _) & H3). done.
  Qed.
  Lemma operand_ty_both s o t : iv R B s -> operand_ty T R B o t ->
    rets (translate_operand fuel R T s o) (fun x => iv R B (snd x) /\ gcx s (snd x) /\ vsem (snd x) (fst x) (om o)).
  Proof. intros Hs [r Ho]. by eapply operand_both. Qed.
  Lemma sem_rty s o r t {A} (k : RTy -> Outcome A) Q : iv R B s -> operand_ok T R B o r t ->
    ((forall r' t', operand_ok T R B o r' t' -> r' = r /\ t' = t) -> rets (k r) Q) -> rets (let! x := operand_rty R s o in k x) Q.
  Proof.
    intros Hs Ho Hk. pose proof (operand_rty_fine R B s o r t Hs Ho) as H. assert (forall r' t', operand_ok T R B o r' t' -> fine (operand_rty R s o) (fun x => x = r')) as H'
      by (intros; by eapply operand_rty_fine). destruct (operand_rty R s o); cbn in *; try done. subst. apply Hk. intros r' t' Hr'. pose proof (H' _ _ Hr') as ->.
    split; [done|]. apply (operand_rc _ HR) in Hr', Ho. congruence.
  Qed.
  Lemma sem_place_rty s p r t {A} (k : RTy -> Outcome A) Q : iv R B s -> MirSpec.place_ok R B p r t ->
    ((forall r' t', MirSpec.place_ok R B p r' t' -> r' = r /\ t' = t) -> rets (k r) Q) -> rets (let! x := place_rty R s p in k x) Q.
  Proof.
    intros Hs Ho Hk. pose proof (place_rty_fine R B s p r t Hs Ho) as H. assert (forall r' t', MirSpec.place_ok R B p r' t' -> fine (place_rty R s p) (fun x => x = r')) as H'
      by (intros; by eapply place_rty_fine). destruct (place_rty R s p); cbn in *; try done. subst. apply Hk. intros r' t' Hr'. pose proof (H' _ _ Hr') as ->.
    split; [done|]. destruct Hr' as [? _], Ho as [? _]. congruence.
  Qed.
  Lemma sem_ty r t {A} (k : Ty -> Outcome A) Q : rc_ty R r = Some t -> rets (k t) Q -> rets (let! x := ask (rc_ty R r) in k x) Q.
  Proof. by intros ->. Qed.
  Lemma sem_two s l r tl tr {A} (k : ValueExpr -> ValueExpr -> Fcx -> Outcome A) Q : iv R B s -> operand_ty T R B l tl -> operand_ty T R B r tr ->
    (forall el er s', iv R B s' -> gcx s s' -> vsem s' el (om l) -> vsem s' er (om r) -> rets (k el er s') Q) ->
    rets (let! ' (el, s1) := translate_operand fuel R T s l in let! ' (er, s2) := translate_operand fuel R T s1 r in k el er s2) Q.
  Proof.
    intros Hs Hl Hr Hk. eapply rets_bind; [by eapply operand_ty_both|]. intros [el s1] (Hs1 & Hg1 & He1). cbn [fst snd] in *.
    eapply rets_bind; [by eapply operand_ty_both|]. intros [er s2] (Hs2 & Hg2 & He2). cbn [fst snd] in *.
    apply Hk; [done|by eapply gcx_trans|by eapply vsem_gcx|done].
  Qed.
  Lemma operands_sem s os ts : iv R B s -> Forall2 (operand_ty T R B) os ts ->
    rets (map_st (translate_operand fuel R T) os s) (fun x => interp (snd x) -> forall vs, values_mean T m (fst x) vs <-> operands_mean T m R B env os vs).
  Proof.
    intros Hs Hos. eapply rets_weak; [eapply (rets_map_st _ (iv R B) gcx (operand_ty T R B) (fun s o e => vsem s e (om o)) os ts s);
      [apply gcx_refl|apply gcx_trans|intros *; apply vsem_gcx| |done|done]|].
    - intros s' o t _ Hs' Ho. by eapply operand_ty_both.
    - intros [es s'] (_ & _ & Hes). cbn [fst snd] in *. intros Hi vs. unfold operands_mean. apply (values_sem m (fun o v => exists t, om o v t)).
      eapply Forall2_impl; [exact Hes|]. intros o e He v. split; intros [t Ht]; exists t; by apply (He Hi).
  Qed.
  Lemma operand_int o it : operand_ty T R B o (TInt it) -> int_ok it.
  Proof. intros [r Ho]. apply (operand_rc _ HR) in Ho. apply HR in Ho. apply pow2_nonzero. by eapply wf_int. Qed.
  Lemma typed_as o v t' t : om o v t' -> operand_ty T R B o t -> t' = t.
  Proof. by apply operand_typed_ty. Qed.

  Lemma binary_sem s op l r tl tr : iv R B s -> operand_ty T R B l tl -> operand_ty T R B r tr ->
    (forall s' el er ol, operand_ok T R B l ol tl -> vsem s' el (om l) -> vsem s' er (om r) ->
       rets (translate_binop R op tl tr (match rc_deref R ol with Some p => rc_size R p | None => None end) el er) (fun e => vsem s' e (rm (RvBinary op l r)))) ->
    rets (translate_rvalue fuel R T s (RvBinary op l r)) (fun x => vsem (snd x) (fst x) (rm (RvBinary op l r))).
  Proof.
    intros Hs [ol Hl] [or Hr] Hop. cbn [translate_rvalue].
    eapply sem_rty; [done..|]. intros _. eapply sem_ty; [by eapply operand_rc|].
    eapply sem_rty; [done..|]. intros _. eapply sem_ty; [by eapply operand_rc|].
    eapply sem_two; [done|by eexists|by eexists|]. intros el er s' Hs' Hg Hel Her.
    eapply rets_bind; [by eapply Hop|]. intros e He. done.
  Qed.

  Lemma int_op_sem s op op' l r it it' el er : int_binop_of op = Some op' -> operand_ty T R B l (TInt it) -> operand_ty T R B r (TInt it') ->
    vsem s el (om l) -> vsem s er (om r) -> vsem s (b_int_binop op' el er) (rm (RvBinary op l r)).
  Proof.
    intros Hop Hl Hr Hel Her Hi v t. unfold b_int_binop. rewrite (bin_iff _ _ _ _ _ _ (Hel Hi) (Her Hi)). pose proof (operand_int _ _ Hl) as Hok. split.
    - intros (v1 & t1 & v2 & t2 & H1 & H2 & Hb). pose proof (typed_as _ _ _ _ H1 Hl) as ->. pose proof (typed_as _ _ _ _ H2 Hr) as ->.
      inversion Hb as [? ? ? ? z Hz| | | | | | |]; subst. eapply rm_int; [done..|]. by eapply int_math_sem.
    - inversion 1 as [|? ? ? x it1 y it2 z H1 H2 Hz|? ? ? ? ? ? H1|? ? ? ? ? ? ? ? ? H1 H2 H3 H4 H5| | | | | | | | | | | | | | | | | | | |]; subst; try discriminate Hop.
      + pose proof (typed_as _ _ _ _ H1 Hl) as [= ->]. eexists _, _, _, _. split_and!; [done..|]. constructor. by eapply int_math_sem.
      + by pose proof (typed_as _ _ _ _ H1 Hl).
      + destruct op; discriminate.
  Qed.
  Lemma bool_op_sem s op op' g l r el er : (op, op', g) ∈ [(RoBitAnd, IBitAnd, andb); (RoBitOr, IBitOr, orb); (RoBitXor, IBitXor, xorb)] ->
    operand_ty T R B l TBool -> operand_ty T R B r TBool -> vsem s el (om l) -> vsem s er (om r) ->
    vsem s (b_transmute (b_int_binop op' (b_bool_to_u8 el) (b_bool_to_u8 er)) TBool) (rm (RvBinary op l r)).
  Proof.
    intros Hop Hl Hr Hel Her Hi v t. rewrite (bool_op_iff m op' g _ _ _ _ (Hel Hi) (Her Hi)).
    2, 3: intros ? ? H; by eapply typed_as.
    2: { set_unfold in Hop. by destruct_or! Hop; try done; injection Hop as -> -> ->; intros [] []. }
    assert (bool_math op = fun a b => Some (g a b)) as Hm by (by set_unfold in Hop; destruct_or! Hop; try done; injection Hop as -> -> ->). split.
    - intros (a & b & Ha & Hb & -> & ->). eapply rm_bool; [done..|]. by rewrite Hm.
    - assert (int_binop_of op <> None /\ MirSpec.rel_op op = false) as [Ho1 Ho2] by (by set_unfold in Hop; destruct_or! Hop; try done; injection Hop as -> -> ->).
      inversion 1 as [|? ? ? x it1 y it2 z H1 H2 Hz|? ? ? a b c H1 H2 H3|? ? ? ? ? ? ? ? ? H1 H2 H3 H4 H5| | | | | | | | | | | | | | | | | | | |]; subst; try done.
      + by pose proof (typed_as _ _ _ _ H1 Hl).
      + rewrite Hm in H3. injection H3 as <-. eauto 10.
      + congruence.
  Qed.
  Lemma rel_op_sem s op op' l r t el er : (op, op') ∈ [(RoLt, RLt); (RoLe, RLe); (RoGt, RGt); (RoGe, RGe); (RoEq, REq); (RoNe, RNe)] ->
    comparable t = true -> operand_ty T R B l t -> operand_ty T R B r t -> vsem s el (om l) -> vsem s er (om r) ->
    vsem s (b_rel op' el er) (rm (RvBinary op l r)).
  Proof.
    intros Hop Hc Hl Hr Hel Her Hi v tv. unfold b_rel. rewrite (bin_iff _ _ _ _ _ _ (Hel Hi) (Her Hi)).
    assert (MirSpec.rel_op op = true) as Ho by (by set_unfold in Hop; destruct_or! Hop; try done; injection Hop as -> ->). split.
    - intros (v1 & t1 & v2 & t2 & H1 & H2 & Hb). pose proof (typed_as _ _ _ _ H1 Hl) as ->. pose proof (typed_as _ _ _ _ H2 Hr) as ->.
      destruct (operand_key m R B env _ _ _ Hc Hl H1) as [k1 Hk1]. destruct (operand_key m R B env _ _ _ Hc Hr H2) as [k2 Hk2].
      destruct (proj1 (rel_iff m op op' _ _ _ _ _ _ _ Hk1 Hk2 Hop) Hb) as (-> & c & -> & Hcc). by eapply rm_rel.
    - inversion 1 as [|? ? ? x it1 y it2 z H1 H2 Hz|? ? ? a b c H1 H2 H3|? ? ? v1 v2 t1 k1 k2 c H1 H2 H3 H4 H5 H6| | | | | | | | | | | | | | | | | | | |]; subst; try discriminate Ho.
      + inversion Hz; subst; discriminate Ho.
      + destruct op; discriminate.
      + eexists _, _, _, _. split_and!; [done..|]. eapply (rel_iff m op); [done..|]. by eauto.
  Qed.
  Lemma cmp_op_sem s l r t o el er : comparable t = true -> operand_ty T R B l t -> operand_ty T R B r t -> rc_ordering R = Some o ->
    vsem s el (om l) -> vsem s er (om r) -> vsem s (b_transmute (b_rel RCmp el er) o) (rm (RvBinary RoCmp l r)).
  Proof.
    intros Hc Hl Hr Ho Hel Her Hi v tv. unfold b_rel. rewrite (transmute_iff _ _ _ _ (bin_iff _ _ _ _ _ _ (Hel Hi) (Her Hi))). split.
    - intros (w & tw & (v1 & t1 & v2 & t2 & H1 & H2 & Hb) & Htr & ->). pose proof (typed_as _ _ _ _ H1 Hl) as ->. pose proof (typed_as _ _ _ _ H2 Hr) as ->.
      destruct (operand_key m R B env _ _ _ Hc Hl H1) as [k1 Hk1]. destruct (operand_key m R B env _ _ _ Hc Hr H2) as [k2 Hk2].
      destruct (proj1 (cmp_iff m _ _ _ _ _ _ _ Hk1 Hk2) Hb) as (-> & c & -> & Hcc). by eapply rm_cmp.
    - inversion 1 as [|? ? ? x it1 y it2 z H1 H2 Hz|? ? ? a b c H1 H2 H3|? ? ? v1 v2 t1 k1 k2 c H1 H2 H3 H4 H5 H6|? ? v1 v2 t1 k1 k2 c o' u H1 H2 H3 H4 H5 H6 H7| | | | | | | | | | | | | | | | | | |]; subst; try discriminate.
      + inversion Hz.
      + assert (tv = o) as -> by congruence. eexists _, _. split_and!; [|done|done]. eexists _, _, _, _. split_and!; [done..|].
        eapply (cmp_iff m); [done..|]. by eauto.
  Qed.
  Lemma const_int_iff it i v t : value_means T m (EConstant (KInt i) (TInt it)) v t <-> v = VInt i /\ t = TInt it.
  Proof. split; [inversion 1 as [k v' ty' Hk| | | | | | | |]; subst; by inversion Hk; subst|]. intros [-> ->]. do 2 constructor. Qed.
  Lemma meta_count n meta mty : meta_value T MKElementCount meta (VInt n : Value P) mty -> meta = Some (MElementCount n).
  Proof. by inversion 1. Qed.
  Lemma meta_vtable tn p meta mty : meta_value T (MKVTablePointer tn) meta (VPtr (mkPtr p None) : Value P) mty -> meta = Some (MVTablePointer p).
  Proof. by inversion 1. Qed.

  Lemma cast_sem s k o r t : iv R B s -> rvalue_ok T R B (RvCast k o r) t ->
    rets (translate_rvalue fuel R T s (RvCast k o r)) (fun x => vsem (snd x) (fst x) (rm (RvCast k o r))).
  Proof.
    assert (forall v t, rm (RvCast k o r) v t <-> cast_means T m R B env k o r v t) as Hrm.
    { intros v t'. split; [by inversion 1|by constructor]. }
    intros Hs H. cbn [translate_rvalue]. inversion H; subst; unfold translate_cast.
    - match goal with H : operand_ty _ _ _ _ _ |- _ => rename H into Hty; pose proof Hty as [ro Ho] end.
      eapply sem_rty; [done..|]. intros _. eapply sem_ty; [by eapply operand_rc|].
      eapply rets_bind; [by eapply operand_both|]. intros [e s'] (Hs' & Hg & He). cbn [fst snd] in *.
      eapply sem_ty; [done|]. match goal with H : rc_ty R r = Some _ |- _ => rename H into Hr; pose proof (ro_ty _ _ HR _ _ Hr) as Hw end.
      assert (int_ok it) as Hok by (apply pow2_nonzero; by eapply wf_int).
      destruct t0 as [it'| | | | | | | |]; try done; cbn; intros Hi v t'; rewrite Hrm.
      + rewrite (un_iff _ _ _ _ (He Hi)). split.
        * intros (w & tw & Hw' & Hu). pose proof (typed_as _ _ _ _ Hw' Hty) as ->. inversion Hu; subst. eapply ca_int; [done..|]. by apply wraps_bring_iff.
        * inversion 1 as [? ? it1 x it2 z H1 H2 H3|? ? ? ? H1| | | | |]; subst; [|by pose proof (typed_as _ _ _ _ H1 Hty)].
          assert (it1 = it) as -> by congruence. apply wraps_bring_iff in H3 as ->; [|done]. eexists _, _. split; [done|]. constructor.
      + assert (forall b, int_to_int it (Z.b2z b) = Z.b2z b) as Hb.
        { intros b. apply wraps_id; [done|]. apply fits_can; [done|]. clear -Hok. unfold int_ok in Hok. destruct it as [[|] sz]; cbn [it_size] in *; apply fits_can;
            unfold OpsSpec.fits; cbn [it_signed it_size]; try done.
          all: assert (2 <= 2 ^ (8 * Z.of_N sz - 1)) by (change 2 with (2 ^ 1) at 1; apply Z.pow_le_mono_r; lia);
            assert (2 <= 2 ^ (8 * Z.of_N sz)) by (change 2 with (2 ^ 1) at 1; apply Z.pow_le_mono_r; lia); destruct b; cbn; lia. }
        rewrite (un_iff _ _ _ _ (bool_u8_iff _ _ _ (He Hi) ltac:(intros ? ? Hv; by eapply typed_as))). split.
        * intros (w & tw & (b & Hb' & -> & ->) & Hu). inversion Hu; subst. rewrite Hb. by apply ca_bool.
        * inversion 1 as [? ? it1 x it2 z H1 H2 H3|? ? it1 b H1 H2| | | | |]; subst; [by pose proof (typed_as _ _ _ _ H1 Hty)|].
          assert (it1 = it) as -> by congruence. eexists _, _. split; [by exists b|]. change (if b then 1 else 0) with (Z.b2z b). rewrite <-(Hb b) at 2. constructor.
    - match goal with H : operand_ty _ _ _ _ _ |- _ => rename H into Hty; pose proof Hty as [ro Ho] end.
      eapply sem_rty; [done..|]. intros _. eapply sem_ty; [by eapply operand_rc|]. eapply sem_ty; [done|].
      match goal with H : rc_ty R r = Some _ |- _ => rename H into Hr end.
      destruct t0 as [| |[| |old| |]| | | | | |]; try done. destruct pt as [| |new| |]; try done.
      eapply rets_bind; [by eapply operand_both|]. intros [e s'] (Hs' & Hg & He). cbn [fst snd] in *.
      case_bool_decide as E1; [subst; cbn|case_bool_decide as E2; [subst; cbn|done]]; intros Hi v t'; rewrite Hrm.
      + rewrite (He Hi). split.
        * intros Hv. pose proof (typed_as _ _ _ _ Hv Hty) as ->. by constructor.
        * inversion 1 as [| |? ? mk ? H1|? ? mk p H1 H2 H3| | |]; subst; [done|]. pose proof (typed_as _ _ _ _ H1 Hty) as [= ->]. congruence.
      + unfold b_get_thin_pointer. rewrite (un_iff _ _ _ _ (He Hi)). split.
        * intros (w & tw & Hw' & Hu). pose proof (typed_as _ _ _ _ Hw' Hty) as ->. inversion Hu; subst. by eapply ca_thin.
        * inversion 1 as [| |? ? mk ? H1|? ? mk p H1 H2 H3| | |]; subst; [pose proof (typed_as _ _ _ _ H1 Hty) as [= ->]; congruence|].
          eexists _, _. split; [done|]. constructor.
    - match goal with H : operand_ok _ _ _ o ro _ |- _ => rename H into Ho end.
      eapply sem_rty; [done..|]. intros Huniq.
      match goal with H : rc_deref R ro = Some _ |- _ => rename H into Hd1; rewrite Hd1 end. cbn [unwrap obind].
      match goal with H : rc_deref R r = Some _ |- _ => rename H into Hd2; rewrite Hd2 end. cbn [unwrap obind].
      match goal with H : rc_ty R r = Some _ |- _ => rename H into Hr end.
      eapply sem_ty; [done|].
      eapply rets_bind; [by eapply operand_both|]. intros [e s'] (Hs' & Hg & He). cbn [fst snd] in *.
      assert (forall v t', cast_means T m R B env CkUnsize o r v t' <-> exists p q, om o (VPtr p) (TPtr pt) /\ unsize_means T m R env old new npt p q /\ v = VPtr q /\ t' = TPtr npt) as Hc.
      { intros v t'. split.
        - inversion 1 as [| | | |? ro' t1 ? old' new' npt' p q H1 H2 H3 H4 H5 H6| |]; subst. destruct (Huniq _ _ H1) as [-> ->].
          assert (old' = old) as -> by congruence. assert (new' = new) as -> by congruence. assert (npt' = npt) as -> by congruence. eauto 10.
        - intros (p & q & H1 & H2 & -> & ->). by eapply ca_unsize. }
      assert (operand_ty T R B o (TPtr pt)) as Hty by (by eexists).
      match goal with H : unsize_ok _ _ _ _ _ _ |- _ => destruct H as [old new pt npt n Hu Hpt Hnpt Hn|old new pt Hu|old new pt npt tn Hu Hd Hpt Hnpt|old new pt npt Hu] end;
        rewrite Hu; [| | |done].
      + cbn. intros Hi v t'. rewrite Hrm, Hc. unfold b_const_int, b_usize_ty, b_int_ty. rewrite (bin_iff _ _ _ _ _ _ (He Hi) (const_int_iff _ _)). split.
        * intros (v1 & t1 & v2 & t2 & H1 & (-> & ->) & Hb). pose proof (typed_as _ _ _ _ H1 Hty) as ->. inversion Hb as [| | | | | | |? p ? ? meta mty Hmv Hval]; subst.
          rewrite Hnpt in Hmv. apply meta_count in Hmv as ->. eexists _, _. split_and!; [done| |done|done]. by apply un_slice.
        * intros (p & q & H1 & H2 & -> & ->). inversion H2 as [? ? ? p' n' Hu'|? ? ? p' tn' v' Hu'|? ? ? p' Hu']; subst; try congruence.
          assert (n' = n) as -> by congruence. eexists _, _, _, _. split_and!; [done..|]. econstructor; [|done]. rewrite Hnpt. constructor.
      + cbn. intros Hi v t'. rewrite Hrm, Hc, (He Hi). split.
        * intros H1. pose proof (typed_as _ _ _ _ H1 Hty) as ->. destruct (operand_key m R B env o v (TPtr pt) eq_refl Hty H1) as [k Hk].
          assert (exists p, v = VPtr p) as [p ->] by (inversion Hk; by eexists). eexists _, _. split_and!; [done|by apply un_same|done|done].
        * intros (p & q & H1 & H2 & -> & ->). inversion H2; subst; congruence.
      + rewrite Hd. cbn [ask obind]. eapply rets_bind; [eapply rets_fine, get_vtable_fine, (iv_cx _ _ _ Hs')|]. intros [vt c] (Hc' & Hx & Hv). cbn [fst snd] in *.
        cbn. intros Hi v t'. pose proof (interp_gcx _ _ _ _ _ _ (set_cx_gcx _ _ Hx) Hi) as Hi'. rewrite Hrm, Hc. pose proof (in_vt _ _ _ (in_cx _ _ _ _ _ Hi) _ _ Hv) as Hev.
        assert (forall v t, value_means T m (EConstant (KVTablePointer vt) (TPtr (PVTablePtr tn))) v t <->
          exists p, ev_vtable env (old, tn) = Some p /\ v = VPtr (mkPtr p None) /\ t = TPtr (PVTablePtr tn)) as Hk.
        { intros w tw. rewrite Hev. split; [inversion 1 as [k v' ty' Hk| | | | | | | |]; subst; inversion Hk; subst; eauto|]. intros (p & Hp & -> & ->). by do 2 constructor. }
        unfold b_const_vtable. rewrite (bin_iff _ _ _ _ _ _ (He Hi') Hk). split.
        * intros (v1 & t1 & v2 & t2 & H1 & (q & Hq & -> & ->) & Hb). pose proof (typed_as _ _ _ _ H1 Hty) as ->. inversion Hb as [| | | | | | |? p ? ? meta mty Hmv Hval]; subst.
          rewrite Hnpt in Hmv. apply meta_vtable in Hmv as ->. eexists _, _. split_and!; [done| |done|done]. by eapply un_dyn.
        * intros (p & q & H1 & H2 & -> & ->). inversion H2 as [? ? ? p' n' Hu'|? ? ? p' tn' v' Hu' Hd'|? ? ? p' Hu']; subst; try congruence.
          assert (tn' = tn) as -> by congruence. eexists _, _, _, _. split_and!; [done|by eexists|]. econstructor; [|done]. rewrite Hnpt. constructor.
    - eapply rets_bind; [by eapply operand_ty_both|]. intros [e s'] (Hs' & Hg & He). cbn [fst snd] in *.
      match goal with H : rc_ty R r = Some _ |- _ => rename H into Hr end.
      eapply sem_ty; [done|]. cbn. intros Hi v t'. rewrite Hrm, (transmute_iff _ _ _ _ (He Hi)). split.
      + intros (w & tw & H1 & H2 & ->). by eapply ca_transmute.
      + inversion 1 as [| | | | |? ? t1 v1 t2 w1 Ha Hb Hc|]; subst. assert (t' = t) as -> by congruence. eauto.
    - destruct (get_fn_name (fx_cx s) f0) as [n c] eqn:E. pose proof (get_fn_name_ext (fx_cx s) f0) as [_ Hn]. rewrite E in Hn. cbn [fst snd] in *.
      cbn. intros Hi v t'. pose proof (in_fn _ _ _ (in_cx _ _ _ _ _ Hi) _ _ Hn) as Hev. rewrite Hrm. split.
      + inversion 1 as [k v' ty' Hk| | | | | | | |]; subst. inversion Hk; subst. constructor. congruence.
      + inversion 1; subst. do 2 constructor. congruence.
    - done.
  Qed.

  Lemma overflow_iff op ov l r it it' el er s : (op, ov) ∈ [(RoAdd, OvAdd); (RoSub, OvSub); (RoMul, OvMul)] -> operand_ty T R B l (TInt it) -> operand_ty T R B r (TInt it') ->
    vsem s el (om l) -> vsem s er (om r) -> vsem s (EBinOp (BIntWithOverflow ov) el er) (rm (RvChecked op l r)).
  Proof.
    intros Hop Hl Hr Hel Her Hi v t. rewrite (bin_iff _ _ _ _ _ _ (Hel Hi) (Her Hi)). pose proof (operand_int _ _ Hl) as Hok.
    assert (forall x y, exists e, checked_math op x y = Some e /\ int_bin_op_overflow ov x y it = (int_bring_in_bounds it e, negb (can_represent it e))) as Ho.
    { intros x y. set_unfold in Hop. destruct_or! Hop; try done; injection Hop as -> ->; by eexists. }
    assert (forall e o, o = negb (can_represent it e) <-> (o = true <-> ~ fits it e)) as Hov.
    { intros e o. rewrite <-(fits_can it e) by done. destruct (can_represent it e), o; cbn; intuition congruence. } split.
    - intros (v1 & t1 & v2 & t2 & H1 & H2 & Hb). pose proof (typed_as _ _ _ _ H1 Hl) as ->. pose proof (typed_as _ _ _ _ H2 Hr) as ->.
      inversion Hb as [|? x ? y z o ty Hz Ht| | | | | |]; subst. destruct (Ho x y) as (e & He & Heq). rewrite Heq in Hz. injection Hz as <- <-.
      eapply (rm_checked T m R B env op l r x it y it' e); [done..|by apply wraps_bring_iff|by apply Hov|done].
    - inversion 1 as [| | | | | |? ? ? x it1 y it2 e z o t' H1 H2 H3 H4 H5 H6| | | | | | | | | | | | | | | | |]; subst.
      pose proof (typed_as _ _ _ _ H1 Hl) as [= ->]. eexists _, _, _, _. split_and!; [done..|]. constructor; [|done].
      destruct (Ho x y) as (e' & He & Heq). assert (e' = e) as -> by congruence. rewrite Heq. apply wraps_bring_iff in H4 as <-; [|done]. apply Hov in H5 as <-. done.
  Qed.
  Lemma values_repeat e n vs : values_mean T m (repeat e n) vs <-> length vs = n /\ Forall (fun v => exists t, value_means T m e v t) vs.
  Proof.
    revert vs. induction n as [|n IH]; intros vs; cbn [repeat].
    - split; [inversion 1; subst; by split|]. intros [Hl _]. destruct vs; [constructor|done].
    - split.
      + inversion 1 as [|? v ty ? vs' Hv Hvs]; subst. apply IH in Hvs as [<- Hvs]. split; [done|]. constructor; eauto.
      + intros [Hl HF]. destruct vs as [|v vs]; [done|]. apply Forall_cons in HF as [[t Hv] HF]. econstructor; [done|]. apply IH. split; [by injection Hl|done].
  Qed.
  Lemma addr_iff e pt s K : psem s e K -> interp s -> forall v t, value_means T m (EAddrOf e pt) v t <->
    exists ptr b t' q, K ptr b t' /\ valid T m (TPtr pt) (VPtr ptr) /\ same_dest ptr q /\ v = VPtr q /\ t = TPtr pt.
  Proof.
    intros He Hi v t. split.
    - inversion 1; subst. eexists _, _, _, _. split_and!; [by apply (He Hi)|done..].
    - intros (ptr & b & t' & q & HK & Hv & Hd & -> & ->). econstructor; [by apply (He Hi)|done|done].
  Qed.

  Lemma rvalue_sem s rv t : iv R B s -> rvalue_ok T R B rv t ->
    rets (translate_rvalue fuel R T s rv) (fun x => vsem (snd x) (fst x) (rm rv)).
  Proof.
    intros Hs H. destruct rv as [o|op l r|op l r|op o|mu p|p|k r os|p|p|p|o n|k o r|]; try (by eapply cast_sem); inversion H; subst;
      try (match goal with H : operand_ty _ _ _ ?l _, H' : operand_ty _ _ _ ?r _ |- rets (translate_rvalue _ _ _ _ (RvBinary _ ?l ?r)) _ => idtac end;
           eapply binary_sem; [done..|]; intros s' el er ol Hol Hl Hr; cbn [translate_binop]).
    - cbn [translate_rvalue]. eapply rets_weak; [by eapply operand_ty_both|]. intros [e s'] (_ & _ & He) Hi v t'. rewrite (He Hi). split; [by constructor|by inversion 1].
    - destruct op; try discriminate; cbn; by eapply int_op_sem.
    - destruct op; try discriminate; cbn; by eapply int_op_sem.
    - destruct op; try discriminate; cbn; (eapply bool_op_sem; [|done..]; in_list).
    - destruct op; try discriminate; destruct t0; try discriminate; cbn; (eapply rel_op_sem; [|done|done|done|done|done]; in_list).
    - match goal with H : rc_ordering R = Some _ |- _ => rename H into Ho; rewrite Ho end. destruct t0; try discriminate; cbn; by eapply cmp_op_sem.
    - (* offset *)
      match goal with H : operand_ok _ _ _ l rl _ |- _ => rename H into Hl end.
      match goal with H : operand_ty _ _ _ r _ |- _ => rename H into Htr; pose proof Htr as [rr Hr] end. cbn [translate_rvalue].
      eapply sem_rty; [done..|]. intros Huniq. eapply sem_ty; [by eapply operand_rc|].
      eapply sem_rty; [done..|]. intros _. eapply sem_ty; [by eapply operand_rc|].
      assert (operand_ty T R B l (TPtr (PRaw MKNone))) as Htl by (by eexists).
      eapply sem_two; [done..|]. intros el er s' Hs' Hg Hel Her.
      match goal with H : rc_deref R rl = Some _ |- _ => rename H into Hd; rewrite Hd end. match goal with H : rc_size R _ = Some _ |- _ => rename H into Hsz; rewrite Hsz end.
      cbn. intros Hi v t'. pose proof (operand_int _ _ Htr) as Hok. unfold b_ptr_offset, b_int_binop.
      rewrite (bin_iff _ _ _ _ _ _ (Hel Hi) (bin_iff _ _ _ _ _ _ (Her Hi) (const_int_iff _ _))). split.
      + intros (v1 & t1 & v2 & t2 & Q1 & (v3 & t3 & v4 & t4 & Q3 & [-> ->] & Hb1) & Hb2).
        pose proof (typed_as _ _ _ _ Q1 Htl) as ->. pose proof (typed_as _ _ _ _ Q3 Htr) as ->.
        inversion Hb1 as [? x ? ? z Hz| | | | | | |]; subst. apply (int_math_sem _ RoMulUnchecked) in Hz; [|done..]. inversion Hz; subst.
        inversion Hb2; subst. by eapply rm_offset.
      + inversion 1 as [|? ? ? x it1 y it2 z Q1 Q2 Hz|? ? ? a b c Q1 Q2 Q3|? ? ? v1 v2 t1 k1 k2 c Q1 Q2 Q3 Q4 Q5 Q6| |? ? rl' q pt' x it1 pl size' Q1 Q2 Q3 Q4 Q5 Q6 Q7| | | | | | | | | | | | | | | | | |]; subst; try discriminate.
        * inversion Hz.
        * destruct (Huniq _ _ Q1) as [-> [= ->]]. assert (pl = p) as -> by congruence. assert (size' = size) as -> by congruence.
          pose proof (typed_as _ _ _ _ Q3 Htr) as [= ->]. eexists _, _, _, _. split_and!; [done| |by constructor].
          exists (VInt x), (TInt it), (VInt (Z.of_N size)), (TInt it). split; [done|]. split; [done|]. constructor. apply (int_math_sem _ RoMulUnchecked); [done..|]. by constructor.
    - cbn [translate_rvalue]. eapply sem_two; [done..|]. intros el er s' Hs' Hg Hel Her.
      match goal with H : _ \/ _ \/ _ |- _ => destruct H as [-> | [-> | ->]] end; cbn; (eapply overflow_iff; [|done..]; in_list).
    - match goal with H : operand_ty _ _ _ o _ |- _ => rename H into Hty; pose proof Hty as [ro Ho] end. cbn [translate_rvalue].
      eapply sem_rty; [done..|]. intros _. eapply sem_ty; [by eapply operand_rc|].
      eapply rets_bind; [by eapply operand_both|]. intros [e s'] (Hs' & Hg & He). cbn. intros Hi v t'. unfold b_neg. rewrite (un_iff _ _ _ _ (He Hi)).
      pose proof (operand_int _ _ Hty) as Hok. split.
      + intros (w & tw & Hw & Hu). pose proof (typed_as _ _ _ _ Hw Hty) as ->. inversion Hu as [? ? ? z Hz| | | | | | |]; subst. injection Hz as <-.
        eapply rm_neg; [done|]. by apply wraps_bring_iff.
      + inversion 1 as [| | | | | | |? x it1 z Q1 Q2| | | | | | | | | | | | | | | |]; subst. pose proof (typed_as _ _ _ _ Q1 Hty) as [= ->]. eexists _, _. split; [done|].
        apply wraps_bring_iff in Q2 as ->; [|done]. by apply (um_int T m IUNeg).
    - match goal with H : operand_ty _ _ _ o _ |- _ => rename H into Hty; pose proof Hty as [ro Ho] end. cbn [translate_rvalue].
      eapply sem_rty; [done..|]. intros _. eapply sem_ty; [by eapply operand_rc|].
      eapply rets_bind; [by eapply operand_both|]. intros [e s'] (Hs' & Hg & He). cbn. intros Hi v t'. unfold b_bit_not. rewrite (un_iff _ _ _ _ (He Hi)).
      pose proof (operand_int _ _ Hty) as Hok. split.
      + intros (w & tw & Hw & Hu). pose proof (typed_as _ _ _ _ Hw Hty) as ->. inversion Hu as [? ? ? z Hz| | | | | | |]; subst. injection Hz as <-.
        eapply rm_not; [done|by apply bits_lnot|]. by apply wraps_bring_iff.
      + inversion 1 as [| | | | | | | |? x it1 w z Q1 Q2 Q3|? b Q1| | | | | | | | | | | | | |]; subst; [|by pose proof (typed_as _ _ _ _ Q1 Hty)].
        pose proof (typed_as _ _ _ _ Q1 Hty) as [= ->]. eexists _, _. split; [done|]. apply bits_lnot in Q2 as ->.
        apply wraps_bring_iff in Q3 as ->; [|done]. by apply (um_int T m IUBitNot).
    - match goal with H : operand_ty _ _ _ o _ |- _ => rename H into Hty; pose proof Hty as [ro Ho] end. cbn [translate_rvalue].
      eapply sem_rty; [done..|]. intros _. eapply sem_ty; [by eapply operand_rc|].
      eapply rets_bind; [by eapply operand_both|]. intros [e s'] (Hs' & Hg & He). cbn. intros Hi v t'.
      rewrite (not_iff _ _ _ (He Hi)) by (intros ? ? Hv; by eapply typed_as). split.
      + intros (b & Hb & -> & ->). by constructor.
      + inversion 1 as [| | | | | | | |? x it1 w z Q1 Q2 Q3|? b Q1| | | | | | | | | | | | | |]; subst; [by pose proof (typed_as _ _ _ _ Q1 Hty)|]. eauto.
    - match goal with H : operand_ty _ _ _ o _ |- _ => rename H into Hty; pose proof Hty as [ro Ho] end. cbn [translate_rvalue].
      eapply sem_rty; [done..|]. intros _. eapply sem_ty; [by eapply operand_rc|].
      eapply rets_bind; [by eapply operand_both|]. intros [e s'] (Hs' & Hg & He). cbn. intros Hi v t'. unfold b_get_metadata. rewrite (un_iff _ _ _ _ (He Hi)). split.
      + intros (w & tw & Hw & Hu). inversion Hu; subst. by eapply rm_meta.
      + inversion 1; subst. eexists _, _. split; [done|]. by constructor.
    - (* a reference *)
      match goal with H : MirSpec.place_ok _ _ _ _ _ |- _ => rename H into Hp end.
      cbn [translate_rvalue]. eapply sem_place_rty; [done..|]. intros _.
      match goal with H : rc_pointee R _ = Some _ |- _ => rename H into Hpi; rewrite Hpi end. cbn [ask obind].
      eapply rets_bind; [by eapply (place_sem m f Hf R HD B env)|]. intros e He. cbn. intros Hi v t'. rewrite (addr_iff _ _ _ _ He Hi). split.
      + intros (ptr & b & t1 & q & [Hm ->] & Hv & Hd & -> & ->). by eapply rm_ref.
      + inversion 1 as [| | | | | | | | | | |? ? ptr b r1 t1 pi1 q Hm Hpi1 Hv Hd| | | | | | | | | | | |]; subst.
        destruct (place_typed _ _ HD _ _ _ _ _ _ _ _ _ Hm Hp) as [-> ->]. assert (pi1 = pi) as -> by congruence. eexists _, _, _, _. by split_and!.
    - (* a raw pointer *)
      match goal with H : MirSpec.place_ok _ _ _ _ _ |- _ => rename H into Hp end. pose proof Hp as [Hr _].
      cbn [translate_rvalue]. eapply sem_place_rty; [done..|]. intros _.
      eapply rets_bind; [by eapply (place_sem m f Hf R HD B env)|]. intros e He. apply rets_ask. intros pi Hpi. cbn. intros Hi v t'. rewrite (addr_iff _ _ _ _ He Hi).
      destruct (ro_pointee _ _ HR _ _ _ Hr Hpi) as [Hl Hw].
      destruct (wf_layout _ _ _ (ro_ty _ _ HR _ _ Hr)) as (l' & Hl' & _ & _ & Hm'). assert (l' = pi_layout pi) as -> by congruence. rewrite Hm'. split.
      + intros (ptr & b & t1 & q & [Hm ->] & Hv & Hd & -> & ->). by eapply rm_addr.
      + inversion 1 as [| | | | | | | | | | | |? ptr b r1 t1 q Hm Hv Hd| | | | | | | | | | |]; subst.
        destruct (place_typed _ _ HD _ _ _ _ _ _ _ _ _ Hm Hp) as [-> ->]. eexists _, _, _, _. by split_and!.
    - (* aggregates *)
      match goal with H : rc_ty R _ = Some _ |- _ => rename H into Hr end. match goal with H : ag_field k = Some _ |- _ => rename H into Hfd end.
      match goal with H : _ !! _ = Some _ |- _ => rename H into Hx end.
      cbn [translate_rvalue]. eapply sem_ty; [done|]. rewrite Hfd. cbn [unwrap obind].
      eapply rets_bind; [by eapply operand_ty_both|]. intros [e s'] (Hs' & Hg & He). cbn. intros Hi v t'. destruct x as [off ft]. split.
      + inversion 1 as [| |i ? ? ? ? ? off' fty v' ety bs data u Hi' Hv' Henc Hlen Hdata Hdec Hz| | | | | |]; subst.
        assert (i = f0) as -> by lia. assert (off' = off /\ fty = ft) as [-> ->] by (split; congruence).
        eapply rm_union; [done..|by apply (He Hi)|done|by split|done].
      + inversion 1 as [| | | | | | | | | | | | |? ? ? f1 fs1 ch1 s1 al1 off1 ft1 v1 t1 bs data u U1 U2 U3 U4 U5 [U6 U7] U8| | | | | | | | | |]; subst; try congruence.
        assert (f1 = f0) as -> by congruence. assert (fs1 = fs /\ ch1 = ch /\ s1 = s0 /\ al1 = al) as (-> & -> & -> & ->) by (split_and!; congruence).
        econstructor; [done|by apply (He Hi)|done..].
    - match goal with H : rc_ty R _ = Some _ |- _ => rename H into Hr end.
      cbn [translate_rvalue]. eapply sem_ty; [done|]. eapply rets_bind; [by eapply operands_sem|]. intros [es s'] Hes. cbn. intros Hi v t'. split.
      + inversion 1; subst. eapply rm_tuple; [done|]. by apply (Hes Hi).
      + inversion 1; subst; try congruence. match goal with H : rc_ty R r = Some ?x |- value_means _ _ (ETuple _ ?y) _ _ => assert (x = y) as -> by congruence end.
        constructor. by apply (Hes Hi).
    - match goal with H : rc_ty R _ = Some _ |- _ => rename H into Hr end.
      cbn [translate_rvalue]. eapply sem_ty; [done|]. eapply rets_bind; [by eapply operands_sem|]. intros [es s'] Hes. cbn. intros Hi v t'. split.
      + inversion 1; subst. eapply rm_array; [done|]. by apply (Hes Hi).
      + inversion 1; subst; try congruence. match goal with H : rc_ty R r = Some ?x |- value_means _ _ (ETuple _ ?y) _ _ => assert (x = y) as -> by congruence end.
        constructor. by apply (Hes Hi).
    - match goal with H : rc_ty R _ = Some _ |- _ => rename H into Hr end. match goal with H : ag_variant k = Some _ |- _ => rename H into Hv end.
      match goal with H : rc_discr _ _ _ = Some _ |- _ => rename H into Hdi end.
      cbn [translate_rvalue]. eapply sem_ty; [done|]. rewrite Hv. cbn [unwrap obind]. unfold discriminant_for_variant. rewrite Hdi. cbn [ask obind].
      eapply rets_bind; [by eapply operands_sem|]. intros [es s'] Hes. match goal with H : map_get _ _ = Some _ |- _ => rename H into Hk; rewrite Hk end. cbn. intros Hi w t'.
      destruct (HD _ _ _ _ Hdi) as [Hok _]. split.
      + inversion 1 as [| | |d' e' v' ety ty' Hv'| | | | |]; subst. inversion Hv'; subst. eapply rm_variant; [done..|by apply wraps_bits|by apply (Hes Hi)].
      + inversion 1 as [| | | | | | | | | | | | | | | |? ? ? vs1 v1 vts1 dty1 d1 s1 al1 bits1 it1 x1 Q1 Q2 Q3 Q4 Q5| | | | | | |]; subst; try congruence.
        assert (v1 = v) as -> by congruence. assert (bits1 = bits /\ it1 = it) as [-> ->] by (split; congruence). apply wraps_bits_iff in Q4 as ->; [|done].
        assert (TEnum vts1 dty1 d1 s1 al1 = TEnum vts dty d s0 al) as -> by congruence. econstructor. constructor. by apply (Hes Hi).
    - match goal with H : rc_ty R _ = Some _ |- _ => rename H into Hr end.
      cbn [translate_rvalue]. eapply sem_ty; [done|]. cbn match. eapply sem_two; [done..|]. intros el er s' Hs' Hg Hel Her.
      cbn. intros Hi v t'. rewrite (bin_iff _ _ _ _ _ _ (Hel Hi) (Her Hi)).
      match goal with H : operand_ty _ _ _ p _ |- _ => rename H into Htp end. split.
      + intros (v1 & t1 & v2 & t2 & Q1 & Q2 & Hb). pose proof (typed_as _ _ _ _ Q1 Htp) as ->. inversion Hb as [| | | | | | |? q ? ? meta mty Hmv Hval]; subst.
        by eapply rm_ptr.
      + inversion 1 as [| | | | | | | | | | | | | | | | |? ? op om' q pt1 w wt meta mk1 mt Q1 Q2 Q3 Q4 Q5| | | | | |]; subst; try congruence.
        assert (mk1 = mk) as -> by congruence. eexists _, _, _, _. split_and!; [done..|]. econstructor; [exact Q4|done].
    - cbn [translate_rvalue]. match goal with H : sized_place _ _ _ _ _ _ |- _ => destruct H as [Hp Hsz] end.
      eapply rets_bind; [by eapply (place_sem m f Hf R HD B env)|]. intros e He. cbn. intros Hi v t'. split.
      + inversion 1; subst. match goal with H : place_means _ _ _ _ _ _ |- _ => apply (He Hi) in H as [Hm ->] end. eapply rm_copy; [done|by split].
      + inversion 1 as [| | | | | | | | | | | | | | | | | |? ptr r' v' t0 Hm [Hh Hv]| | | | |]; subst. econstructor; [apply (He Hi)|done|done].
        destruct (place_typed _ _ HD _ _ _ _ _ _ _ _ _ Hm Hp) as [-> ->]. done.
    - match goal with H : MirSpec.place_ok _ _ _ _ _ |- _ => rename H into Hp end. pose proof Hp as [Hr _].
      cbn [translate_rvalue]. eapply sem_place_rty; [done..|]. intros Huniq. eapply sem_ty; [done|]. cbn. intros Hi v t'. unfold b_usize_ty, b_int_ty. rewrite const_int_iff. split.
      + intros [-> ->]. by eapply rm_len_array.
      + inversion 1 as [| | | | | | | | | | | | | | | | | | |? r1 e1 n1 Q1|? ptr b r1 e1 n1 Q1| | |]; subst.
        * by destruct (Huniq _ _ Q1) as [_ [= -> ->]].
        * by destruct (place_typed _ _ HD _ _ _ _ _ _ _ _ _ Q1 Hp) as [_ ?].
    - match goal with H : MirSpec.place_ok _ _ _ _ _ |- _ => rename H into Hp end. pose proof Hp as [Hr _].
      cbn [translate_rvalue]. eapply sem_place_rty; [done..|]. intros Huniq. eapply sem_ty; [done|].
      eapply rets_bind; [by eapply (place_sem m f Hf R HD B env)|]. intros e' He. cbn. intros Hi v t'. unfold b_get_metadata.
      rewrite (un_iff _ _ _ _ (addr_iff _ _ _ _ He Hi)). split.
      + intros (w & tw & (ptr & b & t1 & q & [Hm ->] & Hv & (Hd1 & Hd2 & Hd3) & -> & ->) & Hu). inversion Hu as [| | | |? ? ? ? Hmv| | |]; subst.
        cbn [ptr_meta_kind] in Hmv. rewrite Hd2 in Hmv. inversion Hmv; subst. by eapply rm_len_slice.
      + inversion 1 as [| | | | | | | | | | | | | | | | | | |? r1 e1 n1 Q1|? ptr b r1 e1 n1 Q1 Q2 Q3| | |]; subst.
        * by destruct (Huniq _ _ Q1) as [_ ?].
        * destruct (place_typed _ _ HD _ _ _ _ _ _ _ _ _ Q1 Hp) as [-> [= ->]]. eexists _, _. split; [exists ptr, b, (TSlice e), ptr; by split_and!|].
          constructor. cbn [ptr_meta_kind]. rewrite Q2. constructor.
    - match goal with H : MirSpec.place_ok _ _ _ _ _ |- _ => rename H into Hp end.
      cbn [translate_rvalue]. eapply rets_bind; [by eapply (place_sem m f Hf R HD B env)|]. intros e He. cbn. intros Hi v t'. split.
      + inversion 1; subst. match goal with H : place_means _ _ _ _ _ _ |- _ => apply (He Hi) in H as [Hm Ht] end. injection Ht as -> -> -> -> ->. by eapply rm_discr.
      + inversion 1 as [| | | | | | | | | | | | | | | | | | | | |? ptr r1 vs1 dty1 d1 s1 al1 x Q1 Q2| |]; subst.
        destruct (place_typed _ _ HD _ _ _ _ _ _ _ _ _ Q1 Hp) as [-> Ht]. injection Ht as -> -> -> -> ->. econstructor; [by apply (He Hi)|done].
    - cbn [translate_rvalue]. match goal with H : operand_ty _ _ _ o _ |- _ => rename H into Hty; pose proof Hty as [ro Ho] end.
      eapply sem_rty; [done..|]. intros Huniq. eapply sem_ty; [by eapply operand_rc|].
      eapply rets_bind; [by eapply operand_both|]. intros [e s'] (Hs' & Hg & He). cbn. intros Hi v t'. split.
      + inversion 1; subst. match goal with H : values_mean _ _ _ _ |- _ => apply values_repeat in H as [Hl HF] end.
        eapply rm_repeat; [done|done|]. eapply Forall_impl; [exact HF|]. intros w [tw Hw]. apply (He Hi) in Hw. pose proof (typed_as _ _ _ _ Hw Hty) as ->. done.
      + inversion 1 as [| | | | | | | | | | | | | | | | | | | | | |? ro1 ? vs t1 Q1 Q2 Q3|]; subst. destruct (Huniq _ _ Q1) as [-> ->].
        constructor. apply values_repeat. split; [done|]. eapply Forall_impl; [exact Q3|]. intros w Hw. exists t0. by apply (He Hi).
    - done.
  Qed.
End Rv.
