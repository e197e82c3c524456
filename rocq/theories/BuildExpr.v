(** What the expressions made by the builder for booleans evaluate to. *)
From Coq Require Import ZifyBool ZifyN ZifyNat.
From Verif Require Export Build Step OpsProofs WfProg SafeSpec.

Section Bools.
  Context {P F M : Type} `{EqDecision P}.
  Variable T : Target.
  Variable MO : MemOps P F M.
  Notation Mach := (Machine P F M).

  Definition bit (a : bool) : Z := if a then 1 else 0.

  Lemma eval_un (m m1 : Mach) op e v ty w wty : eval_value T MO e m = Ret (v, ty, m1) -> eval_un_op T MO m1 op (v, ty) = Ret (w, wty) ->
    eval_value T MO (EUnOp op e) m = Ret (w, wty, m1).
  Proof. intros H1 H2. cbn [eval_value]. rewrite H1. cbn [obind]. rewrite H2. done. Qed.
  Lemma eval_bin (m m1 m2 : Mach) op e1 e2 v1 ty1 v2 ty2 w wty : eval_value T MO e1 m = Ret (v1, ty1, m1) ->
    eval_value T MO e2 m1 = Ret (v2, ty2, m2) -> eval_bin_op T MO m2 op (v1, ty1) (v2, ty2) = Ret (w, wty) ->
    eval_value T MO (EBinOp op e1 e2) m = Ret (w, wty, m2).
  Proof. intros H1 H2 H3. cbn [eval_value]. rewrite H1. cbn [obind]. rewrite H2. cbn [obind]. rewrite H3. done. Qed.

  Lemma to_u8 (m : Mach) a : eval_un_op T MO m (UCast (CTransmute u8_ty)) (VBool a, TBool) = Ret (VInt (bit a), u8_ty).
  Proof.
    cbn. unfold transmute. cbn. unfold decode_int, decode_int_opt. cbn.
    generalize (ENDIANNESS T). intros []; destruct a; reflexivity.
  Qed.
  Lemma to_bool (m : Mach) a : eval_un_op T MO m (UCast (CTransmute TBool)) (VInt (bit a), u8_ty) = Ret (VBool a, TBool).
  Proof.
    cbn. unfold transmute. cbn. unfold encode_int. cbn.
    generalize (ENDIANNESS T). intros []; destruct a; reflexivity.
  Qed.

  Variables (m m1 m2 : Mach) (e1 e2 : ValueExpr) (a b : bool).
  Hypothesis H1 : eval_value T MO e1 m = Ret (VBool a, TBool, m1).
  Hypothesis H2 : eval_value T MO e2 m1 = Ret (VBool b, TBool, m2).

  Lemma bool_u8 : eval_value T MO (b_bool_to_u8 e1) m = Ret (VInt (bit a), u8_ty, m1).
  Proof. exact (eval_un _ _ _ _ _ _ _ _ H1 (to_u8 _ _)). Qed.
  Lemma bool_u8' : eval_value T MO (b_bool_to_u8 e2) m1 = Ret (VInt (bit b), u8_ty, m2).
  Proof. exact (eval_un _ _ _ _ _ _ _ _ H2 (to_u8 _ _)). Qed.

  Lemma not_ret : eval_value T MO (b_not e1) m = Ret (VBool (negb a), TBool, m1).
  Proof.
    eapply eval_un; [|apply to_bool]. eapply eval_bin; [reflexivity|exact bool_u8|]. by destruct a.
  Qed.
  Lemma and_ret : eval_value T MO (b_bool_and e1 e2) m = Ret (VBool (a && b), TBool, m2).
  Proof.
    eapply eval_un; [|apply to_bool]. eapply eval_bin; [exact bool_u8|exact bool_u8'|]. by destruct a, b.
  Qed.
  Lemma or_ret : eval_value T MO (b_bool_or e1 e2) m = Ret (VBool (a || b), TBool, m2).
  Proof.
    eapply eval_un; [|apply to_bool]. eapply eval_bin; [exact bool_u8|exact bool_u8'|]. by destruct a, b.
  Qed.
  Lemma xor_ret : eval_value T MO (b_bool_xor e1 e2) m = Ret (VBool (xorb a b), TBool, m2).
  Proof.
    eapply eval_un; [|apply to_bool]. eapply eval_bin; [exact bool_u8|exact bool_u8'|]. by destruct a, b.
  Qed.

  Lemma bit_fits it : int_ok it -> fits it (bit a).
  Proof.
    intros Hit. unfold fits, int_ok in *. destruct it as [sg s]. simpl in *.
    assert (2 ^ 7 <= 2 ^ (8 * Z.of_N s - 1)) by (apply Z.pow_le_mono_r; lia).
    assert (2 ^ 8 <= 2 ^ (8 * Z.of_N s)) by (apply Z.pow_le_mono_r; lia).
    destruct sg; destruct a; simpl; lia.
  Qed.
  Lemma to_int_ret it : int_ok it ->
    exists e, b_bool_to_int (TInt it) e1 = Ret e /\ eval_value T MO e m = Ret (VInt (bit a), TInt it, m1).
  Proof.
    intros Hit. unfold b_bool_to_int. case_bool_decide as E.
    - eexists. split; [done|]. rewrite E. exact bool_u8.
    - eexists. split; [done|]. eapply eval_un; [exact bool_u8|]. cbn. unfold int_to_int. by rewrite wraps_id by auto using bit_fits.
  Qed.
End Bools.

Section Strict.
  Context {P F M : Type} `{EqDecision P}.
  Variable T : Target.
  Variable MO : MemOps P F M.
  Notation Mach := (Machine P F M).

  (** an operand that does not have a value *)
  Lemma not_stop (m : Mach) e t : eval_value T MO e m = Stop t -> eval_value T MO (b_not e) m = Stop t.
  Proof. intros H1. unfold b_not, b_transmute, b_int_binop, b_bool_to_u8, b_transmute. cbn [eval_value]. cbn. rewrite H1. done. Qed.
  Lemma first_stop (m : Mach) e1 e2 op t : eval_value T MO e1 m = Stop t ->
    eval_value T MO (b_transmute (b_int_binop op (b_bool_to_u8 e1) (b_bool_to_u8 e2)) TBool) m = Stop t.
  Proof. intros H1. unfold b_transmute, b_int_binop, b_bool_to_u8, b_transmute. cbn [eval_value]. rewrite H1. done. Qed.
  Lemma second_stop (m m1 : Mach) e1 e2 a op t : eval_value T MO e1 m = Ret (VBool a, TBool, m1) -> eval_value T MO e2 m1 = Stop t ->
    eval_value T MO (b_transmute (b_int_binop op (b_bool_to_u8 e1) (b_bool_to_u8 e2)) TBool) m = Stop t.
  Proof.
    intros H1 H2. unfold b_transmute, b_int_binop. cbn [eval_value]. rewrite (bool_u8 T MO m m1 e1 a H1). cbn [obind].
    unfold b_bool_to_u8, b_transmute. cbn [eval_value]. rewrite H2. done.
  Qed.
End Strict.

Section Typed.
  Variable T : Target.
  Variable prog : Program.
  Variable locals : list (LocalName * Ty).
  Notation typed e ty := (value_check_wf T prog locals e = Ret ty).

  Lemma u8_typed e : typed e TBool -> typed (b_bool_to_u8 e) u8_ty.
  Proof. intros H1. unfold b_bool_to_u8, b_transmute. cbn [value_check_wf]. rewrite H1. reflexivity. Qed.
  Lemma not_typed e : target_std T -> typed e TBool -> typed (b_not e) TBool.
  Proof.
    intros Ts H1. unfold b_not, b_transmute, b_int_binop. cbn [value_check_wf]. rewrite (u8_typed _ H1). unfold b_const_int.
    cbn [value_check_wf].
    assert (Hu : ty_check_wf T (has_trait prog) u8_ty = Ret tt) by exact (ts_i8 T Ts). rewrite Hu. reflexivity.
  Qed.
  Lemma op_typed op e1 e2 : typed e1 TBool -> typed e2 TBool ->
    typed (b_transmute (b_int_binop op (b_bool_to_u8 e1) (b_bool_to_u8 e2)) TBool) TBool.
  Proof.
    intros H1 H2. unfold b_transmute, b_int_binop. cbn [value_check_wf]. rewrite (u8_typed _ H1), (u8_typed _ H2). by destruct op.
  Qed.
End Typed.
