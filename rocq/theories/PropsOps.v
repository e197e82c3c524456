(** The properties of operators, typed accesses and pointer arithmetic (C09, C11-C16, C25) and of the
    race relation (C42). Only the statements are here; the proofs are in the files imported. The
    vocabulary of the statements ([fits], [wraps_to], [wrapping_math], [trunc_div], [div_ub],
    [ones_below], [cmp_key], [lex_lt], [access_has], [offset_ok]) is defined in OpsSpec.v and
    MemSpec.v. *)
From Verif Require Import AccessProofs ExMach.

(** C09. In any memory state, what a successful typed store wrote is what a typed load at the same
    place and type returns. *)
Theorem C09_store_load T ht (m m1 : MachB) ptr v ty s align at1 at2 :
  target_ok T -> ty_check_wf T ht ty = Ret tt -> size_of T ty = Ret s -> coherent T (P := nat * unit) ty ->
  typed_store T (BasicOps T) m ptr v ty align at1 = Ret m1 ->
  exists m2, typed_load T (BasicOps T) m1 ptr ty align at2 = Ret (v, m2).
Proof.
  intros Tok Hwf Hs Hco.
  exact (typed_store_load T _ m m1 ht ptr v ty align at1 at2 (basic_like T) (basic_store_load T) Tok
           Hwf (ex_intro _ s Hs) Hco).
Qed.
Print Assumptions C09_store_load.

Theorem C09_store_load_tree T ht (m m1 : MachT) ptr v ty s align at1 at2 :
  target_ok T -> ty_check_wf T ht ty = Ret tt -> size_of T ty = Ret s -> coherent T (P := TProv) ty ->
  typed_store T (TreeOps T) m ptr v ty align at1 = Ret m1 ->
  exists m2, typed_load T (TreeOps T) m1 ptr ty align at2 = Ret (v, m2).
Proof.
  intros Tok Hwf Hs Hco.
  exact (typed_store_load T _ m m1 ht ptr v ty align at1 at2 (tree_like T) (tree_store_load T) Tok
           Hwf (ex_intro _ s Hs) Hco).
Qed.
Print Assumptions C09_store_load_tree.

(** the same for the places of assignments *)
Theorem C09_place_store_load T ht (m m1 : MachT) pl v ty s :
  target_ok T -> ty_check_wf T ht ty = Ret tt -> size_of T ty = Ret s -> coherent T (P := TProv) ty ->
  place_store T (TreeOps T) m pl v ty = Ret m1 ->
  exists m2, place_load T (TreeOps T) m1 pl ty = Ret (v, m2).
Proof.
  intros Tok Hwf Hs Hco. unfold place_store, place_load.
  destruct (negb (pl_aligned pl)); [discriminate|].
  exact (C09_store_load_tree T ht m m1 _ v ty s _ _ _ Tok Hwf Hs Hco).
Qed.
Print Assumptions C09_place_store_load.

Definition ex_pair : Ty := TTuple [(0%N, TBool); (2%N, TInt u8_t)] (mkHead 4 align_one None) None.
Example C09_hyps : exists m1,
  ty_check_wf x86_64 ht0 ex_pair = Ret tt /\ size_of x86_64 ex_pair = Ret 4%N /\
  coherent x86_64 (P := TProv) ex_pair /\
  typed_store x86_64 (TreeOps x86_64) ex_t1 (mkThin 8192 (Some (6%nat, []))) (VTuple [VBool true; VInt 7])
    ex_pair align_one NonAtomic = Ret m1.
Proof.
  eexists. split; [vm_compute; reflexivity|]. split; [vm_compute; reflexivity|].
  split; [repeat constructor; discriminate|]. vm_compute. reflexivity.
Qed.

(** C11. The wrapping binary operators return the in-range integer congruent to the mathematical
    result ... *)
Theorem C11_wrapping_binary {P F M} `{EqDecision P} T (MO : MemOps P F M) m op l r it ty :
  int_ok it -> wrapping op ->
  exists z res, eval_bin_op T MO m (BInt op) (VInt l, TInt it) (VInt r, ty) = Ret (VInt res, TInt it) /\
    wrapping_math (8 * Z.of_N (it_size it)) op l r z /\ wraps_to it z res.
Proof. exact (wrapping_ops T MO m op l r it ty). Qed.
Print Assumptions C11_wrapping_binary.

(** ... so do negation and bitwise complement ... *)
Theorem C11_neg {P F M} `{EqDecision P} T (MO : MemOps P F M) m x it :
  int_ok it -> exists res, eval_un_op T MO m (UInt IUNeg) (VInt x, TInt it) = Ret (VInt res, TInt it) /\
    wraps_to it (- x) res.
Proof. exact (neg_op T MO m x it). Qed.
Print Assumptions C11_neg.

Theorem C11_not {P F M} `{EqDecision P} T (MO : MemOps P F M) m x it :
  int_ok it -> exists z res, eval_un_op T MO m (UInt IUBitNot) (VInt x, TInt it) = Ret (VInt res, TInt it) /\
    (forall n, 0 <= n -> Z.testbit z n = negb (Z.testbit x n)) /\ wraps_to it z res.
Proof. exact (not_op T MO m x it). Qed.
Print Assumptions C11_not.

(** ... and both the mathematical result and the in-range integer are unique. *)
Theorem C11_unique it bits op l r z1 z2 r1 r2 :
  int_ok it -> wrapping_math bits op l r z1 -> wrapping_math bits op l r z2 ->
  wraps_to it z1 r1 -> wraps_to it z2 r2 -> z1 = z2 /\ r1 = r2.
Proof.
  intros Hs H1 H2 W1 W2. pose proof (wrapping_math_unique bits op l r z1 z2 H1 H2) as E.
  split; [exact E|]. rewrite E in W1. exact (wraps_unique it z2 r1 r2 Hs W1 W2).
Qed.
Print Assumptions C11_unique.

Example C11_hyps :
  int_ok u8_t /\ wrapping IShl /\
  eval_bin_op x86_64 (BasicOps x86_64) ex_m0 (BInt IShl) (VInt 131, TInt u8_t) (VInt (-7), TInt i16_t)
    = Ret (VInt 6, TInt u8_t) /\
  eval_un_op x86_64 (BasicOps x86_64) ex_m0 (UInt IUBitNot) (VInt 1, TInt u8_t) = Ret (VInt 254, TInt u8_t).
Proof. repeat split; try discriminate; vm_compute; reflexivity. Qed.

(** C12. Division and remainder are UB exactly for divisor zero and for MIN / -1. *)
Theorem C12_div {P F M} `{EqDecision P} T (MO : MemOps P F M) m l r it ty :
  int_ok it -> fits it l -> fits it r ->
  (div_ub it l r -> is_ub (eval_bin_op T MO m (BInt IDiv) (VInt l, TInt it) (VInt r, ty))) /\
  (~ div_ub it l r -> exists q rem,
     eval_bin_op T MO m (BInt IDiv) (VInt l, TInt it) (VInt r, ty) = Ret (VInt q, TInt it) /\
     trunc_div l r q rem /\ fits it q).
Proof. exact (div_spec T MO m l r it ty). Qed.
Print Assumptions C12_div.

Theorem C12_rem {P F M} `{EqDecision P} T (MO : MemOps P F M) m l r it ty :
  int_ok it -> fits it l -> fits it r ->
  (div_ub it l r -> is_ub (eval_bin_op T MO m (BInt IRem) (VInt l, TInt it) (VInt r, ty))) /\
  (~ div_ub it l r -> exists q rem,
     eval_bin_op T MO m (BInt IRem) (VInt l, TInt it) (VInt r, ty) = Ret (VInt rem, TInt it) /\
     trunc_div l r q rem /\ fits it rem).
Proof. exact (rem_spec T MO m l r it ty). Qed.
Print Assumptions C12_rem.

Theorem C12_div_exact {P F M} `{EqDecision P} T (MO : MemOps P F M) m l r it ty :
  int_ok it -> fits it l -> fits it r ->
  (div_ub it l r \/ ~ (r | l) ->
     is_ub (eval_bin_op T MO m (BInt IDivExact) (VInt l, TInt it) (VInt r, ty))) /\
  (~ div_ub it l r -> (r | l) -> exists q,
     eval_bin_op T MO m (BInt IDivExact) (VInt l, TInt it) (VInt r, ty) = Ret (VInt q, TInt it) /\
     l = q * r /\ fits it q).
Proof. exact (div_exact_spec T MO m l r it ty). Qed.
Print Assumptions C12_div_exact.

(** Unchecked addition, subtraction and multiplication are UB exactly when the result does not fit. *)
Theorem C12_unchecked {P F M} `{EqDecision P} T (MO : MemOps P F M) m op l r it ty z :
  int_ok it -> unchecked_math op l r = Some z ->
  (~ fits it z -> is_ub (eval_bin_op T MO m (BInt op) (VInt l, TInt it) (VInt r, ty))) /\
  (fits it z -> eval_bin_op T MO m (BInt op) (VInt l, TInt it) (VInt r, ty) = Ret (VInt z, TInt it)).
Proof. exact (unchecked_spec T MO m op l r it ty z). Qed.
Print Assumptions C12_unchecked.

(** Unchecked shifts are UB exactly when the amount is negative or not below the bit width. *)
Theorem C12_shl_unchecked {P F M} `{EqDecision P} T (MO : MemOps P F M) m l r it ty :
  int_ok it ->
  (~ 0 <= r < 8 * Z.of_N (it_size it) ->
     is_ub (eval_bin_op T MO m (BInt IShlUnchecked) (VInt l, TInt it) (VInt r, ty))) /\
  (0 <= r < 8 * Z.of_N (it_size it) -> exists res,
     eval_bin_op T MO m (BInt IShlUnchecked) (VInt l, TInt it) (VInt r, ty) = Ret (VInt res, TInt it) /\
     wraps_to it (l * 2 ^ r) res).
Proof. exact (shl_unchecked_spec T MO m l r it ty). Qed.
Print Assumptions C12_shl_unchecked.

Theorem C12_shr_unchecked {P F M} `{EqDecision P} T (MO : MemOps P F M) m l r it ty :
  int_ok it -> fits it l ->
  (~ 0 <= r < 8 * Z.of_N (it_size it) ->
     is_ub (eval_bin_op T MO m (BInt IShrUnchecked) (VInt l, TInt it) (VInt r, ty))) /\
  (0 <= r < 8 * Z.of_N (it_size it) -> exists q,
     eval_bin_op T MO m (BInt IShrUnchecked) (VInt l, TInt it) (VInt r, ty) = Ret (VInt q, TInt it) /\
     q * 2 ^ r <= l < (q + 1) * 2 ^ r).
Proof. exact (shr_unchecked_spec T MO m l r it ty). Qed.
Print Assumptions C12_shr_unchecked.

Example C12_hyps :
  int_ok i16_t /\ fits i16_t (-7) /\ fits i16_t 2 /\ ~ div_ub i16_t (-7) 2 /\
  eval_bin_op x86_64 (BasicOps x86_64) ex_m0 (BInt IDiv) (VInt (-7), TInt i16_t) (VInt 2, TInt i16_t)
    = Ret (VInt (-3), TInt i16_t) /\
  eval_bin_op x86_64 (BasicOps x86_64) ex_m0 (BInt IRem) (VInt (-7), TInt i16_t) (VInt 2, TInt i16_t)
    = Ret (VInt (-1), TInt i16_t) /\
  div_ub i16_t (-32768) (-1) /\ ~ fits i16_t (20000 + 20000).
Proof.
  split; [discriminate|]. split; [vm_compute; split; [discriminate|reflexivity]|].
  split; [vm_compute; split; [discriminate|reflexivity]|].
  split; [intros [H|(_ & H & _)]; discriminate|]. split; [reflexivity|]. split; [reflexivity|].
  split; [right; repeat split|]. intros [_ H]. vm_compute in H. discriminate.
Qed.

(** C13. Overflow-reporting arithmetic returns the wrapped result and whether the exact one fits. *)
Theorem C13_overflow {P F M} `{EqDecision P} T (MO : MemOps P F M) m op l r it ty a :
  int_ok it -> int_align T it = Ret a ->
  exists res b rty,
    eval_bin_op T MO m (BIntWithOverflow op) (VInt l, TInt it) (VInt r, ty)
      = Ret (VTuple [VInt res; VBool b], rty) /\
    check_value T (chk_env MO m) rty (VTuple [VInt res; VBool b]) = Ret tt /\
    wraps_to it (overflow_math op l r) res /\ (b = true <-> ~ fits it (overflow_math op l r)).
Proof. exact (overflow_spec T MO m op l r it ty a). Qed.
Print Assumptions C13_overflow.

Example C13_hyps : exists rty,
  int_ok u8_t /\ int_align x86_64 u8_t = Ret align_one /\
  eval_bin_op x86_64 (BasicOps x86_64) ex_m0 (BIntWithOverflow OvMul) (VInt 20, TInt u8_t) (VInt 20, TInt u8_t)
    = Ret (VTuple [VInt 144; VBool true], rty).
Proof. eexists. repeat split; try discriminate; vm_compute; reflexivity. Qed.

(** C14. Three-way comparison decides the lexicographic order of the keys of the values ... *)
Theorem C14_three_way {P F M} `{EqDecision P} T (MO : MemOps P F M) m ty v w k1 k2 :
  cmp_key ty v k1 -> cmp_key ty w k2 ->
  exists c, eval_bin_op T MO m (BRel RCmp) (v, ty) (w, ty) = Ret (VInt c, TInt i8_ty) /\
    (c = -1 /\ lex_lt k1 k2 \/ c = 0 /\ k1 = k2 \/ c = 1 /\ lex_lt k2 k1).
Proof.
  intros H1 H2. destruct (compare_says ty v w k1 k2 H1 H2) as ([] & E & Hc);
    cbn [eval_bin_op]; unfold rel_op; rewrite E; eexists; (split; [reflexivity|]); auto.
Qed.
Print Assumptions C14_three_way.

(** ... the boolean relations agree with it ... *)
Theorem C14_relations {P F M} `{EqDecision P} T (MO : MemOps P F M) m ty v w k1 k2 rel :
  cmp_key ty v k1 -> cmp_key ty w k2 -> rel <> RCmp ->
  exists b, eval_bin_op T MO m (BRel rel) (v, ty) (w, ty) = Ret (VBool b, TBool) /\
    (b = true <->
     match rel with
     | RLt => lex_lt k1 k2
     | RGt => lex_lt k2 k1
     | RLe => lex_lt k1 k2 \/ k1 = k2
     | RGe => lex_lt k2 k1 \/ k1 = k2
     | REq => k1 = k2
     | RNe => k1 <> k2
     | RCmp => True
     end).
Proof.
  intros H1 H2 Hr. destruct (compare_says ty v w k1 k2 H1 H2) as (c & E & Hc).
  apply cmp_says_iff in Hc as (L & Q & G). cbn [eval_bin_op]. unfold rel_op. rewrite E.
  destruct rel; try (contradiction Hr; reflexivity); destruct c; cbn; eexists; (split; [reflexivity|]);
    rewrite <- ?L, <- ?Q, <- ?G; intuition congruence.
Qed.
Print Assumptions C14_relations.

(** ... the order is total on the keys of one type, and every value of a comparable type has one ... *)
Theorem C14_total_order {P} ty (v w : Value P) k1 k2 k3 :
  cmp_key ty v k1 -> cmp_key ty w k2 ->
  ~ lex_lt k1 k1 /\ (lex_lt k1 k2 -> lex_lt k2 k3 -> lex_lt k1 k3) /\
  (lex_lt k1 k2 \/ k1 = k2 \/ lex_lt k2 k1).
Proof.
  intros H1 H2. split; [exact (lex_irrefl k1)|]. split; [exact (lex_trans k1 k2 k3)|].
  exact (lex_total k1 k2 (key_length ty v w k1 k2 H1 H2)).
Qed.
Print Assumptions C14_total_order.

Theorem C14_comparable {P} `{EqDecision P} T (env : ChkEnv P) ty v :
  match ty with TInt _ | TBool | TPtr _ => True | _ => False end ->
  check_value T env ty v = Ret tt -> exists k, cmp_key ty v k.
Proof. exact (key_exists T env ty v). Qed.
Print Assumptions C14_comparable.

(** ... and provenance does not matter: values that differ only in provenance compare alike. *)
Theorem C14_ignores_provenance {P F M} `{EqDecision P} T (MO : MemOps P F M) m ty rel v w v' w' :
  strip_val v = strip_val v' -> strip_val w = strip_val w' ->
  eval_bin_op T MO m (BRel rel) (v, ty) (w, ty) = eval_bin_op T MO m (BRel rel) (v', ty) (w', ty).
Proof.
  intros Hv Hw. cbn [eval_bin_op]. unfold rel_op.
  rewrite (compare_strip ty v w), Hv, Hw, <- (compare_strip ty v' w'). reflexivity.
Qed.
Print Assumptions C14_ignores_provenance.

(** two slices at the same address, the first shorter and with other provenance *)
Definition ex_slice (n : Z) (id : nat) : Value (nat * unit) :=
  VPtr (mkPtr (mkThin 4096 (Some (id, tt))) (Some (MElementCount n))).
Example C14_hyps :
  cmp_key (TPtr (PRef Immutable pis)) (ex_slice 2 0) [4096; 2] /\
  cmp_key (TPtr (PRef Immutable pis)) (ex_slice 3 1) [4096; 3] /\
  eval_bin_op x86_64 (BasicOps x86_64) ex_m0 (BRel RCmp) (ex_slice 2 0, TPtr (PRef Immutable pis))
    (ex_slice 3 1, TPtr (PRef Immutable pis)) = Ret (VInt (-1), TInt i8_ty) /\
  strip_val (ex_slice 2 0) = strip_val (ex_slice 2 1).
Proof. repeat split; apply (ck_count _ (mkThin 4096 _)); reflexivity. Qed.

(** C15. CountOnes counts the ones of the two's complement form, for integer types of fewer than
    2^32 bits, and for negative operands too. *)
Theorem C15_count_ones {P F M} `{EqDecision P} T (MO : MemOps P F M) m x it :
  8 * Z.of_N (it_size it) < 2 ^ 32 ->
  eval_un_op T MO m (UInt IUCountOnes) (VInt x, TInt it) =
    Ret (VInt (Z.of_nat (ones_below (Z.to_nat (8 * Z.of_N (it_size it)))
                           (x mod 2 ^ (8 * Z.of_N (it_size it))))), TInt (mkIntTy Unsigned 4)).
Proof. exact (count_ones_spec T MO m x it). Qed.
Print Assumptions C15_count_ones.

(** For wider integer types, which pass the well-formedness check, the count does not fit the result
    type and the evaluation crashes. *)
Theorem C15_count_ones_refuted :
  exists it x, ty_check_wf x86_64 ht0 (TInt it) = Ret tt /\ fits it x /\
    forall (m : MachB),
      eval_un_op x86_64 (BasicOps x86_64) m (UInt IUCountOnes) (VInt x, TInt it) = Panic.
Proof.
  assert (forall s, ty_check_wf x86_64 ht0 (TInt (mkIntTy Unsigned s)) = Ret tt ->
    2 ^ 32 <= 8 * Z.of_N s -> exists it x, ty_check_wf x86_64 ht0 (TInt it) = Ret tt /\ fits it x /\
    forall (m : MachB), eval_un_op x86_64 (BasicOps x86_64) m (UInt IUCountOnes) (VInt x, TInt it) = Panic)
    as H.
  { intros s Hwf Hs. exists (mkIntTy Unsigned s), (2 ^ (8 * Z.of_N s) - 1).
    exact (conj Hwf (conj (all_ones_fit s) (fun m => count_ones_wide x86_64 _ m s Hs))). }
  apply (H (2 ^ 29)%N); [vm_compute; reflexivity|vm_compute; discriminate].
Qed.
Print Assumptions C15_count_ones_refuted.

Example C15_hyps :
  8 * Z.of_N (it_size i16_t) < 2 ^ 32 /\
  eval_un_op x86_64 (BasicOps x86_64) ex_m0 (UInt IUCountOnes) (VInt (-2), TInt i16_t)
    = Ret (VInt 15, TInt u32_t).
Proof. split; vm_compute; reflexivity. Qed.

(** C16. IntToInt returns the integer of the target type congruent to the operand, which is the operand
    if that fits; a cast there and back through a type at least as wide is the identity. *)
Theorem C16_cast {P F M} `{EqDecision P} T (MO : MemOps P F M) m x it jt :
  int_ok jt -> exists r,
    eval_un_op T MO m (UCast (CIntToInt jt)) (VInt x, TInt it) = Ret (VInt r, TInt jt) /\
    wraps_to jt x r /\ (fits jt x -> r = x).
Proof. exact (cast_spec T MO m x it jt). Qed.
Print Assumptions C16_cast.

Theorem C16_cast_round_trip {P F M} `{EqDecision P} T (MO : MemOps P F M) m x it jt vt :
  int_ok it -> (it_size it <= it_size jt)%N -> fits it x ->
  eval_un_op T MO m (UCast (CIntToInt jt)) (VInt x, TInt it) = Ret vt ->
  eval_un_op T MO m (UCast (CIntToInt it)) vt = Ret (VInt x, TInt it).
Proof.
  intros Hs Hle Hf E. pose proof (cast_round_trip T MO m x it jt Hs Hle Hf) as H. rewrite E in H. exact H.
Qed.
Print Assumptions C16_cast_round_trip.

Example C16_hyps :
  int_ok u8_t /\ (it_size u8_t <= it_size i16_t)%N /\ fits u8_t 200 /\
  eval_un_op x86_64 (BasicOps x86_64) ex_m0 (UCast (CIntToInt u8_t)) (VInt (-2), TInt i16_t)
    = Ret (VInt 254, TInt u8_t).
Proof. repeat split; try discriminate; vm_compute; reflexivity. Qed.

(** C25. In any reachable memory, an in-bounds offset is defined exactly if all bytes it moves over
    are in one live allocation; then the offset is an isize and the new address is inside the address
    space. Otherwise it is UB: the assertions in the code do not fail. *)
Theorem C25_offset_inbounds T ops (m : MachB) p off :
  target_ok T -> mem_run (BasicOps T) (mo_new (BasicOps T)) ops = Ret (cm_mem (m_mem m)) ->
  prov_known (cm_mem (m_mem m)) p -> 0 <= tp_addr p < 2 ^ (8 * Z.of_N (PTR_SIZE T)) ->
  (offset_ok (cm_mem (m_mem m)) p off ->
     ptr_offset_inbounds T (BasicOps T) m p off = Ret (mkThin (tp_addr p + off) (tp_prov p)) /\
     - 2 ^ (8 * Z.of_N (PTR_SIZE T) - 1) <= off < 2 ^ (8 * Z.of_N (PTR_SIZE T) - 1) /\
     0 <= tp_addr p + off < 2 ^ (8 * Z.of_N (PTR_SIZE T))) /\
  (~ offset_ok (cm_mem (m_mem m)) p off -> is_ub (ptr_offset_inbounds T (BasicOps T) m p off)).
Proof.
  intros Tok Hr. exact (ptr_offset_inbounds_exact T _ (basic_like T) m p off Tok
    (run_allocs_fit T _ _ ops (basic_like T) Tok Hr)).
Qed.
Print Assumptions C25_offset_inbounds.

Theorem C25_offset_inbounds_tree T ops (m : MachT) p off :
  target_ok T -> mem_run (TreeOps T) (mo_new (TreeOps T)) ops = Ret (cm_mem (m_mem m)) ->
  prov_known (cm_mem (m_mem m)) p -> 0 <= tp_addr p < 2 ^ (8 * Z.of_N (PTR_SIZE T)) ->
  (offset_ok (cm_mem (m_mem m)) p off ->
     ptr_offset_inbounds T (TreeOps T) m p off = Ret (mkThin (tp_addr p + off) (tp_prov p)) /\
     - 2 ^ (8 * Z.of_N (PTR_SIZE T) - 1) <= off < 2 ^ (8 * Z.of_N (PTR_SIZE T) - 1) /\
     0 <= tp_addr p + off < 2 ^ (8 * Z.of_N (PTR_SIZE T))) /\
  (~ offset_ok (cm_mem (m_mem m)) p off -> is_ub (ptr_offset_inbounds T (TreeOps T) m p off)).
Proof.
  intros Tok Hr. exact (ptr_offset_inbounds_exact T _ (tree_like T) m p off Tok
    (run_allocs_fit T _ _ ops (tree_like T) Tok Hr)).
Qed.
Print Assumptions C25_offset_inbounds_tree.

Example C25_hyps : exists m : MachB,
  mem_run (BasicOps x86_64) (mo_new (BasicOps x86_64)) (ex_ops tt) = Ret (cm_mem (m_mem m)) /\
  prov_known (cm_mem (m_mem m)) (mkThin 4104 (Some (0%nat, tt))) /\
  offset_ok (cm_mem (m_mem m)) (mkThin 4104 (Some (0%nat, tt))) (-8) /\
  ~ offset_ok (cm_mem (m_mem m)) (mkThin 4104 (Some (0%nat, tt))) 1.
Proof.
  exists (set_mem m_dummyB (mkConc ex_basic [])). split; [exact ex_basic_run|].
  split; [intros id pe [= <- _]; repeat constructor|]. split.
  - right. right. split; [reflexivity|]. exists 0%nat, tt. eexists.
    split; [reflexivity|]. split; [reflexivity|]. split; [reflexivity|]. split; vm_compute; discriminate.
  - intros [H|[[_ H]|[H _]]]; try discriminate.
    destruct H as (id & pe & a & [= <- _] & [= <-] & _ & _ & H). vm_compute in H. apply H. reflexivity.
Qed.

(** C42. Two accesses of at least one byte race exactly if they touch a common address, one is a store
    and one is not atomic; the relation is symmetric. *)
Theorem C42_races_exact a b : (0 < ac_len a)%N -> (0 < ac_len b)%N ->
  races a b = true <->
  (exists x, access_has a x /\ access_has b x) /\
  (ac_ty a = AcStore \/ ac_ty b = AcStore) /\
  (ac_atomicity a = NonAtomic \/ ac_atomicity b = NonAtomic).
Proof. exact (races_exact a b). Qed.
Print Assumptions C42_races_exact.

Theorem C42_races_symmetric a b : races a b = races b a.
Proof. exact (races_sym a b). Qed.
Print Assumptions C42_races_symmetric.

(** An access of no bytes inside the range of another one counts as a race although the two have no
    address in common. *)
Theorem C42_races_exact_refuted : exists a b,
  ac_len a = 0%N /\ races a b = true /\ forall x, ~ (access_has a x /\ access_has b x).
Proof.
  exists (mkAccess AcStore NonAtomic 10 0), (mkAccess AcStore NonAtomic 8 4).
  split; [reflexivity|]. split; [reflexivity|]. intros x [[H1 H2] _]. cbn in H1, H2.
  apply (Z.lt_irrefl x), (Z.lt_le_trans _ (10 + 0) _ H2). exact H1.
Qed.
Print Assumptions C42_races_exact_refuted.

Example C42_hyps :
  (0 < ac_len (mkAccess AcStore Atomic 8 4))%N /\
  races (mkAccess AcStore Atomic 8 4) (mkAccess AcLoad NonAtomic 11 2) = true /\
  races (mkAccess AcStore Atomic 8 4) (mkAccess AcLoad NonAtomic 12 2) = false.
Proof. repeat split. Qed.
