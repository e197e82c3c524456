(** Specification vocabulary for the operators: integer ranges, wrapping, truncating division, bit
    counts and the order of comparable values. Nothing here is computed by the model. *)
From Verif Require Export Machine MemSpec.

(** the integers an integer type can hold *)
Definition fits (it : IntType) (i : Z) : Prop :=
  let bits := 8 * Z.of_N (it_size it) in
  match it_signed it with
  | Unsigned => 0 <= i < 2 ^ bits
  | Signed => - 2 ^ (bits - 1) <= i < 2 ^ (bits - 1)
  end.

(** integer types of positive size; [ty_check_wf] accepts no others *)
Definition int_ok (it : IntType) : Prop := it_size it <> 0%N.

(** [r] is the integer of type [it] that is congruent to [z] modulo 2^n *)
Definition wraps_to (it : IntType) (z r : Z) : Prop :=
  fits it r /\ exists k, z = r + k * 2 ^ (8 * Z.of_N (it_size it)).

(** a bitwise operation on two's complement integers, bit by bit *)
Definition bit_by_bit (f : bool -> bool -> bool) (l r z : Z) : Prop :=
  forall n, 0 <= n -> Z.testbit z n = f (Z.testbit l n) (Z.testbit r n).

(** The mathematical result of a wrapping operator on a type of [bits] bits. The shift amount is
    taken modulo the number of bits; a right shift divides, rounding down. *)
Inductive wrapping_math (bits : Z) : IntBinOp -> Z -> Z -> Z -> Prop :=
| wm_add l r : wrapping_math bits IAdd l r (l + r)
| wm_sub l r : wrapping_math bits ISub l r (l - r)
| wm_mul l r : wrapping_math bits IMul l r (l * r)
| wm_and l r z : bit_by_bit andb l r z -> wrapping_math bits IBitAnd l r z
| wm_or l r z : bit_by_bit orb l r z -> wrapping_math bits IBitOr l r z
| wm_xor l r z : bit_by_bit xorb l r z -> wrapping_math bits IBitXor l r z
| wm_shl l r a : 0 <= a < bits -> (exists k, r = a + k * bits) ->
    wrapping_math bits IShl l r (l * 2 ^ a)
| wm_shr l r a q : 0 <= a < bits -> (exists k, r = a + k * bits) ->
    q * 2 ^ a <= l < (q + 1) * 2 ^ a -> wrapping_math bits IShr l r q.

(** the operators that wrap *)
Definition wrapping (op : IntBinOp) : Prop :=
  match op with
  | IAdd | ISub | IMul | IBitAnd | IBitOr | IBitXor | IShl | IShr => True
  | _ => False
  end.
(** operators whose operands have one type; the amount of a shift may be any integer *)
Definition shifting (op : IntBinOp) : Prop :=
  match op with IShl | IShr | IShlUnchecked | IShrUnchecked => True | _ => False end.

(** [q] and [rem] are quotient and remainder of the division that rounds towards zero *)
Definition trunc_div (l r q rem : Z) : Prop :=
  l = q * r + rem /\ Z.abs rem < Z.abs r /\ (0 <= l -> 0 <= rem) /\ (l <= 0 -> rem <= 0).

(** the one pair of operands whose quotient does not fit *)
Definition div_overflow (it : IntType) (l r : Z) : Prop :=
  it_signed it = Signed /\ l = - 2 ^ (8 * Z.of_N (it_size it) - 1) /\ r = -1.

(** the operands for which division and remainder are UB *)
Definition div_ub (it : IntType) (l r : Z) : Prop := r = 0 \/ div_overflow it l r.

(** the exact result of the unchecked and of the overflow-reporting operators *)
Definition unchecked_math (op : IntBinOp) (l r : Z) : option Z :=
  match op with
  | IAddUnchecked => Some (l + r)
  | ISubUnchecked => Some (l - r)
  | IMulUnchecked => Some (l * r)
  | _ => None
  end.
Definition overflow_math (op : IntBinOpOv) (l r : Z) : Z :=
  match op with OvAdd => l + r | OvSub => l - r | OvMul => l * r end.

(** the number of ones among the lowest [n] bits of [i] *)
Definition ones_below (n : nat) (i : Z) : nat :=
  length (List.filter (fun k => Z.testbit i (Z.of_nat k)) (seq 0 n)).

(** ** Comparisons *)

(** The values that can be compared at a type, as the list of integers that decides the order.
    Provenance does not occur in it. *)
Inductive cmp_key {P} : Ty -> Value P -> list Z -> Prop :=
| ck_int it i : cmp_key (TInt it) (VInt i) [i]
| ck_bool b : cmp_key TBool (VBool b) [if b then 1 else 0]
| ck_thin pt p : ptr_meta_kind pt = MKNone ->
    cmp_key (TPtr pt) (VPtr (mkPtr p None)) [tp_addr p]
| ck_count pt p c : ptr_meta_kind pt = MKElementCount ->
    cmp_key (TPtr pt) (VPtr (mkPtr p (Some (MElementCount c)))) [tp_addr p; c]
| ck_vtable pt tn p v : ptr_meta_kind pt = MKVTablePointer tn ->
    cmp_key (TPtr pt) (VPtr (mkPtr p (Some (MVTablePointer v)))) [tp_addr p; tp_addr v].

(** the lexicographic order of two lists *)
Inductive lex_lt : list Z -> list Z -> Prop :=
| lx_head a b l k : a < b -> lex_lt (a :: l) (b :: k)
| lx_tail a l k : lex_lt l k -> lex_lt (a :: l) (a :: k).

(** a value with the provenance of its pointers removed *)
Definition strip_thin {P} (p : ThinPtr P) : ThinPtr P := mkThin (tp_addr p) None.
Definition strip_ptr {P} (p : Pointer P) : Pointer P :=
  mkPtr (strip_thin (p_thin p))
    (match p_meta p with
     | Some (MVTablePointer v) => Some (MVTablePointer (strip_thin v))
     | m => m
     end).
Definition strip_val {P} (v : Value P) : Value P :=
  match v with VPtr p => VPtr (strip_ptr p) | v => v end.

(** ** Accesses *)

(** the addresses an access touches *)
Definition access_has (a : Access) (x : Address) : Prop :=
  ac_addr a <= x < ac_addr a + Z.of_N (ac_len a).

(** ** Pointer arithmetic *)

(** All bytes an in-bounds offset moves over are inside one live allocation that the pointer has
    provenance for. *)
Definition offset_ok {PE AE} (m : BMem PE AE) (p : ThinPtr (nat * PE)) (off : Z) : Prop :=
  off = 0 \/ (0 < off /\ access_ok m p (Z.to_N off)) \/
  (off < 0 /\ access_ok m (mkThin (tp_addr p + off) (tp_prov p)) (Z.to_N (- off))).
