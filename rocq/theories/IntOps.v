(** Integer and relational operators. Models the parts of spec/lang/step/operators.md that do not
    look at the machine state. *)
From Verif Require Export Syntax Repr.

(** operators.md:59-69 eval_count_ones *)
Fixpoint count_ones_loop (n : nat) (ones remaining : Z) : Z :=
  match n with
  | O => ones
  | S n => count_ones_loop n (ones + Z.land remaining 1) (Z.shiftr remaining 1)
  end.
Definition eval_count_ones (operand : Z) (it : IntType) : Z :=
  count_ones_loop (Z.to_nat (size_bits (it_size it))) 0 operand.

(** operators.md:20-33 eval_int_un_op *)
Definition eval_int_un_op (op : IntUnOp) (operand : Z) (it : IntType) : Outcome Z :=
  Ret (match op with
       | IUNeg => int_bring_in_bounds it (- operand)
       | IUBitNot => int_bring_in_bounds it (Z.lnot operand)
       | IUCountOnes => eval_count_ones operand it
       end).

(** operators.md:38-41 the type of the result *)
Definition int_un_op_ty (op : IntUnOp) (it : IntType) : IntType :=
  match op with IUCountOnes => mkIntTy Unsigned 4 | _ => it end.

(** operators.md:187-272 eval_int_bin_op. Division and remainder of libspecr integers truncate
    towards zero, as in Rust; [rem_euclid] panics for a zero modulus. *)
Definition eval_int_bin_op (op : IntBinOp) (left right : Z) (lt : IntType) : Outcome Z :=
  match op with
  | IAdd => Ret (left + right)
  | IAddUnchecked =>
      let result := left + right in
      if negb (can_represent lt result) then throw_ub "overflow in unchecked add" else Ret result
  | ISub => Ret (left - right)
  | ISubUnchecked =>
      let result := left - right in
      if negb (can_represent lt result) then throw_ub "overflow in unchecked sub" else Ret result
  | IMul => Ret (left * right)
  | IMulUnchecked =>
      let result := left * right in
      if negb (can_represent lt result) then throw_ub "overflow in unchecked mul" else Ret result
  | IDiv =>
      if right =? 0 then throw_ub "division by zero" else
      let result := Z.quot left right in
      if negb (can_represent lt result) then throw_ub "overflow in division" else Ret result
  | IDivExact =>
      if right =? 0 then throw_ub "division by zero" else
      let result := Z.quot left right in
      if negb (can_represent lt result) then throw_ub "overflow in division" else
      if negb (Z.rem left right =? 0) then throw_ub "non-zero remainder in exact division" else
      Ret result
  | IRem =>
      if right =? 0 then throw_ub "modulus of remainder is zero" else
      if negb (can_represent lt (Z.quot left right)) then throw_ub "overflow in remainder" else
      Ret (Z.rem left right)
  | IShl | IShr =>
      let bits := size_bits (it_size lt) in
      if bits =? 0 then Panic else
      let offset := right mod bits in
      Ret (match op with IShl => Z.shiftl left offset | _ => Z.shiftr left offset end)
  | IShlUnchecked | IShrUnchecked =>
      let bits := size_bits (it_size lt) in
      if (right <? 0) || (bits <=? right) then throw_ub "overflow in unchecked shift" else
      Ret (match op with IShlUnchecked => Z.shiftl left right | _ => Z.shiftr left right end)
  | IBitAnd => Ret (Z.land left right)
  | IBitOr => Ret (Z.lor left right)
  | IBitXor => Ret (Z.lxor left right)
  end.

(** operators.md:273-288 the integer part of BinOp::Int *)
Definition int_bin_op (op : IntBinOp) (left right : Z) (it : IntType) : Outcome Z :=
  let! result := eval_int_bin_op op left right it in
  Ret (int_bring_in_bounds it result).

(** operators.md:300-309 the integer part of BinOp::IntWithOverflow *)
Definition int_bin_op_overflow (op : IntBinOpOv) (left right : Z) (it : IntType) : Z * bool :=
  let result := match op with
                | OvAdd => left + right
                | OvSub => left - right
                | OvMul => left * right
                end in
  (int_bring_in_bounds it result, negb (can_represent it result)).

(** operators.md:77-85 IntToInt *)
Definition int_to_int (it : IntType) (operand : Z) : Z := int_bring_in_bounds it operand.

(** operators.md:322-340 eval_rel_op *)
Definition eval_rel_op {P} (rel : RelOp) (ord : comparison) : Value P * Ty :=
  match rel with
  | RLt => (VBool (match ord with Lt => true | _ => false end), TBool)
  | RGt => (VBool (match ord with Gt => true | _ => false end), TBool)
  | RLe => (VBool (match ord with Gt => false | _ => true end), TBool)
  | RGe => (VBool (match ord with Lt => false | _ => true end), TBool)
  | REq => (VBool (match ord with Eq => true | _ => false end), TBool)
  | RNe => (VBool (match ord with Eq => false | _ => true end), TBool)
  | RCmp => (VInt (match ord with Lt => -1 | Eq => 0 | Gt => 1 end), TInt i8_ty)
  end.

(** Ord for bool: false is less than true *)
Definition bool_compare (a b : bool) : comparison :=
  match a, b with
  | false, true => Lt
  | true, false => Gt
  | _, _ => Eq
  end.
(** std::cmp::Ordering::then *)
Definition ord_then (a b : comparison) : comparison := match a with Eq => b | _ => a end.

(** operators.md:341-352 compare_ptr *)
Definition compare_ptr {P} (left right : Pointer P) : Outcome comparison :=
  let thin_cmp := Z.compare (tp_addr (p_thin left)) (tp_addr (p_thin right)) in
  let! meta_cmp :=
    match p_meta left, p_meta right with
    | None, None => Ret Eq
    | Some (MElementCount l), Some (MElementCount r) => Ret (Z.compare l r)
    | Some (MVTablePointer l), Some (MVTablePointer r) => Ret (Z.compare (tp_addr l) (tp_addr r))
    | _, _ => Panic
    end in
  Ret (ord_then thin_cmp meta_cmp).

(** operators.md:354-374 the comparison part of BinOp::Rel *)
Definition compare_values {P} (l_ty : Ty) (left right : Value P) : Outcome comparison :=
  match l_ty, left, right with
  | TInt _, VInt l, VInt r => Ret (Z.compare l r)
  | TBool, VBool l, VBool r => Ret (bool_compare l r)
  | TPtr _, VPtr l, VPtr r => compare_ptr l r
  | _, _, _ => Panic
  end.
Definition rel_op {P} (rel : RelOp) (l_ty : Ty) (left right : Value P) : Outcome (Value P * Ty) :=
  let! ord := compare_values l_ty left right in
  Ret (eval_rel_op rel ord).
