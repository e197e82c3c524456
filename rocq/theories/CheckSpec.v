(** Specification of when the check of well-formedness has no answer: types without a layout and what the check does
    with them. *)
From Verif Require Export SafeSpec StepSpec.
Local Open Scope Z_scope.

Section Spec.
  Variable T : Target.

  (** types of values whose size is known only with metadata *)
  Inductive unsized : Ty -> Prop :=
  | us_slice e : unsized (TSlice e)
  | us_trait tn : unsized (TTraitObject tn)
  | us_tuple fields head t : unsized (TTuple fields head (Some t)).

  (** types that have no size and alignment *)
  Inductive no_layout : Ty -> Prop :=
  | nl_int it : (forall k, it_size it <> 2 ^ k)%N -> no_layout (TInt it)
  | nl_tail fields head t : no_layout t -> no_layout (TTuple fields head (Some t))
  | nl_array e n : no_layout e -> no_layout (TArray e n)
  | nl_array_unsized e n : unsized e -> no_layout (TArray e n)
  | nl_array_negative e n s : size_of T e = Ret s -> s <> 0%N -> n < 0 -> no_layout (TArray e n)
  | nl_slice e : no_layout e -> no_layout (TSlice e)
  | nl_slice_unsized e : unsized e -> no_layout (TSlice e).

  (** the immediate parts of a type *)
  Inductive component : Ty -> Ty -> Prop :=
  | co_field fields head u o t : In (o, t) fields -> component (TTuple fields head u) t
  | co_tail fields head t : component (TTuple fields head (Some t)) t
  | co_elem e n : component (TArray e n) e
  | co_slice e : component (TSlice e) e
  | co_union fields chunks s a o t : In (o, t) fields -> component (TUnion fields chunks s a) t
  | co_variant vs dty d s a k t tg : In (k, (t, tg)) vs -> component (TEnum vs dty d s a) t.
  Inductive within : Ty -> Ty -> Prop :=
  | wi_here t : within t t
  | wi_part t t1 t2 : component t t1 -> within t1 t2 -> within t t2.

  (** somewhere in the type are elements without a layout *)
  Definition bad_elements (ty : Ty) : Prop :=
    exists e, no_layout e /\ ((exists n, within ty (TArray e n)) \/ within ty (TSlice e)).

  Variable prog : Program.

  Section Exprs.
    Variable locals : list (LocalName * Ty).
    (** the type that an expression has according to the check *)
    Definition has_type (e : ValueExpr) (ty : Ty) : Prop := value_check_wf T prog locals e = Ret ty.

    (** expressions for which the check has no answer *)
    Inductive no_answer : Expr -> Prop :=
    | na_constant c ty : bad_elements ty -> no_answer (inl (EConstant c ty))
    | na_tuple es ty : bad_elements ty -> no_answer (inl (ETuple es ty))
    | na_union f e ty : bad_elements ty -> no_answer (inl (EUnion f e ty))
    | na_variant d e ty : bad_elements ty -> no_answer (inl (EVariant d e ty))
    | na_size e ty : bad_elements ty -> no_answer (inl (EUnOp (UComputeSize ty) e))
    | na_align e ty : bad_elements ty -> no_answer (inl (EUnOp (UComputeAlign ty) e))
    | na_deref e ty : bad_elements ty -> no_answer (inr (PDeref e ty))
    | na_union_field f e ty : f < 0 -> no_answer (inl (EUnion f e ty))
    | na_transmute_to e ty : no_layout ty -> no_answer (inl (EUnOp (UCast (CTransmute ty)) e))
    | na_transmute_from e ty t : has_type e t -> no_layout t -> no_answer (inl (EUnOp (UCast (CTransmute ty)) e))
    | na_overflow op e1 e2 it : has_type e1 (TInt it) -> no_layout (TInt it) -> no_answer (inl (EBinOp (BIntWithOverflow op) e1 e2))
    | na_lookup k e tn : has_type e (TPtr (PVTablePtr tn)) -> map_get (pr_traits prog) tn = None ->
        no_answer (inl (EUnOp (UVTableMethodLookup k) e)).
  End Exprs.

  (** [e] is an argument of a call or of an intrinsic *)
  Inductive argument : Terminator -> ValueExpr -> Prop :=
  | ar_call c conv args ret nb ub e : In (ByValue e) args -> argument (TmCall c conv args ret nb ub) e
  | ar_intrinsic op args ret nb e : In e args -> argument (TmIntrinsic op args ret nb) e.

  (** functions for which the check has no answer *)
  Inductive function_no_answer (func : Function) : Prop :=
  | fa_local l ty : In (l, ty) (fn_locals func) -> no_layout ty \/ bad_elements ty -> function_no_answer func
  | fa_statement b blk s e0 e : In (b, blk) (fn_blocks func) -> In s (bb_statements blk) -> stmt_expr s e0 -> occurs e0 e ->
      no_answer (fn_locals func) e -> function_no_answer func
  | fa_terminator b blk e0 e : In (b, blk) (fn_blocks func) -> term_expr (bb_terminator blk) e0 -> occurs e0 e ->
      no_answer (fn_locals func) e -> function_no_answer func
  | fa_argument b blk e ty : In (b, blk) (fn_blocks func) -> argument (bb_terminator blk) e ->
      has_type (fn_locals func) e ty -> no_layout ty -> function_no_answer func.

  Definition program_no_answer : Prop := exists n func, In (n, func) (pr_functions prog) /\ function_no_answer func.
End Spec.
