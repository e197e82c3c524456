(** Specification vocabulary for progress (C47) and type soundness of evaluation (C48): which expressions
    are evaluated during an evaluation, and what the well-formedness check leaves open. *)
From Verif Require Export Step ReprSpec ValueSpec.

(** a value or a place expression *)
Definition Expr : Type := ValueExpr + PlaceExpr.

(** [child e e1]: [e1] is an immediate subexpression of [e] *)
Inductive child : Expr -> Expr -> Prop :=
| ch_tuple es ty e : In e es -> child (inl (ETuple es ty)) (inl e)
| ch_union f e ty : child (inl (EUnion f e ty)) (inl e)
| ch_variant d e ty : child (inl (EVariant d e ty)) (inl e)
| ch_discr p : child (inl (EGetDiscriminant p)) (inr p)
| ch_load p : child (inl (ELoad p)) (inr p)
| ch_addr p pt : child (inl (EAddrOf p pt)) (inr p)
| ch_unop op e : child (inl (EUnOp op e)) (inl e)
| ch_binl op l r : child (inl (EBinOp op l r)) (inl l)
| ch_binr op l r : child (inl (EBinOp op l r)) (inl r)
| ch_deref e ty : child (inr (PDeref e ty)) (inl e)
| ch_field p f : child (inr (PField p f)) (inr p)
| ch_indexp p e : child (inr (PIndex p e)) (inr p)
| ch_indexe p e : child (inr (PIndex p e)) (inl e)
| ch_downcast p d : child (inr (PDowncast p d)) (inr p).

(** [occurs e e1]: [e1] is [e] or occurs in it *)
Inductive occurs : Expr -> Expr -> Prop :=
| oc_here e : occurs e e
| oc_below e e1 e2 : child e e1 -> occurs e1 e2 -> occurs e e2.

Section Runs.
  Context {P F M : Type} `{EqDecision P}.
  Variable T : Target.
  Variable MO : MemOps P F M.
  Notation Mach := (Machine P F M).

  (** [runs m e m1 e1]: the evaluation of [e] in state [m] evaluates its immediate subexpression [e1] in state [m1] *)
  Inductive runs (m : Mach) : Expr -> Mach -> Expr -> Prop :=
  | rn_tuple es1 e es2 ty vs m1 : map_st (fun m e => eval_value T MO e m) es1 m = Ret (vs, m1) ->
      runs m (inl (ETuple (es1 ++ e :: es2) ty)) m1 (inl e)
  | rn_union f e ty : runs m (inl (EUnion f e ty)) m (inl e)
  | rn_variant d e ty : runs m (inl (EVariant d e ty)) m (inl e)
  | rn_discr p : runs m (inl (EGetDiscriminant p)) m (inr p)
  | rn_load p : runs m (inl (ELoad p)) m (inr p)
  | rn_addr p pt : runs m (inl (EAddrOf p pt)) m (inr p)
  | rn_unop op e : runs m (inl (EUnOp op e)) m (inl e)
  | rn_binl op l r : runs m (inl (EBinOp op l r)) m (inl l)
  | rn_binr op l r v ty m1 : eval_value T MO l m = Ret (v, ty, m1) -> runs m (inl (EBinOp op l r)) m1 (inl r)
  | rn_deref e ty : runs m (inr (PDeref e ty)) m (inl e)
  | rn_field p f : runs m (inr (PField p f)) m (inr p)
  | rn_indexp p e : runs m (inr (PIndex p e)) m (inr p)
  | rn_indexe p e pl ty m1 : eval_place T MO p m = Ret (pl, ty, m1) -> runs m (inr (PIndex p e)) m1 (inl e)
  | rn_downcast p d : runs m (inr (PDowncast p d)) m (inr p).

  (** [evaluates m e m1 e1]: the evaluation of [e] in state [m] evaluates [e1] in state [m1] *)
  Inductive evaluates : Mach -> Expr -> Mach -> Expr -> Prop :=
  | ev_here m e : evaluates m e m e
  | ev_below m e m1 e1 m2 e2 : runs m e m1 e1 -> evaluates m1 e1 m2 e2 -> evaluates m e m2 e2.

  (** [too_big m e]: [e] asks for the size or alignment of a type, and the answer is not a usize *)
  Inductive too_big (m : Mach) : Expr -> Prop :=
  | tb_size ty e v t m1 meta l s : eval_value T MO e m = Ret (v, t, m1) ->
      meta_decode_value (ty_meta_kind ty) v = Ret meta -> layout T ty = Ret l ->
      compute_size (chk_env MO m1) l meta = Ret s -> 2 ^ (8 * Z.of_N (PTR_SIZE T)) <= Z.of_N s ->
      too_big m (inl (EUnOp (UComputeSize ty) e))
  | tb_align ty e v t m1 meta l a : eval_value T MO e m = Ret (v, t, m1) ->
      meta_decode_value (ty_meta_kind ty) v = Ret meta -> layout T ty = Ret l ->
      compute_align (chk_env MO m1) l meta = Ret a -> 2 ^ (8 * Z.of_N (PTR_SIZE T)) <= Z.of_N (align_bytes a) ->
      too_big m (inl (EUnOp (UComputeAlign ty) e)).

  (** [crash] says which retags crash *)
  Variable crash : M -> Pointer P -> PtrType -> (ThinPtr P -> Outcome VTable) -> Prop.
  Definition bad_addr (m : Mach) (e : Expr) : Prop :=
    exists p pt pl t m1, e = inl (EAddrOf p pt) /\ eval_place T MO p m = Ret (pl, t, m1) /\
      crash (cm_mem (m_mem m1)) (pl_ptr pl) pt (vtable_lookup m1).
  Definition expr_cause (m : Mach) (e : Expr) : Prop :=
    exists m1 e1, evaluates m e m1 e1 /\ (too_big m1 e1 \/ bad_addr m1 e1).
End Runs.

(** ** What the well-formedness check of expressions leaves open *)

Definition any_trait (tn : TraitName) : bool := true.

Section Gaps.
  Variable T : Target.
  Variable prog : Program.
  Variable locals : list (LocalName * Ty).

  (** a pointer type that only restricts the address and has no metadata *)
  Definition plain_ptr (pt : PtrType) : Prop := pt = PRaw MKNone \/ pt = PFnPtr.

  (** [no_gap e]: what the check should have asked of the expression [e] itself (well-formed.md:291-553 does not).
      Constant addresses have a type that accepts any address; the target types of casts are well-formed, and so is
      the type of discriminants that are read; the number of bits fits the result of CountOnes; pointer arithmetic is
      on pointers that may point anywhere. *)
  Definition no_gap (e : Expr) : Prop :=
    match e with
    | inl (EConstant (KGlobalPointer _) ty) | inl (EConstant (KPointerWithoutProvenance _) ty) =>
        exists pt, ty = TPtr pt /\ plain_ptr pt
    | inl (EUnOp (UCast (CIntToInt it)) _) => ty_check_wf T (has_trait prog) (TInt it) = Ret tt
    | inl (EUnOp (UCast (CTransmute ty)) _) => ty_check_wf T (has_trait prog) ty = Ret tt
    | inl (EUnOp (UInt IUCountOnes) e) =>
        forall it, value_check_wf T prog locals e = Ret (TInt it) -> 8 * Z.of_N (it_size it) < 2 ^ 32
    | inl (EBinOp (BConstructWidePointer pt) _ _) => ptrtype_check_wf T (has_trait prog) pt = Ret tt
    | inl (EBinOp (BPtrOffset _) l _) =>
        forall pt, value_check_wf T prog locals l = Ret (TPtr pt) -> plain_ptr pt
    | inl (EGetDiscriminant p) =>
        forall vs dty discr s a, place_check_wf T prog locals p = Ret (TEnum vs dty discr s a) ->
          ty_check_wf T (has_trait prog) (TInt dty) = Ret tt
    | _ => True
    end.
  Definition gap_free (e : Expr) : Prop := forall e1, occurs e e1 -> no_gap e1.
End Gaps.

(** the functions that vtables name exist (well-formed.md:896-914 does not ask for it) *)
Definition methods_exist (prog : Program) : Prop :=
  forall n vt meth fn, map_get (pr_vtables prog) n = Some vt -> map_get (vt_methods vt) meth = Some fn ->
    exists f, map_get (pr_functions prog) fn = Some f.

(** the types that operators produce are well-formed types of the target *)
Record target_std (T : Target) : Prop := {
  ts_usize : ty_check_wf T any_trait (TInt (usize_ty T)) = Ret tt;
  ts_isize : ty_check_wf T any_trait (TInt (mkIntTy Signed (PTR_SIZE T))) = Ret tt;
  ts_u32 : ty_check_wf T any_trait (TInt (mkIntTy Unsigned 4)) = Ret tt;
  ts_i8 : ty_check_wf T any_trait (TInt i8_ty) = Ret tt;
  ts_bool : ty_check_wf T any_trait TBool = Ret tt;
  ts_unit : ty_check_wf T any_trait (meta_kind_ty T MKNone) = Ret tt;
  ts_thin : ty_check_wf T any_trait (TPtr PFnPtr) = Ret tt;
  ts_wide : ty_check_wf T any_trait (TPtr (PRaw MKElementCount)) = Ret tt;
  ts_pair : forall it, ty_check_wf T any_trait (TInt it) = Ret tt ->
    exists t, with_overflow T it = Ret t /\ ty_check_wf T any_trait t = Ret tt;
}.
