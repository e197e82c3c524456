(** What the printed text of expressions leaves out (for C92). *)
From Verif Require Export Pretty.

(** The cells of what is pointed to, and the traits of vtable pointers. A composite type stands for itself: its
    number refers to the table. *)
Definition forget_pointee (pi : PointeeInfo) : PointeeInfo :=
  mkPointee (pi_layout pi) (pi_inhabited pi) (CSized []) (pi_freeze pi) (pi_unpin pi).
Definition forget_ptr (pt : PtrType) : PtrType :=
  match pt with
  | PRef m pi => PRef m (forget_pointee pi)
  | PBox pi => PBox (forget_pointee pi)
  | PVTablePtr _ => PVTablePtr 0
  | _ => pt
  end.
Fixpoint forget_ty (t : Ty) : Ty :=
  match t with
  | TPtr pt => TPtr (forget_ptr pt)
  | TArray elem count => TArray (forget_ty elem) count
  | TSlice elem => TSlice (forget_ty elem)
  | _ => t
  end.

(** The types of constants, of tuples and of arrays, except which of the two it is; and the types of pointers that are
    made, except if it is a raw pointer, a shared or a mutable reference. *)
Definition no_type : Ty := TBool.
Definition no_pointee : PointeeInfo := mkPointee (LSized 0 align_one) true (CSized []) true true.
Definition forget_tuple (t : Ty) : Ty := match t with TArray _ _ => TArray no_type 0 | _ => no_type end.
Definition forget_addr (pt : PtrType) : PtrType :=
  match pt with PRaw _ => PRaw MKNone | PRef m _ => PRef m no_pointee | _ => pt end.
Definition forget_un (op : UnOp) : UnOp :=
  match op with
  | UCast (CTransmute ty) => UCast (CTransmute (forget_ty ty))
  | UComputeSize ty => UComputeSize (forget_ty ty)
  | UComputeAlign ty => UComputeAlign (forget_ty ty)
  | _ => op
  end.
Definition forget_bin (op : BinOp) : BinOp :=
  match op with BConstructWidePointer pt => BConstructWidePointer (forget_ptr pt) | _ => op end.
Fixpoint forget_value (e : ValueExpr) : ValueExpr :=
  match e with
  | EConstant c _ => EConstant c no_type
  | ETuple es t => ETuple (List.map forget_value es) (forget_tuple t)
  | EUnion f e t => EUnion f (forget_value e) (forget_ty t)
  | EVariant d e t => EVariant d (forget_value e) (forget_ty t)
  | EGetDiscriminant p => EGetDiscriminant (forget_place p)
  | ELoad p => ELoad (forget_place p)
  | EAddrOf p pt => EAddrOf (forget_place p) (forget_addr pt)
  | EUnOp op e => EUnOp (forget_un op) (forget_value e)
  | EBinOp op e1 e2 => EBinOp (forget_bin op) (forget_value e1) (forget_value e2)
  end
with forget_place (p : PlaceExpr) : PlaceExpr :=
  match p with
  | PLocal l => PLocal l
  | PDeref e t => PDeref (forget_value e) (forget_ty t)
  | PField p f => PField (forget_place p) f
  | PIndex p e => PIndex (forget_place p) (forget_value e)
  | PDowncast p d => PDowncast (forget_place p) d
  end.
Definition forget_stmt (s : Statement) : Statement :=
  match s with
  | SAssign p e => SAssign (forget_place p) (forget_value e)
  | SPlaceMention p => SPlaceMention (forget_place p)
  | SSetDiscriminant p d => SSetDiscriminant (forget_place p) d
  | SValidate p b => SValidate (forget_place p) b
  | SDeinit p => SDeinit (forget_place p)
  | SStorageLive _ | SStorageDead _ => s
  end.
Definition forget_arg (a : ArgumentExpr) : ArgumentExpr :=
  match a with ByValue e => ByValue (forget_value e) | InPlace p => InPlace (forget_place p) end.
Definition forget_term (t : Terminator) : Terminator :=
  match t with
  | TmSwitch v cases fb => TmSwitch (forget_value v) cases fb
  | TmIntrinsic op args ret nb => TmIntrinsic op (List.map forget_value args) (forget_place ret) nb
  | TmCall c conv args ret nb ub => TmCall (forget_value c) conv (List.map forget_arg args) (forget_place ret) nb ub
  | TmStartUnwind v b => TmStartUnwind (forget_value v) b
  | _ => t
  end.

(** ** The types that are printed (for C91) *)

(** the composite types in a type, and those of them that are not within another one *)
Fixpoint comps (t : Ty) : list Ty :=
  match t with
  | TTuple fields _ unsized =>
      t :: ((fix go l := match l with [] => [] | f :: r => comps (snd f) ++ go r end) fields ++
            match unsized with Some u => comps u | None => [] end)
  | TUnion fields _ _ _ => t :: (fix go l := match l with [] => [] | f :: r => comps (snd f) ++ go r end) fields
  | TEnum variants _ _ _ _ => t :: (fix go l := match l with [] => [] | v :: r => comps (fst (snd v)) ++ go r end) variants
  | TArray elem _ | TSlice elem => comps elem
  | _ => []
  end.
Fixpoint tops (t : Ty) : list Ty :=
  match t with
  | TTuple _ _ _ | TUnion _ _ _ _ | TEnum _ _ _ _ _ => [t]
  | TArray elem _ | TSlice elem => tops elem
  | _ => []
  end.
(** the types that the text of an expression has *)
Definition un_types (op : UnOp) : list Ty :=
  match op with UCast (CTransmute ty) | UComputeSize ty | UComputeAlign ty => [ty] | _ => [] end.
Fixpoint value_types (e : ValueExpr) : list Ty :=
  match e with
  | EConstant _ _ => []
  | ETuple es _ => (fix go l := match l with [] => [] | e :: r => value_types e ++ go r end) es
  | EUnion _ e t | EVariant _ e t => t :: value_types e
  | EGetDiscriminant p | ELoad p | EAddrOf p _ => place_types p
  | EUnOp op e => value_types e ++ un_types op
  | EBinOp _ e1 e2 => value_types e1 ++ value_types e2
  end
with place_types (p : PlaceExpr) : list Ty :=
  match p with
  | PLocal _ => []
  | PDeref e t => t :: value_types e
  | PField p _ | PDowncast p _ => place_types p
  | PIndex p e => place_types p ++ value_types e
  end.
Definition stmt_types (s : Statement) : list Ty :=
  match s with
  | SAssign p e => place_types p ++ value_types e
  | SPlaceMention p | SSetDiscriminant p _ | SValidate p _ | SDeinit p => place_types p
  | _ => []
  end.
Definition arg_types (a : ArgumentExpr) : list Ty := match a with ByValue e => value_types e | InPlace p => place_types p end.
Definition term_types (t : Terminator) : list Ty :=
  match t with
  | TmSwitch e _ _ | TmStartUnwind e _ => value_types e
  | TmIntrinsic _ es p _ => flat_map value_types es ++ place_types p
  | TmCall c _ l p _ _ => value_types c ++ flat_map arg_types l ++ place_types p
  | _ => []
  end.
Definition block_types (b : BasicBlock) : list Ty := flat_map stmt_types (bb_statements b) ++ term_types (bb_terminator b).
Definition function_types (f : Function) : list Ty :=
  List.map snd (fn_locals f) ++ flat_map (fun b : BbName * BasicBlock => block_types (snd b)) (fn_blocks f).
Definition program_types (prog : Program) : list Ty := flat_map (fun f : FnName * Function => function_types (snd f)) (pr_functions prog).

(** ** What can be printed (for C90) *)

Fixpoint printable_value (e : ValueExpr) : Prop :=
  match e with
  | EConstant _ _ => True
  | ETuple es t => (match t with TTuple _ _ _ | TArray _ _ => True | _ => False end) /\
      (fix all l := match l with [] => True | e :: r => printable_value e /\ all r end) es
  | EUnion _ e _ | EVariant _ e _ | EUnOp _ e => printable_value e
  | EGetDiscriminant p | ELoad p => printable_place p
  | EAddrOf p pt => (match pt with PRaw _ | PRef _ _ => True | _ => False end) /\ printable_place p
  | EBinOp _ e1 e2 => printable_value e1 /\ printable_value e2
  end
with printable_place (p : PlaceExpr) : Prop :=
  match p with
  | PLocal _ => True
  | PDeref e _ => printable_value e
  | PField p _ | PDowncast p _ => printable_place p
  | PIndex p e => printable_place p /\ printable_value e
  end.
Definition printable_stmt (s : Statement) : Prop :=
  match s with
  | SAssign p e => printable_place p /\ printable_value e
  | SPlaceMention p | SSetDiscriminant p _ | SValidate p _ | SDeinit p => printable_place p
  | _ => True
  end.
Definition printable_arg (a : ArgumentExpr) : Prop := match a with ByValue e => printable_value e | InPlace p => printable_place p end.
Definition printable_term (t : Terminator) : Prop :=
  match t with
  | TmSwitch e _ _ | TmStartUnwind e _ => printable_value e
  | TmIntrinsic _ es p _ => Forall printable_value es /\ printable_place p
  | TmCall c _ l p _ _ => printable_value c /\ Forall printable_arg l /\ printable_place p
  | _ => True
  end.
Definition printable_block (b : BasicBlock) : Prop := Forall printable_stmt (bb_statements b) /\ printable_term (bb_terminator b).
Definition printable_program (prog : Program) : Prop :=
  Forall (fun f : FnName * Function => Forall (fun b : BbName * BasicBlock => printable_block (snd b)) (fn_blocks (snd f))) (pr_functions prog).
