(** Specification: structured programs whose parts are well-formed. *)
From Verif Require Export BuildSpec MachSpec WfProg.

Section WfBody.
  Variable T : Target.
  Variable prog : Program.
  Variable func : Function.

  (** the type that the check finds for an expression, in a function with the variables of [func] *)
  Definition typed (e : ValueExpr) (ty : Ty) : Prop := value_check_wf T prog (fn_locals func) e = Ret ty.
  Definition typed_place (p : PlaceExpr) (ty : Ty) : Prop := place_check_wf T prog (fn_locals func) p = Ret ty.
  Definition typed_arg (a : ArgumentExpr) (ty : Ty) : Prop :=
    match a with ByValue e => typed e ty | InPlace p => typed_place p ty end.
  Definition sized (ty : Ty) : Prop := exists s al, layout T ty = Ret (LSized s al).

  Definition value_ok (e : ValueExpr) : Prop := exists ty, typed e ty /\ sized ty.
  Definition place_ok (p : PlaceExpr) : Prop := exists ty, typed_place p ty /\ sized ty.
  Definition arg_ok (a : ArgumentExpr) : Prop := exists ty, typed_arg a ty /\ sized ty.
  Definition call_ok (f : ValueExpr) (args : list ArgumentExpr) (ret : PlaceExpr) : Prop :=
    typed f (TPtr PFnPtr) /\ place_ok ret /\ Forall arg_ok args.
  (** only additions and subtractions are atomic *)
  Definition op_ok (op : IntrinsicOp) : Prop := forall o, op = InAtomicFetchAndOp o -> o = IAdd \/ o = ISub.

  (** ways to leave code of kind [k]: functions return from regular blocks, and go on unwinding from cleanup blocks *)
  Definition end_ok (k : BbKind) (e : Ending) : Prop :=
    match e with
    | EnExit | EnAbort | EnUnreachable => True
    | EnReturn => k = BkRegular
    | EnResume => k = BkCleanup
    | EnCall f args ret => call_ok f args ret
    end.

  (** [body_ok k c]: in code of kind [k] the parts of [c] are well-formed, and [c] is left and unwinds as code of this kind
      may be *)
  Fixpoint body_ok (k : BbKind) (c : Cmd) : Prop :=
    match c with
    | CmSkip | CmLocal _ => True
    | CmSeq c d => body_ok k c /\ body_ok k d
    | CmStmt s => statement_check_wf T prog func s = Ret tt
    | CmIntr op args ret => place_ok ret /\ Forall value_ok args /\ op_ok op
    | CmCall f args ret => call_ok f args ret
    | CmTry f conv args ret hk h => call_ok f args ret /\ unwinds_to k (hk_kind hk) /\ body_ok (hk_kind hk) h
    | CmThrow v hk h => typed v (TPtr (PRaw MKNone)) /\ k = BkRegular /\ unwinds_to k (hk_kind hk) /\ body_ok (hk_kind hk) h
    | CmEnd e => end_ok k e
    | CmSwitch v cases fb => exists it, typed v (TInt it) /\
        (fix all (l : list (Z * Cmd)) : Prop :=
           match l with [] => True | (i, c) :: r => (can_represent it i = true /\ body_ok k c) /\ all r end) cases /\
        body_ok k fb
    | CmIf c t e => value_ok c /\ body_ok k t /\ body_ok k e
    | CmWhile c body => value_ok c /\ body_ok k body
    end.

  (** the type may be that of a variable *)
  Definition variable_ok (ty : Ty) : Prop := sized ty /\ ty_check_wf T (has_trait prog) ty = Ret tt.
End WfBody.
