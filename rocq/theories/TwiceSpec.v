(** What it means to evaluate expressions that only read again, or in another order. *)
From Verif Require Export DropSpec.

Section Twice.
  Context {P F M : Type} `{EqDecision P}.
  Variable T : Target.
  Variable MO : MemOps P F M.

  (** the second memory is the first one after any number of loads that succeed *)
  Inductive loaded : M -> M -> Prop :=
  | loaded_refl m : loaded m m
  | loaded_load m p l a b m1 n : mo_load MO m p l a = Ret (b, m1) -> loaded m1 n -> loaded m n.

  (** the second state is the first one after the evaluation of any number of expressions that only read *)
  Inductive read_between : Machine P F M -> Machine P F M -> Prop :=
  | read_refl m : read_between m m
  | read_expr m e v m1 n : only_reads e = true -> eval_value T MO e m = Ret (v, m1) -> read_between m1 n -> read_between m n.
End Twice.

(** the same state, with the same memory and the same trees in it. Only the accesses that are recorded in
    the current step may differ. *)
Definition same_state {P F M} (m n : Machine P F M) : Prop :=
  exists c, n = set_mem m c /\ cm_mem c = cm_mem (m_mem m).
