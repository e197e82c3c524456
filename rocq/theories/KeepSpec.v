(** What C100 says in terms of: executions in which a call does not end. *)
From Verif Require Export HistSpec AliasSpec.
Local Open Scope Z_scope.

Section Keep.
  Context {P F M : Type} `{EqDecision P}.
  Variable T : Target.
  Variable MO : MemOps P F M.

  (** An execution in which no call with the property ends: no step in it is the return (or the end of the
      unwinding) of a frame whose data for the memory model has it. *)
  Inductive without_end (has : F -> Prop) : Machine P F M -> list (Machine P F M) -> Machine P F M -> Prop :=
  | we_nil m : without_end has m [] m
  | we_step m m1 l m' :
      steps_to T MO m m1 -> (forall fr x, about_to m (m_active m1) fr x -> leaves x -> ~ has (f_extra fr)) ->
      without_end has m1 l m' -> without_end has m (m :: l) m'.
End Keep.
