(** Integer-pointer casts. Models spec/mem/intptrcast.md. *)
From Verif Require Export Types.

Section IntPtrCast.
  Context {P : Type} `{EqDecision P}.

  (** intptrcast.md:13-16 IntPtrCast: the set of exposed provenances, as a list *)
  Definition Exposed : Type := list P.
  (** intptrcast.md:19-21 new *)
  Definition ipc_new : Exposed := [].

  (** intptrcast.md:23-28 expose *)
  Definition ipc_expose (e : Exposed) (p : ThinPtr P) : Exposed :=
    match tp_prov p with Some pr => pr :: e | None => e end.

  (** intptrcast.md:30-42 int2ptr. The prediction is the argument [prov]. *)
  Definition ipc_int2ptr (e : Exposed) (addr : Z) (prov : option P) : Outcome (ThinPtr P) :=
    let ok := match prov with
              | None => true
              | Some p => existsb (fun q => bool_decide (p = q)) e
              end in
    if ok then Ret (mkThin addr prov) else NoBehavior.
End IntPtrCast.
Arguments Exposed : clear implicits.
