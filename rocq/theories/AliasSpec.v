(** What it means for the bytes behind a protected reference that nobody else touches them. *)
From Verif Require Export MemSpec TreeSpec.

(** no store of the history goes through a pointer derived from that one *)
Definition no_store_through (id : nat) (P : list nat) (ops : list (MemOp TProv TFrame)) : Prop :=
  forall w bytes al, OpStore w bytes al ∈ ops -> ~ derived w id P.

(** the byte at an address in what was loaded from a pointer *)
Definition loaded (r : ThinPtr TProv) (bs : list (AByte TProv)) (x : Address) : option (AByte TProv) := byte_at (tp_addr r) bs x.
