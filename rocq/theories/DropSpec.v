(** What it means that leaving out reads of memory is not observable. *)
From Verif Require Export TreeBorrows Step.

(** two allocations that agree in all but the tree: contents, address, alignment, kind and liveness *)
Definition same_but_tree (a b : Allocation (list nat) Node) : Prop :=
  al_data a = al_data b /\ al_addr a = al_addr b /\ al_align a = al_align b /\ al_kind a = al_kind b /\
  al_live a = al_live b.

(** an expression that makes no references: it only reads memory and computes. References (and boxes)
    are made by the address-of operator with a type that has a pointee the compiler relies on. *)
Fixpoint only_reads (e : ValueExpr) : bool :=
  match e with
  | EConstant _ _ => true
  | ETuple es _ => forallb only_reads es
  | EUnion _ e _ | EVariant _ e _ | EUnOp _ e => only_reads e
  | EGetDiscriminant p | ELoad p => only_reads_place p
  | EAddrOf p pt => match pt with PRaw _ => only_reads_place p | _ => false end
  | EBinOp _ e1 e2 => only_reads e1 && only_reads e2
  end
with only_reads_place (p : PlaceExpr) : bool :=
  match p with
  | PLocal _ => true
  | PDeref e _ => only_reads e
  | PField p _ | PDowncast p _ => only_reads_place p
  | PIndex p e => only_reads_place p && only_reads e
  end.

(** the same state: the same threads with the same frames, the same output, and memories with the same
    allocations with the same contents. Only the trees may differ, and the accesses that were recorded in
    the last step. *)
Definition same_but_reads (m n : Machine (nat * list nat) (list (nat * list nat)) (BMem (list nat) Node)) : Prop :=
  exists c, n = set_mem m c /\ Forall2 same_but_tree (cm_mem (m_mem m)) (cm_mem c).
(** the same for the memory without trees *)
Definition same_but_accesses (m n : Machine (nat * unit) unit (BMem unit unit)) : Prop :=
  exists c, n = set_mem m c /\ cm_mem c = cm_mem (m_mem m).
