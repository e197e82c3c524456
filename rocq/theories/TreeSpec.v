(** Specification vocabulary for Tree Borrows: looking into trees by path. *)
From Verif Require Export TreeLike.

(** the node a path leads to *)
Fixpoint node_at (n : Node) (path : list nat) : option Node :=
  match path with
  | [] => Some n
  | i :: r => match n_children n !! i with Some c => node_at c r | None => None end
  end.

(** permissions and protector of the node at a path *)
Definition ninfo (n : Node) (path : list nat) : option (list Perm * Protected) :=
  match node_at n path with Some nd => Some (n_perms nd, n_prot nd) | None => None end.

(** from the node at [path], is the accessed node [q] local (the node itself or a descendant)? *)
Definition rel_at (q : option (list nat)) (path : list nat) : NodeRelation :=
  match q with
  | Some q => if decide (path `prefix_of` q) then Local else Foreign
  | None => Foreign
  end.

(** offset [o] is one of the [size] offsets from [off] *)
Definition off_in (off : Offset) (size : Size) (o : nat) : Prop :=
  (N.to_nat off <= o < N.to_nat off + N.to_nat size)%nat.
#[global] Instance off_in_dec off size o : Decision (off_in off size o).
Proof. unfold off_in. apply _. Defined.

(** every node of the tree tracks exactly [len] bytes *)
Definition tree_len (n : Node) (len : nat) : Prop :=
  forall path ps pr, ninfo n path = Some (ps, pr) -> length ps = len.

(** ** In memory *)

(** permission of the node [path] of allocation [id] at offset [o] *)
Definition mem_perm (m : TMem) (id : nat) (path : list nat) (o : nat) : option Perm :=
  match m !! id with
  | Some a => match ninfo (al_extra a) path with Some (ps, _) => ps !! o | None => None end
  | None => None
  end.
(** protector of that node *)
Definition mem_prot (m : TMem) (id : nat) (path : list nat) : option Protected :=
  match m !! id with
  | Some a => match ninfo (al_extra a) path with Some (_, pr) => Some pr | None => None end
  | None => None
  end.

(** the protectors a history releases *)
Definition releases {P F} (op : MemOp P (list F)) : list F :=
  match op with OpEndCall f => f | _ => [] end.
Definition released {P F} (ops : list (MemOp P (list F))) : list F := concat (List.map releases ops).

(** permission of the node [path] of allocation [id] at address [x] *)
Definition addr_perm (m : TMem) (id : nat) (path : list nat) (x : Address) : option Perm :=
  match m !! id with
  | Some a => if al_addr a <=? x then mem_perm m id path (Z.to_nat (x - al_addr a)) else None
  | None => None
  end.

(** an access of [len] bytes through [ptr] touches address [x] *)
Definition covers {P} (ptr : ThinPtr P) (len : Size) (x : Address) : Prop :=
  tp_addr ptr <= x < tp_addr ptr + Z.of_N len.

(** a pointer derived from the one with provenance [(id, path)]: same allocation, the same node or a
    descendant *)
Definition derived {PE} (ptr : ThinPtr (nat * list PE)) (id : nat) (path : list PE) : Prop :=
  exists q, tp_prov ptr = Some (id, q) /\ path `prefix_of` q.
(** a pointer into the same allocation that is not derived from it *)
Definition not_derived {PE} (ptr : ThinPtr (nat * list PE)) (id : nat) (path : list PE) : Prop :=
  exists q, tp_prov ptr = Some (id, q) /\ ~ path `prefix_of` q.

(** pointer types whose retag gives a mutable (reserved) permission *)
Definition mut_like (pt : PtrType) : Prop :=
  match pt with
  | PRef Mutable pi => pi_unpin pi = true
  | PBox _ => True
  | _ => False
  end.
