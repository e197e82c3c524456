(** When the machine can go on: how much memory a step asks for, and when there is room for it. *)
From Verif Require Export DataSpec ExprSpec.
Local Open Scope Z_scope.

(** ** Memory asked for *)

(** what is asked for: sizes and alignments *)
Notation Request := (Size * Align)%type (only parsing).
(** room for an object of size [s] wherever it has to be aligned to [a] *)
Definition takes (r : Request) : Z := Z.of_N (fst r) + Z.of_N (align_bytes (snd r)).
(** room for all of them *)
Fixpoint takes_all (rs : list Request) : Z :=
  match rs with [] => 0 | r :: rs => takes r + takes_all rs end.

Section Spec.
  Context {PE AE F : Type} `{EqDecision (nat * PE)}.
  Variable T : Target.
  Notation P := (nat * PE)%type.
  Notation Mach := (Machine P F (BMem PE AE)).

  (** an object of type [ty] has this size and alignment *)
  Definition lay_as (ty : Ty) (r : Request) : Prop := size_of T ty = Ret (fst r) /\ align_of T ty = Ret (snd r).
  (** the variable [l] of the function has this size and alignment *)
  Definition local_fits (func : Function) (l : LocalName) (r : Request) : Prop :=
    exists ty, map_get (fn_locals func) l = Some ty /\ lay_as ty r.
  (** a frame of the function starts with the return variable and the arguments *)
  Definition frame_fits (func : Function) (rs : list Request) : Prop :=
    Forall2 (local_fits func) (fn_ret func :: fn_args func) rs.

  (** [asks m a rs]: the next step of thread [a] allocates objects of these sizes and alignments, if it gets that far *)
  Inductive asks (m : Mach) (a : nat) : list Request -> Prop :=
  | as_live l f r : at_statement m a (SStorageLive l) -> frame_of m a 0 f -> local_fits (f_func f) l r -> asks m a [r]
  | as_call callee conv args ret nb ub n func rs : at_terminator m a (TmCall callee conv args ret nb ub) ->
      map_get (pr_functions (m_prog m)) n = Some func -> frame_fits func rs -> asks m a rs
  | as_spawn args ret nb n func rs : at_terminator m a (TmIntrinsic InSpawn args ret nb) ->
      map_get (pr_functions (m_prog m)) n = Some func -> frame_fits func rs -> asks m a rs
  | as_allocate e1 e2 ret nb s al ty1 ty2 : at_terminator m a (TmIntrinsic InAllocate [e1; e2] ret nb) ->
      value_means T (turn m a) e1 (VInt (Z.of_N s)) ty1 ->
      value_means T (turn m a) e2 (VInt (Z.of_N (align_bytes al))) ty2 -> asks m a [(s, al)].

  (** [n] bytes of the address space are free: those from some address on, past all live objects *)
  Definition room (m : Mach) (n : Z) : Prop :=
    exists top, 0 < top /\ top + n <= 2 ^ (8 * Z.of_N (PTR_SIZE T)) /\
      forall id o, cm_mem (m_mem m) !! id = Some o -> al_live o = true -> al_addr o + Z.of_N (al_size o) < top.
End Spec.

(** ** Memory asked for at the start *)

Section Start.
  Variable T : Target.
  (** the machine starts by allocating the globals, an object of size 0 for each function and vtable, and the frame of
      the start function *)
  Definition starts_with (prog : Program) (rs : list Request) : Prop :=
    exists func frame, map_get (pr_functions prog) (pr_start prog) = Some func /\ frame_fits T func frame /\
      rs = List.map (fun g => (N.of_nat (length (g_bytes (snd g))), g_align (snd g))) (pr_globals prog) ++
           List.map (fun _ => (0%N, mkAlign 0)) (pr_functions prog) ++
           List.map (fun _ => (0%N, mkAlign 0)) (pr_vtables prog) ++ frame.
  (** the address space is big enough; address 0 is never used *)
  Definition start_room (prog : Program) : Prop :=
    forall rs, starts_with prog rs -> 1 + takes_all rs <= 2 ^ (8 * Z.of_N (PTR_SIZE T)).
End Start.
