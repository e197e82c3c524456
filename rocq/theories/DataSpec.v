(** Specifications for what the steps of a program do to the contents of memory and to control. *)
From Verif Require Export OwnSpec.

Section Cells.
  Context {PE AE F : Type}.
  Notation P := (nat * PE)%type.
  Notation Mach := (Machine P F (BMem PE AE)).

  (** ** Bytes *)

  (** byte [i] of allocation number [id], if there is one *)
  Definition cell (m : Mach) (id i : nat) : option (AByte P) :=
    match cm_mem (m_mem m) !! id with Some a => al_data a !! i | None => None end.
  (** [p] points to byte [i] of the live allocation number [id] *)
  Definition points_to (m : Mach) (p : ThinPtr P) (id i : nat) : Prop :=
    exists pe a, tp_prov p = Some (id, pe) /\ cm_mem (m_mem m) !! id = Some a /\ al_live a = true /\
      tp_addr p = al_addr a + Z.of_nat i.
  (** byte [j] of allocation [id] is one of the [n] bytes from [p] on *)
  Definition cell_in (m : Mach) (p : ThinPtr P) (n : nat) (id j : nat) : Prop :=
    exists i, points_to m p id i /\ (i <= j < i + n)%nat.
  (** the memory from [p] on holds the bytes [bs]; nothing is said about no bytes *)
  Definition stores_at (m : Mach) (p : ThinPtr P) (bs : list (AByte P)) : Prop :=
    bs = [] \/ exists id i, points_to m p id i /\ forall k, (k < length bs)%nat -> cell m id (i + k) = bs !! k.

  (** ** Changes *)

  (** every byte that existed is as before, except possibly those for which [W] holds *)
  Definition keeps (m m' : Mach) (W : nat -> nat -> Prop) : Prop :=
    forall id j, cell m id j <> None -> ~ W id j -> cell m' id j = cell m id j.
  Definition keeps_all (m m' : Mach) : Prop := keeps m m' (fun _ _ => False).
  (** the bytes [bs] are written at [p], and nothing else is *)
  Definition writes (m m' : Mach) (p : ThinPtr P) (bs : list (AByte P)) : Prop :=
    stores_at m' p bs /\ keeps m m' (cell_in m p (length bs)).
  (** [n] bytes from [p] on lose their contents, nothing else changes *)
  Definition erases (m m' : Mach) (p : ThinPtr P) (n : Size) : Prop := writes m m' p (repeat Uninit (N.to_nat n)).

  (** ** Pointers and values *)

  (** the pointer [n] bytes further on *)
  Definition past (p : ThinPtr P) (n : Size) : ThinPtr P := mkThin (tp_addr p + Z.of_N n) (tp_prov p).
  (** the bytes of the tags of an enum value at [p] *)
  Definition tag_cells (m : Mach) (p : ThinPtr P) (tags : Tagger) (id j : nat) : Prop :=
    exists o it x, In (o, (it, x)) tags /\ cell_in m (past p o) (N.to_nat (it_size it)) id j.
  (** the same pointer, except that its access permissions may differ *)
  Definition same_dest (p q : Pointer P) : Prop :=
    tp_addr (p_thin q) = tp_addr (p_thin p) /\ p_meta q = p_meta p /\
    option_map fst (tp_prov (p_thin q)) = option_map fst (tp_prov (p_thin p)).
  (** the same value, up to the permissions of the pointers in it *)
  Inductive retagged : Value P -> Value P -> Prop :=
  | rt_same v : retagged v v
  | rt_ptr p q : same_dest p q -> retagged (VPtr p) (VPtr q)
  | rt_tuple vs ws : Forall2 retagged vs ws -> retagged (VTuple vs) (VTuple ws)
  | rt_variant d v w : retagged v w -> retagged (VVariant d v) (VVariant d w).

  (** ** Frames *)

  (** the same frame, apart from what the memory model keeps for it *)
  Definition same_frame (f g : StackFrame P F) : Prop :=
    f_func g = f_func f /\ f_locals g = f_locals f /\ f_action g = f_action f /\ f_block g = f_block f /\ f_stmt g = f_stmt f.
  (** the same frame, with control at the start of block [b] *)
  Definition jumped (b : BbName) (f g : StackFrame P F) : Prop :=
    f_func g = f_func f /\ f_locals g = f_locals f /\ f_action g = f_action f /\ f_block g = b /\ f_stmt g = 0%nat.
  (** the stack of thread [a], top frame first *)
  Definition stack_of (m : Mach) (a : nat) (st : list (StackFrame P F)) : Prop :=
    exists t, m_threads m !! a = Some t /\ t_stack t = st.

  (** the top frame of thread [a] moves on as described by [R]; the frames below stay, and so does what is said about
      the payloads by [Q] *)
  Definition top_moves (m m' : Mach) (a : nat) (R : StackFrame P F -> StackFrame P F -> Prop)
      (Q : list (ThinPtr P) -> list (ThinPtr P) -> Prop) : Prop :=
    exists t f r t' f' r', m_threads m !! a = Some t /\ t_stack t = f :: r /\
      m_threads m' !! a = Some t' /\ t_stack t' = f' :: r' /\ R f f' /\ Forall2 same_frame r r' /\
      Q (t_payloads t) (t_payloads t').
  (** control is at the next statement, and the variables are as described by [L] *)
  Definition advanced (L : list (LocalName * ThinPtr P) -> list (LocalName * ThinPtr P) -> Prop) (f g : StackFrame P F) : Prop :=
    f_func g = f_func f /\ L (f_locals f) (f_locals g) /\ f_action g = f_action f /\ f_block g = f_block f /\
    f_stmt g = S (f_stmt f).
  (** all variables but [l] stay where they are; [l] is at [o] *)
  Definition moves_local (l : LocalName) (o : option (ThinPtr P)) (ls ls' : list (LocalName * ThinPtr P)) : Prop :=
    map_get ls' l = o /\ forall k, k <> l -> map_get ls' k = map_get ls k.
  (** the block that the value [i] selects: that of the first case for [i], or else the fallback *)
  Definition selects (cases : list (Z * BbName)) (fallback : BbName) (i : Z) (b : BbName) : Prop :=
    (exists l1 l2, cases = l1 ++ (i, b) :: l2 /\ ~ In i (List.map fst l1)) \/
    (~ In i (List.map fst cases) /\ b = fallback).
  (** the same thread, apart from what the memory model keeps for its frames *)
  Definition same_thread_as (t t' : Thread P F) : Prop :=
    Forall2 same_frame (t_stack t) (t_stack t') /\ t_state t' = t_state t /\ t_payloads t' = t_payloads t.
  (** the same machine, apart from memory and what the memory model keeps for frames *)
  Definition same_control (m m' : Mach) : Prop :=
    m_prog m' = m_prog m /\ m_exposed m' = m_exposed m /\ m_active m' = m_active m /\ m_sync m' = m_sync m /\
    m_locks m' = m_locks m /\ m_globals m' = m_globals m /\ m_fnptrs m' = m_fnptrs m /\ m_vtptrs m' = m_vtptrs m /\
    m_stdout m' = m_stdout m /\ m_stderr m' = m_stderr m /\ Forall2 same_thread_as (m_threads m) (m_threads m').

  (** ** Turns *)

  (** thread [a] takes its turn: no accesses are recorded yet (machine.md:198-218) *)
  Definition turn (m : Mach) (a : nat) : Mach :=
    mkMachine (m_prog m) (mkConc (cm_mem (m_mem m)) []) (m_exposed m) (m_threads m) a (m_sync m) (m_locks m)
      (m_globals m) (m_fnptrs m) (m_vtptrs m) (m_stdout m) (m_stderr m).
End Cells.

Section Calls.
  Context {PE AE F : Type} `{EqDecision (nat * PE)}.
  Variable T : Target.
  Notation P := (nat * PE)%type.
  Variable MO : MemOps P F (BMem PE AE).
  Notation Mach := (Machine P F (BMem PE AE)).

  (** memory from [p] on holds [v], as a value of type [ty] *)
  Definition holds (m : Mach) (p : ThinPtr P) (ty : Ty) (v : Value P) : Prop :=
    exists bs, size_of T ty = Ret (N.of_nat (length bs)) /\ stores_at m p bs /\ decode T ty bs = Ret (Some v).

  (** the expressions, evaluated in order from state [m] on, have these values and types *)
  Inductive evals (m : Mach) : list ValueExpr -> list (Value P * Ty) -> Mach -> Prop :=
  | ev_nil : evals m [] [] m
  | ev_cons e r v ty m1 vs m2 : eval_value T MO e m = Ret (v, ty, m1) -> evals m1 r vs m2 -> evals m (e :: r) ((v, ty) :: vs) m2.

  (** [args_eval m args vals moved m']: the arguments of a call, evaluated in order from state [m] on, have these
      values and types. The places that are passed in place are [moved]; they lose their contents. *)
  Inductive args_eval (m : Mach) : list ArgumentExpr -> list (Value P * Ty) -> list (ThinPtr P * Size) -> Mach -> Prop :=
  | ae_nil : args_eval m [] [] [] m
  | ae_value e r v ty m1 vs mv m2 : eval_value T MO e m = Ret (v, ty, m1) -> args_eval m1 r vs mv m2 ->
      args_eval m (ByValue e :: r) ((v, ty) :: vs) mv m2
  | ae_place p r pl ty s v m1 m2 m3 vs mv m4 : eval_place T MO p m = Ret (pl, ty, m1) ->
      place_load T MO m1 pl ty = Ret (v, m2) -> size_of T ty = Ret s ->
      prepare_for_inplace_passing T MO m2 pl ty = Ret m3 -> erases m2 m3 (p_thin (pl_ptr pl)) s ->
      args_eval m3 r vs mv m4 -> args_eval m (InPlace p :: r) ((v, ty) :: vs) ((p_thin (pl_ptr pl), s) :: mv) m4.

  (** the variable [l] of frame [f] holds the argument, a value and its type *)
  Definition local_holds (m : Mach) (f : StackFrame P F) (l : LocalName) (arg : Value P * Ty) : Prop :=
    exists p bs, map_get (f_locals f) l = Some p /\ encode T (snd arg) (fst arg) = Ret bs /\ stores_at m p bs.

  (** the value is a pointer to the function *)
  Definition designates (m : Mach) (v : Value P) (func : Function) : Prop :=
    exists n p, v = VPtr (mkPtr p None) /\ In (n, p) (m_fnptrs m) /\ map_get (pr_functions (m_prog m)) n = Some func.

  (** [intr_gives a m m' op args v]: thread [a] executes the intrinsic [op], which is not one that accesses the memory
      its arguments point to, with these arguments (values and types), in state [m]. It yields [v] and state [m'],
      which is then stored in the return place. *)
  Inductive intr_gives (a : nat) (m m' : Mach) : IntrinsicOp -> list (Value P * Ty) -> Value P -> Prop :=
  | ig_assume ty : intr_gives a m m' InAssume [(VBool true, ty)] unit_value
  | ig_stdout args : intr_gives a m m' InPrintStdout args unit_value
  | ig_stderr args : intr_gives a m m' InPrintStderr args unit_value
  | ig_join x ty : intr_gives a m m' InJoin [(VInt x, ty)] unit_value
  | ig_acquire x ty : intr_gives a m m' (InLock LkAcquire) [(VInt x, ty)] unit_value
  | ig_release x ty : intr_gives a m m' (InLock LkRelease) [(VInt x, ty)] unit_value
  | ig_create : m_locks m' = m_locks m ++ [Unlocked] ->
      intr_gives a m m' (InLock LkCreate) [] (VInt (Z.of_nat (length (m_locks m))))
  | ig_allocate s al ty1 ty2 p : object_at m' p (length (cm_mem (m_mem m))) AHeap s al ->
      stores_at m' p (repeat Uninit (N.to_nat s)) ->
      intr_gives a m m' InAllocate [(VInt (Z.of_N s), ty1); (VInt (Z.of_N (align_bytes al)), ty2)] (VPtr (mkPtr p None))
  | ig_deallocate s al p id ty1 ty2 ty3 : object_at m p id AHeap s al -> ~ live_alloc m' id ->
      intr_gives a m m' InDeallocate
        [(VPtr (mkPtr p None), ty1); (VInt (Z.of_N s), ty2); (VInt (Z.of_N (align_bytes al)), ty3)] unit_value
  | ig_spawn fv fty d dty func f l : designates m fv func ->
      m_threads m' !! length (m_threads m) = Some (mkThread [f] Enabled []) -> length (m_threads m') = S (length (m_threads m)) ->
      f_func f = func -> f_action f = BottomOfStack -> f_block f = fn_start func -> f_stmt f = 0%nat ->
      fn_args func = [l] -> local_holds m' f l (d, dty) -> fn_conv func = CcC ->
      intr_gives a m m' InSpawn [(fv, fty); (d, dty)] (VInt (Z.of_nat (length (m_threads m))))
  | ig_expose p ty : (forall q, In q (m_exposed m') <-> In q (m_exposed m) \/ tp_prov p = Some q) ->
      intr_gives a m m' InPointerExposeProvenance [(VPtr (mkPtr p None), ty)] (VInt (tp_addr p))
  | ig_with_exposed x ty pr : (forall q, pr = Some q -> In q (m_exposed m)) ->
      intr_gives a m m' InPointerWithExposedProvenance [(VInt x, ty)] (VPtr (mkPtr (mkThin x pr) None))
  | ig_payload t p ps : m_threads m !! a = Some t -> t_payloads t = p :: ps ->
      intr_gives a m m' InGetUnwindPayload [] (VPtr (mkPtr p None)).
End Calls.
