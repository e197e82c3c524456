(** Specification vocabulary for progress (C47): the conditions under which a step of an accepted program
    panics, and what the well-formedness check of programs leaves open. *)
From Verif Require Export SafeSpec OwnSpec.

(** ** The expressions of statements and terminators *)

Definition arg_expr (a : ArgumentExpr) : Expr :=
  match a with ByValue e => inl e | InPlace p => inr p end.

(** [stmt_expr s e]: [e] is a top-level expression of [s] *)
Inductive stmt_expr : Statement -> Expr -> Prop :=
| se_dest d s : stmt_expr (SAssign d s) (inr d)
| se_source d s : stmt_expr (SAssign d s) (inl s)
| se_mention p : stmt_expr (SPlaceMention p) (inr p)
| se_discr p d : stmt_expr (SSetDiscriminant p d) (inr p)
| se_validate p b : stmt_expr (SValidate p b) (inr p)
| se_deinit p : stmt_expr (SDeinit p) (inr p).

(** [term_expr tm e]: [e] is a top-level expression of [tm] *)
Inductive term_expr : Terminator -> Expr -> Prop :=
| te_switch v cases fb : term_expr (TmSwitch v cases fb) (inl v)
| te_payload v b : term_expr (TmStartUnwind v b) (inl v)
| te_call_ret c conv args ret nb ub : term_expr (TmCall c conv args ret nb ub) (inr ret)
| te_callee c conv args ret nb ub : term_expr (TmCall c conv args ret nb ub) (inl c)
| te_call_arg c conv args ret nb ub a : In a args -> term_expr (TmCall c conv args ret nb ub) (arg_expr a)
| te_intr_ret op args ret nb : term_expr (TmIntrinsic op args ret nb) (inr ret)
| te_intr_arg op args ret nb e : In e args -> term_expr (TmIntrinsic op args ret nb) (inl e).

(** ** What the well-formedness check of programs leaves open *)

Section ProgramGaps.
  Variable T : Target.
  Variable prog : Program.

  (** intrinsics that make up a pointer are asked for a pointer that may point anywhere, and only integers that
      are addresses are turned into pointers *)
  Definition intrinsic_gap (locals : list (LocalName * Ty)) (tm : Terminator) : Prop :=
    match tm with
    | TmIntrinsic op args ret _ =>
        match op with
        | InAllocate | InGetUnwindPayload | InPointerWithExposedProvenance =>
            forall pt, place_check_wf T prog locals ret = Ret (TPtr pt) -> plain_ptr pt
        | _ => True
        end /\
        match op with
        | InPointerWithExposedProvenance =>
            forall e it i, In e args -> value_check_wf T prog locals e = Ret (TInt it) ->
              can_represent it i = true -> address_ok T i
        | _ => True
        end
    | _ => True
    end.

  (** [strict_program prog]: what the check (well-formed.md:626-935) should have asked of the program, and that the maps
      of the program are maps. *)
  Record strict_program : Prop := {
    st_unique : names_unique prog;
    st_start : starts_regular prog;
    st_methods : methods_exist prog;
    st_stmt : forall n func b blk s e, map_get (pr_functions prog) n = Some func ->
      map_get (fn_blocks func) b = Some blk -> In s (bb_statements blk) -> stmt_expr s e ->
      gap_free T prog (fn_locals func) e;
    st_term : forall n func b blk e, map_get (pr_functions prog) n = Some func ->
      map_get (fn_blocks func) b = Some blk -> term_expr (bb_terminator blk) e ->
      gap_free T prog (fn_locals func) e;
    st_intr : forall n func b blk, map_get (pr_functions prog) n = Some func ->
      map_get (fn_blocks func) b = Some blk -> intrinsic_gap (fn_locals func) (bb_terminator blk);
  }.
End ProgramGaps.

(** ** Causes *)

Section Causes.
  Context {PE AE F : Type} `{EqDecision (nat * PE)}.
  Variable T : Target.
  Variable MO : MemOps (nat * PE) F (BMem PE AE).
  Variable crash : BMem PE AE -> Pointer (nat * PE) -> PtrType -> (ThinPtr (nat * PE) -> Outcome VTable) -> Prop.
  Notation P := (nat * PE)%type.
  Notation Mach := (Machine P F (BMem PE AE)).
  Notation expr_cause := (expr_cause T MO crash).
  Notation args_run := (map_st (eval_argument T MO)).
  Notation values_run := (map_st (fun m e => eval_value T MO e m)).

  (** [stmt_runs m s m1 e]: the statement [s] in state [m] evaluates its expression [e] in state [m1] *)
  Inductive stmt_runs (m : Mach) : Statement -> Mach -> Expr -> Prop :=
  | sr_dest d s : stmt_runs m (SAssign d s) m (inr d)
  | sr_source d s pl ty m1 : eval_place T MO d m = Ret (pl, ty, m1) -> stmt_runs m (SAssign d s) m1 (inl s)
  | sr_mention p : stmt_runs m (SPlaceMention p) m (inr p)
  | sr_discr p d : stmt_runs m (SSetDiscriminant p d) m (inr p)
  | sr_validate p b : stmt_runs m (SValidate p b) m (inr p)
  | sr_deinit p : stmt_runs m (SDeinit p) m (inr p).

  (** [term_runs m tm m1 e]: the terminator [tm] in state [m] evaluates its expression [e] in state [m1] *)
  Inductive term_runs (m : Mach) : Terminator -> Mach -> Expr -> Prop :=
  | tr_switch v cases fb : term_runs m (TmSwitch v cases fb) m (inl v)
  | tr_payload v b : term_runs m (TmStartUnwind v b) m (inl v)
  | tr_call_ret c conv args ret nb ub : term_runs m (TmCall c conv args ret nb ub) m (inr ret)
  | tr_callee c conv args ret nb ub pl ty m1 m2 : eval_place T MO ret m = Ret (pl, ty, m1) ->
      prepare_for_inplace_passing T MO m1 pl ty = Ret m2 -> term_runs m (TmCall c conv args ret nb ub) m2 (inl c)
  | tr_call_arg c conv args1 a args2 ret nb ub pl ty m1 m2 v t m3 vs m4 : eval_place T MO ret m = Ret (pl, ty, m1) ->
      prepare_for_inplace_passing T MO m1 pl ty = Ret m2 -> eval_value T MO c m2 = Ret (v, t, m3) ->
      args_run args1 m3 = Ret (vs, m4) ->
      term_runs m (TmCall c conv (args1 ++ a :: args2) ret nb ub) m4 (arg_expr a)
  | tr_intr_ret op args ret nb : term_runs m (TmIntrinsic op args ret nb) m (inr ret)
  | tr_intr_arg op args1 e args2 ret nb pl ty m1 vs m2 : eval_place T MO ret m = Ret (pl, ty, m1) ->
      values_run args1 m1 = Ret (vs, m2) -> term_runs m (TmIntrinsic op (args1 ++ e :: args2) ret nb) m2 (inl e).

  (** [stmt_cause m s]: why [s] may panic in state [m] *)
  Inductive stmt_cause (m : Mach) : Statement -> Prop :=
  (** an expression does *)
  | sc_expr s m1 e : stmt_runs m s m1 e -> expr_cause m1 e -> stmt_cause m s
  (** a pointer in a value that is validated cannot be retagged *)
  | sc_validate p b pl ty m1 v m2 pt q : eval_place T MO p m = Ret (pl, ty, m1) ->
      place_load T MO m1 pl ty = Ret (v, m2) -> leaf ty v pt q ->
      crash (cm_mem (m_mem m2)) q pt (vtable_lookup m2) -> stmt_cause m (SValidate p b).

  (** the new number of a thread or lock *)
  Definition next_number (m : Mach) (op : IntrinsicOp) : option nat :=
    match op with
    | InSpawn => Some (length (m_threads m))
    | InLock LkCreate => Some (length (m_locks m))
    | _ => None
    end.
  (** the exact sum or difference *)
  Definition fetch_result (op : IntBinOp) (x y : Z) : Z := match op with ISub => x - y | _ => x + y end.

  (** [term_cause m tm]: why [tm] may panic in state [m] *)
  Inductive term_cause (m : Mach) : Terminator -> Prop :=
  (** an expression does *)
  | tc_expr tm m1 e : term_runs m tm m1 e -> expr_cause m1 e -> term_cause m tm
  (** a function returns a reference or box to one of its own locals *)
  | tc_return f ty p al v m1 pt q pi s a id pe :
      cur_frame m = Ret f -> map_get (fn_locals (f_func f)) (fn_ret (f_func f)) = Some ty ->
      map_get (f_locals f) (fn_ret (f_func f)) = Some p -> align_of T ty = Ret al ->
      typed_load T MO m p ty al NonAtomic = Ret (v, m1) -> leaf ty v pt q -> safe_pointee pt = Some pi ->
      compute_size_and_align (pi_layout pi) (p_meta q) (vtable_lookup m) = Ret (s, a) -> s <> 0%N ->
      tp_prov (p_thin q) = Some (id, pe) -> frame_owns f id -> term_cause m TmReturn
  (** the number of a new thread or lock does not fit the integer type it is stored at *)
  | tc_number op args ret nb pl it m1 n : eval_place T MO ret m = Ret (pl, TInt it, m1) ->
      next_number m op = Some n -> can_represent it (Z.of_nat n) = false ->
      term_cause m (TmIntrinsic op args ret nb)
  (** the result of an atomic addition or subtraction overflows *)
  | tc_fetch op args ret nb pl it m1 ptr pty other m2 al prev m3 :
      eval_place T MO ret m = Ret (pl, TInt it, m1) ->
      values_run args m1 = Ret ([(VPtr (mkPtr ptr None), pty); (VInt other, TInt it)], m2) ->
      typed_load T MO m2 ptr (TInt it) al Atomic = Ret (VInt prev, m3) ->
      can_represent it (fetch_result op prev other) = false ->
      term_cause m (TmIntrinsic (InAtomicFetchAndOp op) args ret nb).

  (** [panic_cause m]: an enabled thread is about to do something that may panic. A step begins by setting the
      active thread and clearing the list of accesses. *)
  Definition starting (m : Mach) (a : nat) : Mach := set_active (snd (reset_data_race_tracking m)) a.
  Definition panic_cause (m : Mach) (a : nat) : Prop :=
    enabled m a /\
    ((exists s, at_statement m a s /\ stmt_cause (starting m a) s) \/
     (exists tm, at_terminator m a tm /\ term_cause (starting m a) tm)).
End Causes.
