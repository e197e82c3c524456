(** Specification of programs that never panic (C47). *)
From Verif Require Export StepSpec.

(** ** The retags that crash *)

(** Tree Borrows: a pointer to a value of size zero, that lies before the start of the allocation it belongs to *)
Definition empty_before (m : TMem) (ptr : Pointer TProv) (pt : PtrType) (lk : ThinPtr TProv -> Outcome VTable) : Prop :=
  exists pi align id path a, safe_pointee pt = Some pi /\
    compute_size_and_align (pi_layout pi) (p_meta ptr) lk = Ret (0%N, align) /\
    tp_prov (p_thin ptr) = Some (id, path) /\ m !! id = Some a /\ tp_addr (p_thin ptr) < al_addr a.

(** no retag crashes in the basic memory model *)
Inductive retag_crash (T : Target) : forall PE AE F, MemOps (nat * PE) F (BMem PE AE) ->
  (BMem PE AE -> Pointer (nat * PE) -> PtrType -> (ThinPtr (nat * PE) -> Outcome VTable) -> Prop) -> Prop :=
| rc_basic : retag_crash T unit unit unit (BasicOps T) (fun _ _ _ _ => False)
| rc_tree : retag_crash T (list nat) Node (list TProv) (TreeOps T) empty_before.
Arguments retag_crash T {PE AE F} MO crash.

(** ** Programs without causes *)

(** [ptr_in ty pt]: values of type [ty] contain pointers of type [pt] *)
Inductive ptr_in : Ty -> PtrType -> Prop :=
| pn_ptr pt : ptr_in (TPtr pt) pt
| pn_tuple fields head u i o t pt : fields !! i = Some (o, t) -> ptr_in t pt -> ptr_in (TTuple fields head u) pt
| pn_array elem count pt : ptr_in elem pt -> ptr_in (TArray elem count) pt
| pn_enum variants dty discr size align d t tg pt : map_get variants d = Some (t, tg) -> ptr_in t pt ->
    ptr_in (TEnum variants dty discr size align) pt.

(** references and boxes of the type point to sized types, that are not of size zero *)
Definition big_pointee (pt : PtrType) : Prop :=
  forall pi, safe_pointee pt = Some pi -> exists s a, pi_layout pi = LSized s a /\ s <> 0%N.

Section Simple.
  Variable T : Target.
  Variable prog : Program.

  (** [size_known e]: if [e] asks for the size or alignment of a type, then the type is sized and the answer is a usize *)
  Definition size_known (e : Expr) : Prop :=
    match e with
    | inl (EUnOp (UComputeSize ty) _) => exists s a, layout T ty = Ret (LSized s a) /\ Z.of_N s < 2 ^ (8 * Z.of_N (PTR_SIZE T))
    | inl (EUnOp (UComputeAlign ty) _) => exists s a, layout T ty = Ret (LSized s a) /\ Z.of_N (align_bytes a) < 2 ^ (8 * Z.of_N (PTR_SIZE T))
    | _ => True
    end.

  (** [expr_of func e]: [e] is an expression of a statement or of a terminator of the function, or occurs in one *)
  Definition expr_of (func : Function) (e : Expr) : Prop :=
    exists b blk e0, map_get (fn_blocks func) b = Some blk /\ occurs e0 e /\
      ((exists s, In s (bb_statements blk) /\ stmt_expr s e0) \/ term_expr (bb_terminator blk) e0).

  (** the program only asks for sizes that are known, no function can return a reference or box, and there are no
      atomic additions or subtractions *)
  Record simple_program : Prop := {
    sp_size : forall n func e, map_get (pr_functions prog) n = Some func -> expr_of func e -> size_known e;
    sp_ret : forall n func ty pt, map_get (pr_functions prog) n = Some func ->
      map_get (fn_locals func) (fn_ret func) = Some ty -> ptr_in ty pt -> safe_pointee pt = None;
    sp_fetch : forall n func b blk op args ret nb, map_get (pr_functions prog) n = Some func ->
      map_get (fn_blocks func) b = Some blk -> bb_terminator blk <> TmIntrinsic (InAtomicFetchAndOp op) args ret nb;
  }.

  (** there are no references to types of size zero, or of unknown size *)
  Record no_empty_refs : Prop := {
    ne_addr : forall n func p pt, map_get (pr_functions prog) n = Some func -> expr_of func (inl (EAddrOf p pt)) -> big_pointee pt;
    ne_validate : forall n func b blk p fe ty pt, map_get (pr_functions prog) n = Some func ->
      map_get (fn_blocks func) b = Some blk -> In (SValidate p fe) (bb_statements blk) ->
      place_check_wf T prog (fn_locals func) p = Ret ty -> ptr_in ty pt -> big_pointee pt;
  }.
End Simple.
