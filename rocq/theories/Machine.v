(** The machine state and its helpers. Models spec/lang/machine.md, except [new] and [step], which
    are in Step.v, and the typed memory accesses of spec/lang/representation.md. *)
From Coq Require Import DecimalString.
From Verif Require Export Syntax IntOps WfProg ConcMem IntPtrCast.

(** ** State *)

(** machine.md:78-93 StackPopAction *)
Inductive StackPopAction (P : Type) :=
| BottomOfStack
| BackToCaller (next_block unwind_block : option BbName) (ret_val_ptr : ThinPtr P).
Arguments BottomOfStack {P}.
Arguments BackToCaller {P}.

(** machine.md:55-75 StackFrame. [next_stmt] is a natural number: it starts at zero and is only
    incremented. *)
Record StackFrame (P F : Type) := mkFrame {
  f_func : Function;
  f_locals : list (LocalName * ThinPtr P);
  f_action : StackPopAction P;
  f_block : BbName;
  f_stmt : nat;
  f_extra : F;
}.
Arguments mkFrame {P F}.
Arguments f_func {P F}.
Arguments f_locals {P F}.
Arguments f_action {P F}.
Arguments f_block {P F}.
Arguments f_stmt {P F}.
Arguments f_extra {P F}.

(** machine.md:112-121 ThreadState. Thread and lock ids are list indices, so natural numbers; they
    are integers only in the arguments and results of intrinsics. *)
Inductive ThreadState :=
| Enabled
| BlockedOnJoin (t : nat)
| BlockedOnLock (l : nat)
| Terminated.

#[global] Instance ThreadState_eq_dec : EqDecision ThreadState.
Proof. solve_decision. Defined.

(** machine.md:99-110 Thread. The stack is stored top frame first, the unwind payloads latest
    first; the code keeps the latest element at the end. *)
Record Thread (P F : Type) := mkThread {
  t_stack : list (StackFrame P F);
  t_state : ThreadState;
  t_payloads : list (ThinPtr P);
}.
Arguments mkThread {P F}.
Arguments t_stack {P F}.
Arguments t_state {P F}.
Arguments t_payloads {P F}.

(** spec/lang/step/locks.md:9-14 LockState *)
Inductive LockState := Unlocked | LockedBy (t : nat).

(** machine.md:14-52 Machine. The output streams are the strings written so far. *)
Record Machine (P F M : Type) := mkMachine {
  m_prog : Program;
  m_mem : ConcMem M;
  m_exposed : Exposed P;
  m_threads : list (Thread P F);
  m_active : nat;
  m_sync : list nat;
  m_locks : list LockState;
  m_globals : list (GlobalName * ThinPtr P);
  m_fnptrs : list (FnName * ThinPtr P);
  m_vtptrs : list (VTableName * ThinPtr P);
  m_stdout : string;
  m_stderr : string;
}.
Arguments mkMachine {P F M}.
Arguments m_prog {P F M}.
Arguments m_mem {P F M}.
Arguments m_exposed {P F M}.
Arguments m_threads {P F M}.
Arguments m_active {P F M}.
Arguments m_sync {P F M}.
Arguments m_locks {P F M}.
Arguments m_globals {P F M}.
Arguments m_fnptrs {P F M}.
Arguments m_vtptrs {P F M}.
Arguments m_stdout {P F M}.
Arguments m_stderr {P F M}.

(** ** Nondeterministic choices *)

(** What pick and predict return (spec/prelude/main.md:78, libspecr): the address of an allocation,
    a thread, the provenance of an integer-to-pointer cast. A step takes the list of the choices
    made during it; a missing choice or one of the wrong sort is no behaviour. *)
Inductive Choice (P : Type) :=
| ChAddr (a : Address)
| ChThread (t : nat)
| ChProv (p : option P).
Arguments ChAddr {P}.
Arguments ChThread {P}.
Arguments ChProv {P}.

Definition pick_addr {P} (cs : list (Choice P)) : Outcome (Address * list (Choice P)) :=
  match cs with ChAddr a :: r => Ret (a, r) | _ => NoBehavior end.
Definition pick_thread {P} (ok : nat -> bool) (cs : list (Choice P)) : Outcome (nat * list (Choice P)) :=
  match cs with ChThread t :: r => if ok t then Ret (t, r) else NoBehavior | _ => NoBehavior end.
Definition pick_prov {P} (cs : list (Choice P)) : Outcome (option P * list (Choice P)) :=
  match cs with ChProv p :: r => Ret (p, r) | _ => NoBehavior end.

(** ** Small helpers *)

(** Result::unwrap, Result::expect *)
Definition expect_ok {A} (o : Outcome A) : Outcome A :=
  match o with
  | Stop _ => Panic
  | o => o
  end.

(** Set::insert *)
Definition set_add (l : list nat) (x : nat) : list nat :=
  if bool_decide (x ∈ l) then l else l ++ [x].

(** equality of values *)
Fixpoint value_eqb {P} `{EqDecision P} (a b : Value P) : bool :=
  match a, b with
  | VInt i, VInt j => i =? j
  | VBool i, VBool j => Bool.eqb i j
  | VPtr p, VPtr q => bool_decide (p = q)
  | VTuple l, VTuple k => forall2b value_eqb l k
  | VVariant d v, VVariant e w => (d =? e) && value_eqb v w
  | VUnion c, VUnion d => bool_decide (c = d)
  | _, _ => false
  end.

(** a map over a list with a function that threads a state; libspecr List::try_map with a closure
    that borrows the machine *)
Definition map_st {A B S} (f : S -> A -> Outcome (B * S)) : list A -> S -> Outcome (list B * S) :=
  fix go l s := match l with
                | [] => Ret ([], s)
                | x :: r => let! '(y, s) := f s x in let! '(ys, s) := go r s in Ret (y :: ys, s)
                end.
(** the same over the zip of two lists *)
Definition map_st2 {A B C S} (f : S -> A -> B -> Outcome (C * S))
  : list A -> list B -> S -> Outcome (list C * S) :=
  fix go l1 l2 s := match l1, l2 with
                    | x :: r1, y :: r2 =>
                        let! '(z, s) := f s x y in let! '(zs, s) := go r1 r2 s in Ret (z :: zs, s)
                    | _, _ => Ret ([], s)
                    end.

(** the decimal form of an integer, as Display prints it, followed by a newline *)
Definition newline : string := String (Ascii.ascii_of_nat 10) EmptyString.
Definition print_int (i : Z) : string := (NilZero.string_of_int (Z.to_int i) ++ newline)%string.
Definition print_bool (b : bool) : string :=
  ((if b then "true" else "false") ++ newline)%string.

Section Helpers.
  Context {P F M : Type} `{EqDecision P}.
  Variable T : Target.
  Variable MO : MemOps P F M.

  Notation Mach := (Machine P F M).
  Notation Val := (Value P).

  (** field updates *)
  Definition set_mem (m : Mach) mem : Mach :=
    mkMachine (m_prog m) mem (m_exposed m) (m_threads m) (m_active m) (m_sync m) (m_locks m)
      (m_globals m) (m_fnptrs m) (m_vtptrs m) (m_stdout m) (m_stderr m).
  Definition set_exposed (m : Mach) e : Mach :=
    mkMachine (m_prog m) (m_mem m) e (m_threads m) (m_active m) (m_sync m) (m_locks m)
      (m_globals m) (m_fnptrs m) (m_vtptrs m) (m_stdout m) (m_stderr m).
  Definition set_threads (m : Mach) ts : Mach :=
    mkMachine (m_prog m) (m_mem m) (m_exposed m) ts (m_active m) (m_sync m) (m_locks m)
      (m_globals m) (m_fnptrs m) (m_vtptrs m) (m_stdout m) (m_stderr m).
  Definition set_active (m : Mach) a : Mach :=
    mkMachine (m_prog m) (m_mem m) (m_exposed m) (m_threads m) a (m_sync m) (m_locks m)
      (m_globals m) (m_fnptrs m) (m_vtptrs m) (m_stdout m) (m_stderr m).
  Definition set_sync (m : Mach) s : Mach :=
    mkMachine (m_prog m) (m_mem m) (m_exposed m) (m_threads m) (m_active m) s (m_locks m)
      (m_globals m) (m_fnptrs m) (m_vtptrs m) (m_stdout m) (m_stderr m).
  Definition set_locks (m : Mach) l : Mach :=
    mkMachine (m_prog m) (m_mem m) (m_exposed m) (m_threads m) (m_active m) (m_sync m) l
      (m_globals m) (m_fnptrs m) (m_vtptrs m) (m_stdout m) (m_stderr m).
  Definition set_stdout (m : Mach) s : Mach :=
    mkMachine (m_prog m) (m_mem m) (m_exposed m) (m_threads m) (m_active m) (m_sync m) (m_locks m)
      (m_globals m) (m_fnptrs m) (m_vtptrs m) s (m_stderr m).
  Definition set_stderr (m : Mach) s : Mach :=
    mkMachine (m_prog m) (m_mem m) (m_exposed m) (m_threads m) (m_active m) (m_sync m) (m_locks m)
      (m_globals m) (m_fnptrs m) (m_vtptrs m) (m_stdout m) s.

  Definition with_stack (t : Thread P F) s : Thread P F := mkThread s (t_state t) (t_payloads t).
  Definition with_state (t : Thread P F) s : Thread P F := mkThread (t_stack t) s (t_payloads t).
  Definition with_payloads (t : Thread P F) p : Thread P F := mkThread (t_stack t) (t_state t) p.

  Definition with_locals (f : StackFrame P F) l : StackFrame P F :=
    mkFrame (f_func f) l (f_action f) (f_block f) (f_stmt f) (f_extra f).
  Definition with_pc (f : StackFrame P F) b s : StackFrame P F :=
    mkFrame (f_func f) (f_locals f) (f_action f) b s (f_extra f).
  Definition with_extra (f : StackFrame P F) e : StackFrame P F :=
    mkFrame (f_func f) (f_locals f) (f_action f) (f_block f) (f_stmt f) e.

  (** ** Threads and frames *)

  (** machine.md:247-249 active_thread *)
  Definition active_thread (m : Mach) : Outcome (Thread P F) := unwrap (m_threads m !! m_active m).
  (** machine.md:251-253 mutate_active_thread, and List::mutate_at in general *)
  Definition set_thread (m : Mach) (i : nat) (t : Thread P F) : Mach :=
    set_threads m (<[i := t]> (m_threads m)).
  Definition set_active_thread (m : Mach) (t : Thread P F) : Mach := set_thread m (m_active m) t.
  (** machine.md:255-257, 273-275 cur_frame *)
  Definition cur_frame (m : Mach) : Outcome (StackFrame P F) :=
    let! t := active_thread m in unwrap (head (t_stack t)).
  (** machine.md:259-269, 277-293 mutate_cur_frame, try_mutate_cur_frame: replace the top frame *)
  Definition set_cur_frame (m : Mach) (f : StackFrame P F) : Outcome Mach :=
    let! t := active_thread m in
    match t_stack t with
    | [] => Panic
    | _ :: r => Ret (set_active_thread m (with_stack t (f :: r)))
    end.
  (** machine.md:296-302 StackFrame::jump_to_block and terminators.md:21-26 Machine::jump_to_block *)
  Definition jump_to_block (m : Mach) (b : BbName) : Outcome Mach :=
    let! f := cur_frame m in set_cur_frame m (with_pc f b 0).

  (** ** Functions and vtables *)

  (** machine.md:332-344 fn_from_ptr *)
  Definition fn_from_ptr (m : Mach) (v : Val) : Outcome Function :=
    match v with
    | VPtr (mkPtr thin meta) =>
        match meta with
        | Some _ => throw_ub "invalid pointer for function lookup"
        | None =>
            match List.find (fun kv => bool_decide (snd kv = thin)) (m_fnptrs m) with
            | None => throw_ub "invalid pointer for function lookup"
            | Some kv => unwrap (map_get (pr_functions (m_prog m)) (fst kv))
            end
        end
    | _ => throw_ub "trying to look up a function based on a non-pointer value"
    end.

  (** machine.md:347-352 vtable_from_ptr *)
  Definition vtable_from_ptr (m : Mach) (p : ThinPtr P) : Outcome VTable :=
    match List.find (fun kv => bool_decide (snd kv = p)) (m_vtptrs m) with
    | None => throw_ub "invalid pointer for vtable lookup"
    | Some kv => unwrap (map_get (pr_vtables (m_prog m)) (fst kv))
    end.

  (** machine.md:372-381 vtable_lookup *)
  Definition vtable_lookup (m : Mach) (p : ThinPtr P) : Outcome VTable :=
    let! kv := unwrap (List.find (fun kv => bool_decide (snd kv = p)) (m_vtptrs m)) in
    unwrap (map_get (pr_vtables (m_prog m)) (fst kv)).

  (** what check_value, compute_size and compute_align read from the machine *)
  Definition chk_env (m : Mach) : ChkEnv P :=
    mkChkEnv (cm_deref MO (m_mem m)) (vtable_from_ptr m) (vtable_lookup m).

  (** machine.md:358-369 reset_data_race_tracking. The set of synchronised threads is copied and
      stays as it is. *)
  Definition reset_data_race_tracking (m : Mach) : list nat * list Access * Mach :=
    let prev_sync := set_add (m_sync m) (m_active m) in
    let '(prev_accesses, mem) := cm_reset_accesses (m_mem m) in
    (prev_sync, prev_accesses, set_mem m mem).

  (** ** Typed memory accesses *)

  (** spec/lang/representation.md:600-607 typed_store *)
  Definition typed_store (m : Mach) (ptr : ThinPtr P) (v : Val) (ty : Ty) (align : Align)
      (at_ : Atomicity) : Outcome Mach :=
    let! ok := is_ok (check_value T (chk_env m) ty v) in
    let! _ := assert_ ok in
    let! bytes := encode T ty v in
    let! mem := cm_store MO (m_mem m) ptr bytes align at_ in
    Ret (set_mem m mem).

  (** spec/lang/representation.md:609-619 typed_load *)
  Definition typed_load (m : Mach) (ptr : ThinPtr P) (ty : Ty) (align : Align) (at_ : Atomicity)
    : Outcome (Val * Mach) :=
    let! size := size_of T ty in
    let! '(bytes, mem) := cm_load MO (m_mem m) ptr size align at_ in
    let m := set_mem m mem in
    let! o := decode T ty bytes in
    match o with
    | Some v => let! _ := check_value T (chk_env m) ty v in Ret (v, m)
    | None => throw_ub "load at type but the data in memory violates the language invariant"
    end.

  (** spec/lang/step/expressions.md:138-145 place_load *)
  Definition place_load (m : Mach) (pl : Place P) (ty : Ty) : Outcome (Val * Mach) :=
    if negb (pl_aligned pl) then throw_ub "loading from a place based on a misaligned pointer" else
    typed_load m (p_thin (pl_ptr pl)) ty align_one NonAtomic.

  (** spec/lang/step/statements.md:23-30 place_store *)
  Definition place_store (m : Mach) (pl : Place P) (v : Val) (ty : Ty) : Outcome Mach :=
    if negb (pl_aligned pl) then throw_ub "storing to a place based on a misaligned pointer" else
    typed_store m (p_thin (pl_ptr pl)) v ty align_one NonAtomic.

  (** spec/lang/step/statements.md:140-145 ConcurrentMemory::deinit *)
  Definition deinit (m : Mach) (ptr : ThinPtr P) (len : Size) (align : Align) : Outcome Mach :=
    let! mem := cm_store MO (m_mem m) ptr (list_repeat Uninit len) align NonAtomic in
    Ret (set_mem m mem).

  (** the retag of a pointer in the current frame: expressions.md:170-174, statements.md:104-107 *)
  Definition retag_ptr (m : Mach) (ptr : Pointer P) (pt : PtrType) (fn_entry : bool)
    : Outcome (Pointer P * Mach) :=
    let! f := cur_frame m in
    let! '(p, mem, extra) := cm_retag MO (m_mem m) (f_extra f) ptr pt fn_entry (vtable_lookup m) in
    let! m := set_cur_frame (set_mem m mem) (with_extra f extra) in
    Ret (p, m).

  (** ** Pointer arithmetic *)

  (** spec/lang/step/operators.md:383-387 ptr_offset_wrapping *)
  Definition ptr_offset_wrapping (p : ThinPtr P) (offset : Z) : ThinPtr P := wrapping_offset T p offset.
  (** spec/lang/step/operators.md:389-400 ptr_offset_inbounds *)
  Definition ptr_offset_inbounds (m : Mach) (p : ThinPtr P) (offset : Z) : Outcome (ThinPtr P) :=
    let! _ := cm_signed_deref MO (m_mem m) p offset in
    let! _ := assert_ (in_bounds Signed (PTR_SIZE T) offset) in
    let! _ := assert_ (in_bounds Unsigned (PTR_SIZE T) (tp_addr p + offset)) in
    Ret (mkThin (tp_addr p + offset) (tp_prov p)).

  (** ** Operators *)

  (** spec/lang/step/operators.md:12-17, 35-47, 94-98, 104-164 eval_un_op *)
  Definition eval_un_op (m : Mach) (op : UnOp) (operand : Val * Ty) : Outcome (Val * Ty) :=
    let '(v, op_ty) := operand in
    match op with
    | UInt int_op =>
        match op_ty, v with
        | TInt it, VInt i =>
            let! result := eval_int_un_op int_op i it in
            let ret_ty := TInt (int_un_op_ty int_op it) in
            let! _ := expect_ok (check_value T (chk_env m) ret_ty (VInt result)) in
            Ret (VInt result, ret_ty)
        | _, _ => Panic
        end
    | UCast (CIntToInt it) =>
        match v with
        | VInt i => Ret (VInt (int_to_int it i), TInt it)
        | _ => Panic
        end
    | UCast (CTransmute new_ty) =>
        let! s1 := size_of T op_ty in
        let! s2 := size_of T new_ty in
        if negb (s1 =? s2)%N then throw_ub "transmute between types of different size" else
        let! v := transmute T (chk_env m) v op_ty new_ty in
        Ret (v, new_ty)
    | UGetThinPointer =>
        match v with
        | VPtr p => Ret (VPtr (mkPtr (p_thin p) None), TPtr (PRaw MKNone))
        | _ => Panic
        end
    | UGetMetadata =>
        match v, op_ty with
        | VPtr p, TPtr pt =>
            let! mv := meta_encode_as_value (ptr_meta_kind pt) (p_meta p) in
            let meta_ty := meta_kind_ty T (ptr_meta_kind pt) in
            let! _ := expect_ok (check_value T (chk_env m) meta_ty mv) in
            Ret (mv, meta_ty)
        | _, _ => Panic
        end
    | UComputeSize ty =>
        let! meta := meta_decode_value (ty_meta_kind ty) v in
        let! l := layout T ty in
        let! size := compute_size (chk_env m) l meta in
        Ret (VInt (Z.of_N size), TInt (usize_ty T))
    | UComputeAlign ty =>
        let! meta := meta_decode_value (ty_meta_kind ty) v in
        let! l := layout T ty in
        let! align := compute_align (chk_env m) l meta in
        Ret (VInt (Z.of_N (align_bytes align)), TInt (usize_ty T))
    | UVTableMethodLookup method =>
        match v, op_ty with
        | VPtr p, TPtr _ =>
            let! vt := vtable_lookup m (p_thin p) in
            let! fn_name := unwrap (map_get (vt_methods vt) method) in
            let! fp := unwrap (map_get (m_fnptrs m) fn_name) in
            Ret (VPtr (widen fp None), TPtr PFnPtr)
        | _, _ => Panic
        end
    end.

  (** spec/lang/step/operators.md:173-182, 273-313, 354-374, 401-474 eval_bin_op *)
  Definition eval_bin_op (m : Mach) (op : BinOp) (l r : Val * Ty) : Outcome (Val * Ty) :=
    let '(lv, l_ty) := l in
    let '(rv, _) := r in
    match op with
    | BInt op =>
        match l_ty, lv, rv with
        | TInt it, VInt i, VInt j =>
            let! result := int_bin_op op i j it in Ret (VInt result, TInt it)
        | _, _, _ => Panic
        end
    | BIntWithOverflow op =>
        match l_ty, lv, rv with
        | TInt it, VInt i, VInt j =>
            let '(result, overflow) := int_bin_op_overflow op i j it in
            let! ty := with_overflow T it in
            Ret (VTuple [VInt result; VBool overflow], ty)
        | _, _, _ => Panic
        end
    | BRel rel => rel_op rel l_ty lv rv
    | BPtrOffset inbounds =>
        match lv, rv with
        | VPtr (mkPtr p None), VInt i =>
            let! p := if inbounds then ptr_offset_inbounds m p i
                      else Ret (ptr_offset_wrapping p i) in
            Ret (VPtr (widen p None), l_ty)
        | _, _ => Panic
        end
    | BPtrOffsetFrom inbounds nonneg =>
        match lv, rv with
        | VPtr (mkPtr p None), VPtr (mkPtr q None) =>
            let distance := tp_addr p - tp_addr q in
            let! distance :=
              if inbounds then
                let! _ := cm_signed_deref MO (m_mem m) p (- distance) in
                let! _ := cm_signed_deref MO (m_mem m) q distance in
                Ret distance
              else Ret (bring_in_bounds Signed (PTR_SIZE T) distance) in
            if nonneg && (distance <? 0)
            then throw_ub "PtrOffsetFrom: negative result with `nonneg` flag set" else
            Ret (VInt distance, TInt (mkIntTy Signed (PTR_SIZE T)))
        | _, _ => Panic
        end
    | BConstructWidePointer pt =>
        match lv with
        | VPtr (mkPtr p None) =>
            let! meta := meta_decode_value (ptr_meta_kind pt) rv in
            let wide := VPtr (mkPtr p meta) in
            let! _ := check_value T (chk_env m) (TPtr pt) wide in
            Ret (wide, TPtr pt)
        | _ => Panic
        end
    end.
End Helpers.
