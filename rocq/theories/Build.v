(** The program builder of the test suite. Models tooling/miniutil/src/build: mod.rs (the builders of programs and
    functions), terminator.rs and statement.rs (their methods), function.rs, expr.rs, ty.rs, ty_conv.rs and global.rs
    (the free functions that make functions, expressions, types and globals).

    A builder is a record and its methods are functions from builders to builders. A closure [Fn(&mut Self)] is a
    function on builders that may panic. A name is its number. The numbers of fresh names are unbounded here; in the
    code they are [u32] and counting on panics at the end. [#[track_caller]] and the texts of panics are left out. *)
From Verif Require Export Syntax.

(** libspecr Map::try_insert followed by [unwrap]: panics if there is such a key *)
Definition try_insert {K V} `{EqDecision K} (m : list (K * V)) (k : K) (v : V) : Outcome (list (K * V)) :=
  if map_contains m k then Panic else Ret (map_insert m k v).

(** ** Types *)

(** ty.rs:3-5 int_ty *)
Definition b_int_ty (s : Signedness) (size : Size) : Ty := TInt (mkIntTy s size).
(** ty_conv.rs:41 the type of [u8] *)
Definition u8_ty : Ty := b_int_ty Unsigned 1.
(** ty.rs:11-13 ref_ty *)
Definition b_ref_ty (pi : PointeeInfo) : Ty := TPtr (PRef Immutable pi).
(** ty.rs:38-40 ref_mut_ty *)
Definition b_ref_mut_ty (pi : PointeeInfo) : Ty := TPtr (PRef Mutable pi).
(** ty.rs:51-53 box_ty *)
Definition b_box_ty (pi : PointeeInfo) : Ty := TPtr (PBox pi).
(** ty.rs:55-61 raw_ptr_ty, raw_void_ptr_ty *)
Definition b_raw_ptr_ty (mk : MetaKind) : Ty := TPtr (PRaw mk).
Definition b_raw_void_ptr_ty : Ty := b_raw_ptr_ty MKNone.
(** ty.rs:63-69 tuple_ty *)
Definition b_tuple_ty (f : list (Offset * Ty)) (size : Size) (align : Align) : Ty := TTuple f (mkHead size align None) None.
(** ty.rs:71-83 unsized_tuple_ty *)
Definition b_unsized_tuple_ty (fs : list (Offset * Ty)) (tail : Ty) (end_ : Offset) (align : Align) (packed : option Align) : Ty :=
  TTuple fs (mkHead end_ align packed) (Some tail).
(** ty.rs:85-88 union_ty *)
Definition b_union_ty (f : list (Offset * Ty)) (size : Size) (align : Align) : Ty := TUnion f [(0%N, size)] size align.
(** ty.rs:90-92 array_ty *)
Definition b_array_ty (elem : Ty) (count : Z) : Ty := TArray elem count.
(** ty.rs:94-96 slice_ty *)
Definition b_slice_ty (elem : Ty) : Ty := TSlice elem.

(** ty.rs:16-27 from_frozen_layout *)
Fixpoint from_frozen_layout (l : LayoutStrategy) : CellStrategy :=
  match l with
  | LSized _ _ => CSized []
  | LSlice _ _ => CSlice []
  | LTraitObject _ => CTraitObject
  | LTuple _ tail => CTuple [] (from_frozen_layout tail)
  end.

(** ty.rs:31-36 ref_ty_default_markers_for, ty.rs:44-49 ref_mut_ty_default_markers_for *)
Definition ref_ty_default_markers_for (T : Target) (ty : Ty) : Outcome Ty :=
  let! l := layout T ty in
  Ret (b_ref_ty (mkPointee l true (from_frozen_layout l) true true)).
Definition ref_mut_ty_default_markers_for (T : Target) (ty : Ty) : Outcome Ty :=
  let! l := layout T ty in
  Ret (b_ref_mut_ty (mkPointee l true (from_frozen_layout l) true true)).

(** ty_conv.rs:41-123 the Rust types that can be converted. [RInt] stands for the twelve integer types; [usize] and
    [isize] are the ones of the size of pointers (ty_conv.rs:55-56). *)
Inductive RustTy :=
| RInt (s : Signedness) (size : Size)
| RBool
| RConstPtr (t : RustTy)
| RMutPtr (t : RustTy)
| RRef (t : RustTy)
| RRefMut (t : RustTy)
| RArray (t : RustTy) (n : Z)
| RSlice (t : RustTy)
| RUnit.

(** ty_conv.rs:7-124 TypeConv::get_type. All these types have the default markers (ty_conv.rs:27-28); the layout of the
    referent may overflow and panic (ty_conv.rs:80, 94). *)
Fixpoint get_type (T : Target) (r : RustTy) : Outcome Ty :=
  match r with
  | RInt s size => Ret (b_int_ty s size)
  | RBool => Ret TBool
  | RConstPtr t | RMutPtr t => let! ty := get_type T t in Ret (b_raw_ptr_ty (ty_meta_kind ty))
  | RRef t => let! ty := get_type T t in ref_ty_default_markers_for T ty
  | RRefMut t => let! ty := get_type T t in ref_mut_ty_default_markers_for T ty
  | RArray t n => let! ty := get_type T t in Ret (b_array_ty ty n)
  | RSlice t => let! ty := get_type T t in Ret (b_slice_ty ty)
  | RUnit => Ret (b_tuple_ty [] 0 align_one)
  end.

(** ** Expressions *)

(** expr.rs:5-10 const_int, const_int_typed *)
Definition b_const_int (ty : Ty) (i : Z) : ValueExpr := EConstant (KInt i) ty.
(** expr.rs:12-14 const_bool *)
Definition b_const_bool (b : bool) : ValueExpr := EConstant (KBool b) TBool.
(** expr.rs:16-23 tuple *)
Definition b_tuple (args : list ValueExpr) (ty : Ty) : Outcome ValueExpr :=
  match ty with
  | TTuple fields _ _ => if (length fields =? length args)%nat then Ret (ETuple args ty) else Panic
  | _ => Panic
  end.
(** expr.rs:25-28 array *)
Definition b_array (args : list ValueExpr) (elem : Ty) : ValueExpr := ETuple args (b_array_ty elem (Z.of_nat (length args))).
(** expr.rs:39-41 unit *)
Definition b_unit : ValueExpr := ETuple [] unit_ty.
(** expr.rs:43-45 null *)
Definition b_null : ValueExpr := EConstant (KPointerWithoutProvenance 0) b_raw_void_ptr_ty.
(** expr.rs:47-49 load *)
Definition b_load (p : PlaceExpr) : ValueExpr := ELoad p.
(** expr.rs:51-57 addr_of *)
Definition b_addr_of (p : PlaceExpr) (ty : Ty) : Outcome ValueExpr :=
  match ty with TPtr pt => Ret (EAddrOf p pt) | _ => Panic end.
(** expr.rs:59-71 neg, bit_not, count_ones *)
Definition b_neg (v : ValueExpr) : ValueExpr := EUnOp (UInt IUNeg) v.
Definition b_bit_not (v : ValueExpr) : ValueExpr := EUnOp (UInt IUBitNot) v.
Definition b_count_ones (v : ValueExpr) : ValueExpr := EUnOp (UInt IUCountOnes) v.
(** expr.rs:73-79 int_cast *)
Definition b_int_cast (ty : Ty) (v : ValueExpr) : Outcome ValueExpr :=
  match ty with TInt it => Ret (EUnOp (UCast (CIntToInt it)) v) | _ => Panic end.
(** expr.rs:114-116 transmute *)
Definition b_transmute (v : ValueExpr) (ty : Ty) : ValueExpr := EUnOp (UCast (CTransmute ty)) v.
(** expr.rs:89-91 ptr_addr *)
Definition b_ptr_addr (T : Target) (v : ValueExpr) : ValueExpr := b_transmute v (b_int_ty Unsigned (PTR_SIZE T)).
(** expr.rs:93-99 ptr_to_ptr *)
Definition b_ptr_to_ptr (v : ValueExpr) (ty : Ty) : Outcome ValueExpr :=
  match ty with TPtr _ => Ret (b_transmute v ty) | _ => Panic end.
(** expr.rs:101-107 bool_to_int *)
Definition b_bool_to_int (ty : Ty) (v : ValueExpr) : Outcome ValueExpr :=
  let int := b_transmute v u8_ty in
  if bool_decide (ty = u8_ty) then Ret int else b_int_cast ty int.
(** expr.rs:101-107 bool_to_int at [u8] *)
Definition b_bool_to_u8 (v : ValueExpr) : ValueExpr := b_transmute v u8_ty.
(** expr.rs:138-189 int_binop and its uses *)
Definition b_int_binop (op : IntBinOp) (l r : ValueExpr) : ValueExpr := EBinOp (BInt op) l r.
(** expr.rs:109-112 not *)
Definition b_not (v : ValueExpr) : ValueExpr :=
  b_transmute (b_int_binop ISub (b_const_int u8_ty 1) (b_bool_to_u8 v)) TBool.
(** expr.rs:240-251 bool_and, bool_or, bool_xor *)
Definition b_bool_and (l r : ValueExpr) : ValueExpr := b_transmute (b_int_binop IBitAnd (b_bool_to_u8 l) (b_bool_to_u8 r)) TBool.
Definition b_bool_or (l r : ValueExpr) : ValueExpr := b_transmute (b_int_binop IBitOr (b_bool_to_u8 l) (b_bool_to_u8 r)) TBool.
Definition b_bool_xor (l r : ValueExpr) : ValueExpr := b_transmute (b_int_binop IBitXor (b_bool_to_u8 l) (b_bool_to_u8 r)) TBool.
(** expr.rs:296-300 global_by_name *)
Definition b_global_by_name (ty : Ty) (n : GlobalName) : PlaceExpr :=
  PDeref (EConstant (KGlobalPointer (mkReloc n 0)) b_raw_void_ptr_ty) ty.
(** expr.rs:334-341 unit_ptr, unit_place *)
Definition b_unit_ptr : ValueExpr := EConstant (KPointerWithoutProvenance 1) b_raw_void_ptr_ty.
Definition b_unit_place : PlaceExpr := PDeref b_unit_ptr unit_ty.
(** function.rs:7-11 fn_ptr *)
Definition b_fn_ptr (f : FnName) : ValueExpr := EConstant (KFnPointer f) (TPtr PFnPtr).

(** ** Terminators *)

(** terminator.rs:324-330 if_ *)
Definition b_if (c : ValueExpr) (then_blk else_blk : BbName) : Terminator := TmSwitch (b_bool_to_u8 c) [(1, then_blk)] else_blk.
(** terminator.rs:351-360 call *)
Definition b_call (f : FnName) (args : list ArgumentExpr) (ret : PlaceExpr) (next : option BbName) : Terminator :=
  TmCall (b_fn_ptr f) CcC args ret next None.
(** terminator.rs:407-423 exit, abort *)
Definition b_exit : Terminator := TmIntrinsic InExit [] b_unit_place None.
Definition b_abort : Terminator := TmIntrinsic InAbort [] b_unit_place None.

(** ** The function builder *)

(** mod.rs:408-418 CurBlock *)
Record CurBlock := mkCur { cb_statements : list Statement; cb_name : BbName; cb_kind : BbKind }.

(** mod.rs:154-168 FunctionBuilder *)
Record FnBuilder := mkFB {
  fb_name : FnName;
  fb_locals : list (LocalName * Ty);
  fb_args : list LocalName;
  fb_blocks : list (BbName * BasicBlock);
  fb_start : BbName;
  fb_ret : option LocalName;
  fb_conv : CallingConvention;
  fb_cur : option CurBlock;
  fb_next_block : N;
  fb_next_local : N;
}.

(** the [FunctionBuilder] with some fields set *)
Definition with_cur (b : FnBuilder) (c : option CurBlock) : FnBuilder :=
  mkFB (fb_name b) (fb_locals b) (fb_args b) (fb_blocks b) (fb_start b) (fb_ret b) (fb_conv b) c (fb_next_block b) (fb_next_local b).
Definition with_blocks (b : FnBuilder) (bs : list (BbName * BasicBlock)) : FnBuilder :=
  mkFB (fb_name b) (fb_locals b) (fb_args b) bs (fb_start b) (fb_ret b) (fb_conv b) (fb_cur b) (fb_next_block b) (fb_next_local b).
Definition with_next_block (b : FnBuilder) (n : N) : FnBuilder :=
  mkFB (fb_name b) (fb_locals b) (fb_args b) (fb_blocks b) (fb_start b) (fb_ret b) (fb_conv b) (fb_cur b) n (fb_next_local b).
Definition with_vars (b : FnBuilder) (ls : list (LocalName * Ty)) (args : list LocalName) (ret : option LocalName) (n : N) : FnBuilder :=
  mkFB (fb_name b) ls args (fb_blocks b) (fb_start b) ret (fb_conv b) (fb_cur b) (fb_next_block b) n.

(** mod.rs:192-196 declare_block *)
Definition declare_block (b : FnBuilder) : BbName * FnBuilder := (fb_next_block b, with_next_block b (fb_next_block b + 1)).

(** mod.rs:198-207 set_cur_block *)
Definition set_cur_block (b : FnBuilder) (n : BbName) (k : BbKind) : Outcome FnBuilder :=
  if map_contains (fb_blocks b) n then Panic
  else match fb_cur b with
       | None => Ret (with_cur b (Some (mkCur [] n k)))
       | Some _ => Panic
       end.

(** mod.rs:209-213 cur_block *)
Definition cur_block (b : FnBuilder) : Outcome CurBlock := unwrap (fb_cur b).

(** mod.rs:171-190 FunctionBuilder::new *)
Definition fb_new (name : FnName) : Outcome FnBuilder :=
  let b := mkFB name [] [] [] 0 None CcRust None 0 0 in
  let '(start, b) := declare_block b in
  let! _ := assert_ (bool_decide (start = fb_start b)) in
  set_cur_block b start BkRegular.

(** mod.rs:242-258 fresh_local_name, declare_local_with_ty; declare_local is the same with a converted type *)
Definition declare_local (b : FnBuilder) (ty : Ty) : Outcome (PlaceExpr * FnBuilder) :=
  let name := fb_next_local b in
  let! ls := try_insert (fb_locals b) name ty in
  Ret (PLocal name, with_vars b ls (fb_args b) (fb_ret b) (name + 1)).
(** mod.rs:260-269 declare_ret *)
Definition declare_ret (b : FnBuilder) (ty : Ty) : Outcome (PlaceExpr * FnBuilder) :=
  match fb_ret b with
  | Some _ => Panic
  | None =>
      let name := fb_next_local b in
      let! ls := try_insert (fb_locals b) name ty in
      Ret (PLocal name, with_vars b ls (fb_args b) (Some name) (name + 1))
  end.
(** mod.rs:271-280 declare_arg, declare_arg_with_ty *)
Definition declare_arg (b : FnBuilder) (ty : Ty) : Outcome (PlaceExpr * FnBuilder) :=
  let name := fb_next_local b in
  let! ls := try_insert (fb_locals b) name ty in
  Ret (PLocal name, with_vars b ls (fb_args b ++ [name]) (fb_ret b) (name + 1)).
(** mod.rs:282-285 set_conv *)
Definition set_conv (b : FnBuilder) (c : CallingConvention) : FnBuilder :=
  mkFB (fb_name b) (fb_locals b) (fb_args b) (fb_blocks b) (fb_start b) (fb_ret b) c (fb_cur b) (fb_next_block b) (fb_next_local b).

(** mod.rs:215-236 finish_function *)
Definition finish_function (b : FnBuilder) : Outcome Function :=
  let! _ := assert_ (match fb_cur b with None => true | Some _ => false end) in
  let! b := match fb_ret b with
            | None => let! '(_, b) := declare_ret b unit_ty in Ret b
            | Some _ => Ret b
            end in
  let! ret := unwrap (fb_ret b) in
  Ret (mkFunction (fb_locals b) (fb_args b) ret (fb_conv b) (fb_blocks b) (fb_start b)).

(** mod.rs:287-336 cleanup_block, terminating_block and catch_block, which differ in the kind only *)
Definition handler_block (k : BbKind) (build : FnBuilder -> Outcome FnBuilder) (b : FnBuilder) : Outcome (BbName * FnBuilder) :=
  let old := fb_cur b in
  let b := with_cur b None in
  let '(n, b) := declare_block b in
  let! b := set_cur_block b n k in
  let! b := build b in
  let! _ := assert_ (match fb_cur b with None => true | Some _ => false end) in
  Ret (n, with_cur b old).
Definition cleanup_block := handler_block BkCleanup.
Definition terminating_block := handler_block BkTerminate.
Definition catch_block := handler_block BkCatch.

(** statement.rs:3-31 assign, place_mention, set_discriminant, validate, storage_live and storage_dead add a statement *)
Definition push_statement (s : Statement) (b : FnBuilder) : Outcome FnBuilder :=
  let! c := cur_block b in
  Ret (with_cur b (Some (mkCur (cb_statements c ++ [s]) (cb_name c) (cb_kind c)))).
(** statement.rs:22-30 storage_live, storage_dead *)
Definition fb_storage_live (l : PlaceExpr) (b : FnBuilder) : Outcome FnBuilder :=
  match l with PLocal n => push_statement (SStorageLive n) b | _ => Panic end.
Definition fb_storage_dead (l : PlaceExpr) (b : FnBuilder) : Outcome FnBuilder :=
  match l with PLocal n => push_statement (SStorageDead n) b | _ => Panic end.

(** terminator.rs:4-9 finish_block *)
Definition finish_block (tm : Terminator) (b : FnBuilder) : Outcome FnBuilder :=
  let! c := unwrap (fb_cur b) in
  let! bs := try_insert (fb_blocks b) (cb_name c) (mkBlock (cb_statements c) tm (cb_kind c)) in
  Ret (with_blocks (with_cur b None) bs).

(** terminator.rs:11-21 finish_with_next_block *)
Definition finish_with_next_block (tm : BbName -> Terminator) (b : FnBuilder) : Outcome FnBuilder :=
  let! c := cur_block b in
  let '(next, b) := declare_block b in
  let! b := finish_block (tm next) b in
  set_cur_block b next (cb_kind c).

(** terminator.rs:25-43 exit, abort, unreachable, return_, resume_unwind *)
Definition fb_exit := finish_block b_exit.
Definition fb_abort := finish_block b_abort.
Definition fb_unreachable := finish_block TmUnreachable.
Definition fb_return := finish_block TmReturn.
Definition fb_resume_unwind := finish_block TmResumeUnwind.
(** terminator.rs:122-124 goto, 230-236 start_unwind, stop_unwind *)
Definition fb_goto (dest : BbName) := finish_block (TmGoto dest).
Definition fb_start_unwind (payload : ValueExpr) (cleanup : BbName) := finish_block (TmStartUnwind payload cleanup).
Definition fb_stop_unwind (next : BbName) := finish_block (TmStopUnwind next).

(** terminator.rs:47-69 handle_call *)
Definition handle_call (ret : PlaceExpr) (f : ValueExpr) (args : list ArgumentExpr) (conv : CallingConvention)
    (next unwind : option BbName) (b : FnBuilder) : Outcome FnBuilder :=
  let! c := cur_block b in
  let! b := finish_block (TmCall f conv args ret next unwind) b in
  match next with
  | Some n => set_cur_block b n (cb_kind c)
  | None => Ret b
  end.
(** terminator.rs:71-118 call_noret, call_nounwind, call_ignoreret, call, call_with_conv *)
Definition call_noret (ret : PlaceExpr) (f : ValueExpr) (args : list ArgumentExpr) (b : FnBuilder) : Outcome FnBuilder :=
  handle_call ret f args CcRust None None b.
Definition call_nounwind (ret : PlaceExpr) (f : ValueExpr) (args : list ArgumentExpr) (b : FnBuilder) : Outcome FnBuilder :=
  let '(next, b) := declare_block b in handle_call ret f args CcRust (Some next) None b.
Definition call_ignoreret (f : ValueExpr) (args : list ArgumentExpr) (b : FnBuilder) : Outcome FnBuilder :=
  let '(next, b) := declare_block b in handle_call b_unit_place f args CcRust (Some next) None b.
Definition call_with_conv (ret : PlaceExpr) (f : ValueExpr) (args : list ArgumentExpr) (conv : CallingConvention) (unwind : BbName)
    (b : FnBuilder) : Outcome FnBuilder :=
  let '(next, b) := declare_block b in handle_call ret f args conv (Some next) (Some unwind) b.
Definition fb_call (ret : PlaceExpr) (f : ValueExpr) (args : list ArgumentExpr) (unwind : BbName) (b : FnBuilder) : Outcome FnBuilder :=
  let '(next, b) := declare_block b in handle_call ret f args CcRust (Some next) (Some unwind) b.

(** terminator.rs:126-228, 238-242 the methods for intrinsics, which finish the block and continue in the next one *)
Definition fb_intrinsic (op : IntrinsicOp) (args : list ValueExpr) (ret : PlaceExpr) : FnBuilder -> Outcome FnBuilder :=
  finish_with_next_block (fun next => TmIntrinsic op args ret (Some next)).
Definition fb_assume (v : ValueExpr) := fb_intrinsic InAssume [v] b_unit_place.
Definition fb_print (v : ValueExpr) := fb_intrinsic InPrintStdout [v] b_unit_place.
Definition fb_eprint (v : ValueExpr) := fb_intrinsic InPrintStderr [v] b_unit_place.
Definition fb_allocate (size align : ValueExpr) (ret : PlaceExpr) := fb_intrinsic InAllocate [size; align] ret.
Definition fb_deallocate (ptr size align : ValueExpr) := fb_intrinsic InDeallocate [ptr; size; align] b_unit_place.
Definition fb_spawn (f : FnName) (data : ValueExpr) (ret : PlaceExpr) := fb_intrinsic InSpawn [b_fn_ptr f; data] ret.
Definition fb_join (thread : ValueExpr) := fb_intrinsic InJoin [thread] b_unit_place.
Definition fb_raw_eq (dest : PlaceExpr) (l r : ValueExpr) := fb_intrinsic InRawEq [l; r] dest.
Definition fb_atomic_store (ptr src : ValueExpr) := fb_intrinsic InAtomicStore [ptr; src] b_unit_place.
Definition fb_atomic_load (dest : PlaceExpr) (ptr : ValueExpr) := fb_intrinsic InAtomicLoad [ptr] dest.
(** terminator.rs:486-509 FetchBinOp is Add or Sub; here any operator may be given *)
Definition fb_atomic_fetch (op : IntBinOp) (dest : PlaceExpr) (ptr other : ValueExpr) := fb_intrinsic (InAtomicFetchAndOp op) [ptr; other] dest.
Definition fb_compare_exchange (dest : PlaceExpr) (ptr current next : ValueExpr) := fb_intrinsic InAtomicCompareExchange [ptr; current; next] dest.
Definition fb_expose_provenance (dest : PlaceExpr) (ptr : ValueExpr) := fb_intrinsic InPointerExposeProvenance [ptr] dest.
Definition fb_with_exposed_provenance (dest : PlaceExpr) (addr : ValueExpr) := fb_intrinsic InPointerWithExposedProvenance [addr] dest.
Definition fb_lock_create (ret : PlaceExpr) := fb_intrinsic (InLock LkCreate) [] ret.
Definition fb_lock_acquire (lock : ValueExpr) := fb_intrinsic (InLock LkAcquire) [lock] b_unit_place.
Definition fb_lock_release (lock : ValueExpr) := fb_intrinsic (InLock LkRelease) [lock] b_unit_place.
Definition fb_get_unwind_payload (ret : PlaceExpr) := fb_intrinsic InGetUnwindPayload [] ret.

(** a closure [Fn(&mut Self)] *)
Notation Builder := (FnBuilder -> Outcome FnBuilder) (only parsing).

(** terminator.rs:270-274 the first loop of switch_int: a new block for each case. [branches] and [branch_map] of the code
    are the two lists of the result. *)
Fixpoint switch_blocks (cases : list (Z * Builder)) (b : FnBuilder) (branches : list (Builder * BbName)) (map : list (Z * BbName)) :
    Outcome (list (Builder * BbName) * list (Z * BbName) * FnBuilder) :=
  match cases with
  | [] => Ret (branches, map, b)
  | (i, f) :: r =>
      let '(n, b) := declare_block b in
      let! map := try_insert map i n in
      switch_blocks r b (branches ++ [(f, n)]) map
  end.

(** terminator.rs:286-294 the body of the second loop: build one branch. The state is the builder and
    [after_switch_block]. *)
Definition switch_branch (k : BbKind) (s : FnBuilder * option BbName) (branch : Builder * BbName) : Outcome (FnBuilder * option BbName) :=
  let '(b, after) := s in
  let! b := set_cur_block b (snd branch) k in
  let! b := fst branch b in
  match fb_cur b with
  | None => Ret (b, after)
  | Some _ =>
      let '(dest, b) := match after with Some n => (n, b) | None => declare_block b end in
      let! b := fb_goto dest b in
      Ret (b, Some dest)
  end.

(** terminator.rs:254-298 switch_int *)
Definition switch_int (v : ValueExpr) (cases : list (Z * Builder)) (fallback : Builder) (b : FnBuilder) : Outcome FnBuilder :=
  let! c := cur_block b in
  let! '(branches, map, b) := switch_blocks cases b [] [] in
  let '(fb_block, b) := declare_block b in
  let! b := finish_block (TmSwitch v map fb_block) b in
  let! '(b, after) := fold_m (switch_branch (cb_kind c)) (branches ++ [(fallback, fb_block)]) (b, None) in
  match after with
  | Some n => set_cur_block b n (cb_kind c)
  | None => Ret b
  end.

(** terminator.rs:246-252 if_ *)
Definition fb_if (c : ValueExpr) (then_ else_ : Builder) (b : FnBuilder) : Outcome FnBuilder :=
  switch_int (b_bool_to_u8 c) [(1, then_)] else_ b.

(** terminator.rs:300-317 while_ *)
Definition fb_while (c : ValueExpr) (body : Builder) (b : FnBuilder) : Outcome FnBuilder :=
  let '(cond, b) := declare_block b in
  let! cur := cur_block b in
  let! b := fb_goto cond b in
  let! b := set_cur_block b cond (cb_kind cur) in
  fb_if c (fun b => let! b := body b in
                    match fb_cur b with Some _ => fb_goto cond b | None => Ret b end)
    (fun b => Ret b) b.

(** ** Functions and programs *)

(** names from 0 on for the elements of a list: [iter().enumerate().map(..).collect()] in function.rs:30-37, 66-73 and
    mod.rs:440-456 *)
Definition numbered {A} (l : list A) : list (N * A) := zip (List.map N.of_nat (seq 0 (length l))) l.

(** function.rs:13-86 Ret and function *)
Definition b_function (has_ret : bool) (num_args : nat) (locals : list Ty) (bbs : list BasicBlock) : Outcome Function :=
  let ls := numbered locals in
  let args := List.map (fun x => N.of_nat (if has_ret then S x else x)) (seq 0 num_args) in
  let! '(ret, ls) :=
    if has_ret then let! _ := assert_ (0 <? length ls)%nat in Ret (0%N, ls)
    else let name := N.of_nat (length ls) in let! ls := try_insert ls name unit_ty in Ret (name, ls) in
  Ret (mkFunction ls args ret CcC (numbered bbs) 0%N).

(** mod.rs:438-470 program_with_globals, program *)
Definition b_program_with_globals (fns : list Function) (globals : list Global) : Program :=
  mkProgram (numbered fns) 0%N (numbered globals) [] [].
Definition b_program (fns : list Function) : Program := b_program_with_globals fns [].

(** mod.rs:472-478 small_program *)
Definition b_small_program (locals : list Ty) (statements : list Statement) : Outcome Program :=
  let! f := b_function false 0 locals [mkBlock statements b_exit BkRegular] in
  Ret (b_program [f]).

(** global.rs:14-27 global_int, global_ptr: memory of the size of the type, all zeros *)
Definition zero_global (T : Target) (ty : Ty) : Outcome Global :=
  let! s := size_of T ty in
  let! a := align_of T ty in
  Ret (mkGlobal (repeat (Some Byte.x00) (N.to_nat s)) [] a).

(** ** The program builder *)

(** mod.rs:43-52 ProgramBuilder *)
Record ProgBuilder := mkPB {
  pb_functions : list (FnName * Function);
  pb_globals : list (GlobalName * Global);
  pb_vtables : list (VTableName * VTable);
  pb_traits : list (TraitName * list TraitMethodName);
  pb_next_fn : N;
  pb_next_global : N;
  pb_next_vtable : N;
  pb_next_trait : N;
}.

(** mod.rs:55-66 ProgramBuilder::new *)
Definition pb_new : ProgBuilder := mkPB [] [] [] [] 0 0 0 0.

(** mod.rs:85-89 declare_function *)
Definition declare_function (p : ProgBuilder) : Outcome (FnBuilder * ProgBuilder) :=
  let name := pb_next_fn p in
  let! b := fb_new name in
  Ret (b, mkPB (pb_functions p) (pb_globals p) (pb_vtables p) (pb_traits p) (name + 1) (pb_next_global p) (pb_next_vtable p) (pb_next_trait p)).

(** mod.rs:91-97 finish_function *)
Definition pb_finish_function (p : ProgBuilder) (b : FnBuilder) : Outcome (FnName * ProgBuilder) :=
  let name := fb_name b in
  let! f := finish_function b in
  let! fs := try_insert (pb_functions p) name f in
  Ret (name, mkPB fs (pb_globals p) (pb_vtables p) (pb_traits p) (pb_next_fn p) (pb_next_global p) (pb_next_vtable p) (pb_next_trait p)).

(** global.rs:3-12 declare_global_zero_initialized *)
Definition declare_global_zero (T : Target) (p : ProgBuilder) (ty : Ty) : Outcome (PlaceExpr * ProgBuilder) :=
  let! g := zero_global T ty in
  let name := pb_next_global p in
  let! gs := try_insert (pb_globals p) name g in
  Ret (b_global_by_name ty name,
       mkPB (pb_functions p) gs (pb_vtables p) (pb_traits p) (pb_next_fn p) (name + 1) (pb_next_vtable p) (pb_next_trait p)).

(** mod.rs:379-406 TraitBuilder *)
Record TraitBuilder := mkTB { tb_name : TraitName; tb_next : N; tb_methods : list TraitMethodName }.
(** mod.rs:139-143 declare_trait *)
Definition declare_trait (p : ProgBuilder) : TraitBuilder * ProgBuilder :=
  (mkTB (pb_next_trait p) 0 [],
   mkPB (pb_functions p) (pb_globals p) (pb_vtables p) (pb_traits p) (pb_next_fn p) (pb_next_global p) (pb_next_vtable p) (pb_next_trait p + 1)).
(** mod.rs:394-400 declare_method *)
Definition declare_method (t : TraitBuilder) : TraitMethodName * TraitBuilder :=
  (tb_next t, mkTB (tb_name t) (tb_next t + 1) 
     (if bool_decide (tb_next t ∈ tb_methods t) then tb_methods t else tb_methods t ++ [tb_next t])).
(** mod.rs:145-151 finish_trait *)
Definition finish_trait (p : ProgBuilder) (t : TraitBuilder) : Outcome (TraitName * ProgBuilder) :=
  let! ts := try_insert (pb_traits p) (tb_name t) (tb_methods t) in
  Ret (tb_name t, mkPB (pb_functions p) (pb_globals p) (pb_vtables p) ts (pb_next_fn p) (pb_next_global p) (pb_next_vtable p) (pb_next_trait p)).

(** mod.rs:339-377 VTableBuilder *)
Record VTableBuilder := mkVB { vb_name : VTableName; vb_vtable : VTable }.
(** mod.rs:113-123 declare_vtable *)
Definition declare_vtable (p : ProgBuilder) (tn : TraitName) (size : Size) (align : Align) (cells : list (Offset * Size))
    : VTableBuilder * ProgBuilder :=
  (mkVB (pb_next_vtable p) (mkVTable tn size align cells []),
   mkPB (pb_functions p) (pb_globals p) (pb_vtables p) (pb_traits p) (pb_next_fn p) (pb_next_global p) (pb_next_vtable p + 1) (pb_next_trait p)).
(** mod.rs:99-111 declare_vtable_for_frozen_ty *)
Definition declare_vtable_for_frozen_ty (T : Target) (p : ProgBuilder) (tn : TraitName) (ty : Ty) : Outcome (VTableBuilder * ProgBuilder) :=
  let! s := size_of T ty in
  let! a := align_of T ty in
  Ret (declare_vtable p tn s a []).
(** mod.rs:363-365 add_method *)
Definition add_method (v : VTableBuilder) (m : TraitMethodName) (f : FnName) : VTableBuilder :=
  let t := vb_vtable v in
  mkVB (vb_name v) (mkVTable (vt_trait t) (vt_size t) (vt_align t) (vt_cells t) (map_insert (vt_methods t) m f)).
(** mod.rs:125-137 finish_vtable. Sets are compared by their elements. *)
Definition finish_vtable (p : ProgBuilder) (v : VTableBuilder) : Outcome (VTableName * ProgBuilder) :=
  let! trait := unwrap (map_get (pb_traits p) (vt_trait (vb_vtable v))) in
  let keys := List.map fst (vt_methods (vb_vtable v)) in
  let! _ := assert_ (forallb (fun x => bool_decide (x ∈ keys)) trait && forallb (fun x => bool_decide (x ∈ trait)) keys) in
  let! vs := try_insert (pb_vtables p) (vb_name v) (vb_vtable v) in
  Ret (vb_name v, mkPB (pb_functions p) (pb_globals p) vs (pb_traits p) (pb_next_fn p) (pb_next_global p) (pb_next_vtable p) (pb_next_trait p)).

(** mod.rs:68-83 finish_program *)
Definition finish_program (p : ProgBuilder) (start : FnName) : Outcome Program :=
  match map_get (pb_functions p) start with
  | None => Panic
  | Some f =>
      let f := mkFunction (fn_locals f) (fn_args f) (fn_ret f) CcC (fn_blocks f) (fn_start f) in
      Ret (mkProgram (map_insert (pb_functions p) start f) start (pb_globals p) (pb_traits p) (pb_vtables p))
  end.
