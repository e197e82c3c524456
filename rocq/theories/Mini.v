(** The translation of Rust programs. Models tooling/minimize/src: function.rs, bb.rs, rvalue.rs, constant.rs, program.rs
    (get_fn_name, mk_start_fn, translate) and vtable.rs (get_vtable).

    The contexts [Ctxt] and [FnCtxt] are records that the functions take and give back. A panic that says that something
    is not supported (span_bug!, todo!, "unsupported") is [Stop (TIllFormed _)]; a failed assertion, [unwrap], index or
    other panic is [Panic]. Spans are left out. The translation between rs and smir (the stable form of MIR) is left
    out. [ty_cache] is left out: [rc_ty] gives the same answer each time. Counting on past the last [u32] panics in the
    code; the numbers are unbounded here. *)
From stdpp Require Export relations.
From Verif Require Export Mir Machine.

(** rs::span_bug! and its like *)
Definition span_bug {A} (msg : string) : Outcome A := Stop (TIllFormed msg).
(** the answer of the compiler, or span_bug! *)
Definition ask {A} (o : option A) : Outcome A := match o with Some a => Ret a | None => span_bug "not supported" end.

(** program.rs:5-29 Ctxt. [ty_cache], [functions] (see [translate_program]) and the traits are left out. The key of a vtable is the
    type and the trait; traits stand for their lists of predicates. *)
Record Cx := mkCx {
  cx_fns : list (Inst * FnName);
  cx_vtable_map : list ((RTy * TraitName) * VTableName);
  cx_vtables : list (VTableName * VTable);
  cx_alloc_map : list (RAlloc * GlobalName);
  cx_globals : list (GlobalName * Global);
}.

(** function.rs:3-31 FnCtxt *)
Record Fcx := mkFcx {
  fx_body : RBody;
  fx_cx : Cx;
  fx_lmap : list (RLocal * LocalName);
  fx_bmap : list (RBb * BbName);
  fx_next_bb : N;
  fx_next_local : N;
  fx_locals : list (LocalName * Ty);
  fx_blocks : list (BbName * BasicBlock);
}.

(** updates of the fields of a context *)
Definition set_cx (s : Fcx) (c : Cx) : Fcx :=
  mkFcx (fx_body s) c (fx_lmap s) (fx_bmap s) (fx_next_bb s) (fx_next_local s) (fx_locals s) (fx_blocks s).
Definition set_blocks (s : Fcx) (bs : list (BbName * BasicBlock)) : Fcx :=
  mkFcx (fx_body s) (fx_cx s) (fx_lmap s) (fx_bmap s) (fx_next_bb s) (fx_next_local s) (fx_locals s) bs.
Definition set_locals (s : Fcx) (ls : list (LocalName * Ty)) : Fcx :=
  mkFcx (fx_body s) (fx_cx s) (fx_lmap s) (fx_bmap s) (fx_next_bb s) (fx_next_local s) ls (fx_blocks s).

(** function.rs:46-74 FnCtxt::new, with the body of the function given *)
Definition fcx_new (c : Cx) (b : RBody) : Fcx := mkFcx b c [] [] 0 0 [] [].

(** function.rs:76-80 fresh_bb_name, function.rs:82-86 fresh_local_name *)
Definition fresh_bb (s : Fcx) : BbName * Fcx :=
  (fx_next_bb s, mkFcx (fx_body s) (fx_cx s) (fx_lmap s) (fx_bmap s) (fx_next_bb s + 1) (fx_next_local s) (fx_locals s) (fx_blocks s)).
Definition fresh_local (s : Fcx) : LocalName * Fcx :=
  (fx_next_local s, mkFcx (fx_body s) (fx_cx s) (fx_lmap s) (fx_bmap s) (fx_next_bb s) (fx_next_local s + 1) (fx_locals s) (fx_blocks s)).

(** [self.local_name_map[&l]], [self.bb_name_map[&b]]: panics if there is no such key *)
Definition local_name (s : Fcx) (l : RLocal) : Outcome LocalName := unwrap (map_get (fx_lmap s) l).
Definition bb_name (s : Fcx) (b : RBb) : Outcome BbName := unwrap (map_get (fx_bmap s) b).
(** [target.as_ref().map(|t| self.bb_name_map[t])] *)
Definition opt_bb_name (s : Fcx) (b : option RBb) : Outcome (option BbName) :=
  match b with None => Ret None | Some b => let! n := bb_name s b in Ret (Some n) end.

(** program.rs:122-128 get_fn_name *)
Definition get_fn_name (c : Cx) (f : Inst) : FnName * Cx :=
  match map_get (cx_fns c) f with
  | Some n => (n, c)
  | None => let n := N.of_nat (length (cx_fns c)) in
            (n, mkCx (map_insert (cx_fns c) f n) (cx_vtable_map c) (cx_vtables c) (cx_alloc_map c) (cx_globals c))
  end.

(** enums.rs:246-254 int_from_bits: [Size::truncate] for unsigned and [Size::sign_extend] for signed types. The size of an
    integer type is at most 16 bytes, so that [try_to_u8] does not panic. *)
Definition int_from_bits (bits : Z) (it : IntType) : Z :=
  let m := 2 ^ (8 * Z.of_N (it_size it)) in
  let t := bits mod m in
  match it_signed it with
  | Unsigned => t
  | Signed => if 2 * t <? m then t else t - m
  end.

(** enums.rs:227-243 discriminant_for_variant *)
Definition discriminant_for_variant (R : Rustc) (ty : RTy) (v : nat) : Outcome Z :=
  let! ' (bits, it) := ask (rc_discr R ty v) in
  Ret (int_from_bits bits it).

(** ** Types of places and operands: [place.ty(&self.locals_smir).unwrap()], [operand.ty(..).unwrap()] *)

(** smir::ProjectionElem::ty *)
Definition proj_ty (R : Rustc) (ty : RTy) (p : Proj) : Outcome RTy :=
  match p with
  | PjField _ ty' => Ret ty'
  | PjDeref => unwrap (rc_deref R ty)
  | PjIndex _ => unwrap (rc_elem R ty)
  | PjDowncast _ => Ret ty
  | PjOther => span_bug "place projection"
  end.
(** smir::Place::ty *)
Definition place_rty (R : Rustc) (s : Fcx) (p : RPlace) : Outcome RTy :=
  let! ty := unwrap (ro_locals (fx_body s) !! rp_local p) in
  fold_m (proj_ty R) (rp_proj p) ty.
(** the type of a constant *)
Definition cval_ty (c : CVal) : RTy :=
  match c with CvScalar ty _ | CvBool ty _ | CvPtr ty _ _ _ | CvFields ty _ | CvVariant ty _ _ | CvOther ty => ty end.
(** smir::Operand::ty *)
Definition operand_rty (R : Rustc) (s : Fcx) (o : ROperand) : Outcome RTy :=
  match o with
  | OpConst c => Ret (cval_ty c)
  | OpCopy p | OpMove p => place_rty R s p
  | OpRuntime _ => Ret (rc_bool R)
  end.

(** ** Places *)

(** rvalue.rs:400-447 translate_place_smir: one projection. A place and its type become the projected place and its type. *)
Definition translate_proj (R : Rustc) (s : Fcx) (pt : PlaceExpr * RTy) (p : Proj) : Outcome (PlaceExpr * RTy) :=
  let '(e, ty) := pt in
  let! this := proj_ty R ty p in
  match p with
  | PjField f _ => Ret (PField e (Z.of_nat f), this)
  | PjDeref => let! t := ask (rc_ty R this) in Ret (PDeref (ELoad e) t, this)
  | PjIndex l => let! n := local_name s l in Ret (PIndex e (ELoad (PLocal n)), this)
  | PjDowncast v => let! d := discriminant_for_variant R this v in Ret (PDowncast e d, this)
  | PjOther => span_bug "Place Projection not supported"
  end.
(** rvalue.rs:396-447 translate_place *)
Definition translate_place (R : Rustc) (s : Fcx) (p : RPlace) : Outcome PlaceExpr :=
  let! n := local_name s (rp_local p) in
  let! ty := unwrap (ro_locals (fx_body s) !! rp_local p) in
  let! ' (e, _) := fold_m (translate_proj R s) (rp_proj p) (PLocal n, ty) in
  Ret e.

(** ** Constants *)

(** constant.rs:195-207 fresh_global_name: the number of globals so far; adds a default global *)
Definition fresh_global_name (c : Cx) : GlobalName * Cx :=
  let n := N.of_nat (length (cx_globals c)) in
  (n, mkCx (cx_fns c) (cx_vtable_map c) (cx_vtables c) (cx_alloc_map c) (map_insert (cx_globals c) n (mkGlobal [] [] align_one))).

(** constant.rs:175-181 the offset that the bytes of a pointer hold *)
Definition inner_offset (T : Target) (bytes : list (option byte)) (start : Offset) : Outcome N :=
  let! bs := subslice bytes start (PTR_SIZE T) in
  let! bs := map_m unwrap bs in
  Ret (Z.to_N (endian_decode (ENDIANNESS T) Unsigned bs)).

(** constant.rs:124-150 translate_relocation, translate_alloc_id and constant.rs:153-193 translate_const_allocation. They call
    each other along the pointers of an allocation; [fuel] bounds the depth, see [alloc_fine] for how
    much suffices. *)
Fixpoint translate_alloc_id (fuel : nat) (R : Rustc) (T : Target) (c : Cx) (a : RAlloc) : Outcome (GlobalName * Cx) :=
  match map_get (cx_alloc_map c) a with
  | Some n => Ret (n, c)
  | None =>
      match fuel with
      | O => NoBehavior
      | S fuel =>
          let '(n, c) := fresh_global_name c in
          let c := mkCx (cx_fns c) (cx_vtable_map c) (cx_vtables c) (map_insert (cx_alloc_map c) a n) (cx_globals c) in
          let! d := ask (rc_alloc R a) in
          let! ' (rels, c) := map_st (fun c (p : Offset * RAlloc) =>
            let! off := inner_offset T (ra_bytes d) (fst p) in
            let! ' (m, c) := translate_alloc_id fuel R T c (snd p) in
            Ret ((fst p, mkReloc m off), c)) (ra_ptrs d) c in
          let g := mkGlobal (ra_bytes d) rels (ra_align d) in
          Ret (n, mkCx (cx_fns c) (cx_vtable_map c) (cx_vtables c) (cx_alloc_map c) (map_insert (cx_globals c) n g))
      end
  end.

(** build/expr.rs:126-136 construct_wide_pointer *)
Definition b_construct_wide_pointer (p meta : ValueExpr) (ty : Ty) : Outcome ValueExpr :=
  match ty with TPtr pt => Ret (EBinOp (BConstructWidePointer pt) p meta) | _ => Panic end.
(** build/expr.rs:118-124 get_thin_pointer, get_metadata *)
Definition b_get_thin_pointer (v : ValueExpr) : ValueExpr := EUnOp UGetThinPointer v.
Definition b_get_metadata (v : ValueExpr) : ValueExpr := EUnOp UGetMetadata v.
(** build/expr.rs:258-264 ptr_offset *)
Definition b_ptr_offset (l r : ValueExpr) (inbounds : bool) : ValueExpr := EBinOp (BPtrOffset inbounds) l r.
(** build/expr.rs:209-238 rel_op and its uses *)
Definition b_rel (op : RelOp) (l r : ValueExpr) : ValueExpr := EBinOp (BRel op) l r.
(** build/expr.rs:306-315 const_vtable, vtable_method_lookup *)
Definition b_const_vtable (v : VTableName) (tn : TraitName) : ValueExpr := EConstant (KVTablePointer v) (TPtr (PVTablePtr tn)).
Definition b_vtable_method_lookup (v : ValueExpr) (m : TraitMethodName) : ValueExpr := EUnOp (UVTableMethodLookup m) v.
(** build/ty_conv.rs:55-56 usize, isize *)
Definition b_usize_ty (T : Target) : Ty := b_int_ty Unsigned (PTR_SIZE T).
Definition b_isize_ty (T : Target) : Ty := b_int_ty Signed (PTR_SIZE T).
(** IntType::I32 *)
Definition b_i32_ty : Ty := b_int_ty Signed 4.

(** constant.rs:19-121 translate_const_val. [fuel] is for translate_alloc_id. The code reads as many fields of a tuple as its
    type has; here the value must have that many. *)
Fixpoint translate_const_val (fuel : nat) (R : Rustc) (T : Target) (c : Cx) (v : CVal) : Outcome (ValueExpr * Cx) :=
  let! ty := ask (rc_ty R (cval_ty v)) in
  match ty, v with
  | TInt it, CvScalar _ bits => Ret (EConstant (KInt (int_from_bits bits it)) ty, c)
  | TBool, CvBool _ b => Ret (EConstant (KBool b) ty, c)
  | TPtr pt, CvPtr _ prov offset meta =>
      let! _ := match pt with PFnPtr => span_bug "Function pointers are currently not supported" | _ => Ret tt end in
      let! meta := match ptr_meta_kind pt with
                   | MKNone => Ret None
                   | MKElementCount => let! n := unwrap meta in Ret (Some (b_const_int (b_int_ty Unsigned 8) (Z.of_N n)))
                   | MKVTablePointer _ => span_bug "Constant trait object pointers are currently not supported"
                   end in
      let! ' (k, c) := match prov with
                       | None => Ret (KPointerWithoutProvenance (Z.of_N offset), c)
                       | Some a => let! ' (n, c) := translate_alloc_id fuel R T c a in Ret (KGlobalPointer (mkReloc n offset), c)
                       end in
      match meta with
      | None => Ret (EConstant k ty, c)
      | Some m => let! e := b_construct_wide_pointer (EConstant k b_raw_void_ptr_ty) m ty in Ret (e, c)
      end
  | TTuple fields _ u, CvFields _ vs =>
      let! _ := assert_ (match u with None => true | Some _ => false end) in
      let! _ := assert_ (length fields =? length vs)%nat in
      let! ' (es, c) := map_st (translate_const_val fuel R T) vs c in
      Ret (ETuple es ty, c)
  | TEnum variants dty _ _ _, CvVariant rty idx vs =>
      let! ' (es, c) := map_st (translate_const_val fuel R T) vs c in
      let! ' (bits, _) := ask (rc_discr R rty idx) in
      let d := int_from_bits bits dty in
      let! vt := unwrap (map_get variants d) in
      Ret (EVariant d (ETuple es (fst vt)) ty, c)
  | TArray _ _, CvFields _ vs =>
      let! ' (es, c) := map_st (translate_const_val fuel R T) vs c in
      Ret (ETuple es ty, c)
  | TUnion _ _ _ _, _ => span_bug "Constant Unions are currently not supported!"
  | TSlice _, _ | TTraitObject _, _ => span_bug "constant unsized values do not exist!"
  | _, _ => Panic
  end.

(** ** Operands *)

(** rvalue.rs:371-394 translate_operand; constant.rs:4-17 translate_const *)
Definition translate_operand (fuel : nat) (R : Rustc) (T : Target) (s : Fcx) (o : ROperand) : Outcome (ValueExpr * Fcx) :=
  match o with
  | OpConst v => let! ' (e, c) := translate_const_val fuel R T (fx_cx s) v in Ret (e, set_cx s c)
  | OpCopy p | OpMove p => let! e := translate_place R s p in Ret (ELoad e, s)
  | OpRuntime c => Ret (b_const_bool (rc_checks R c), s)
  end.

(** ** Vtables *)

(** rustc's COMMON_VTABLE_ENTRIES_DROPINPLACE *)
Definition DROP_IN_PLACE : TraitMethodName := 0%N.

(** [i] counted up along a list: [enumerate()] *)
Definition enumerate {A} (l : list A) : list (nat * A) := zip (seq 0 (length l)) l.

(** vtable.rs:60-80 the methods of a vtable by their index, with the functions that get names. The code collects them in a map; the
    indices differ, since the drop glue is entry 0. *)
Definition vtable_methods (es : list VEntry) : list (TraitMethodName * Inst) :=
  omap (fun ie : nat * VEntry => match snd ie with
                                 | VeMethod f => Some (N.of_nat (fst ie), f)
                                 | VeDrop f => Some (DROP_IN_PLACE, f)
                                 | VeOther => None
                                 end) (enumerate es).

(** vtable.rs:5-88 get_vtable and generate_vtable. The functions of the methods get their names in order. *)
Definition get_vtable (R : Rustc) (c : Cx) (ty : RTy) (tn : TraitName) : Outcome (VTableName * Cx) :=
  match map_get (cx_vtable_map c) (ty, tn) with
  | Some n => let! _ := assert_ (map_contains (cx_vtables c) n) in Ret (n, c)
  | None =>
      let n := N.of_nat (length (cx_vtable_map c)) in
      let! ' (size, al, cells, entries) := ask (rc_vtable R ty tn) in
      let! ' (ms, c) := map_st (fun c (m : TraitMethodName * Inst) => let '(f, c) := get_fn_name c (snd m) in Ret ((fst m, f), c))
                          (vtable_methods entries) c in
      let vt := mkVTable tn size al cells ms in
      Ret (n, mkCx (cx_fns c) (map_insert (cx_vtable_map c) (ty, tn) n) (map_insert (cx_vtables c) n vt) (cx_alloc_map c) (cx_globals c))
  end.

(** vtable.rs:108-143 generate_trait: the methods of a trait are numbered by their slots *)
Definition generate_trait (principal : option (N * nat)) : list TraitMethodName :=
  match principal with
  | None => []
  | Some (base, own) => DROP_IN_PLACE :: List.map (fun i => (base + N.of_nat i)%N) (seq 0 own)
  end.
(** the traits of the program *)
Definition traits_of (R : Rustc) : list (TraitName * list TraitMethodName) :=
  List.map (fun t => (fst t, generate_trait (snd t))) (rc_traits R).

(** ** Rvalues *)

(** rvalue.rs:22-77 the binary operators by operator and type of the left operand *)
Definition translate_binop (R : Rustc) (op : RBinOp) (lty rty : Ty) (pointee : option Size) (l r : ValueExpr) : Outcome ValueExpr :=
  match op, lty with
  | RoOffset, TPtr (PRaw _) =>
      let! size := unwrap pointee in
      Ret (b_ptr_offset l (b_int_binop IMulUnchecked r (EConstant (KInt (Z.of_N size)) rty)) true)
  | RoOffset, TPtr _ => Panic
  | RoAdd, TInt _ => Ret (b_int_binop IAdd l r)
  | RoSub, TInt _ => Ret (b_int_binop ISub l r)
  | RoMul, TInt _ => Ret (b_int_binop IMul l r)
  | RoDiv, TInt _ => Ret (b_int_binop IDiv l r)
  | RoRem, TInt _ => Ret (b_int_binop IRem l r)
  | RoShl, TInt _ => Ret (b_int_binop IShl l r)
  | RoShr, TInt _ => Ret (b_int_binop IShr l r)
  | RoBitAnd, TInt _ => Ret (b_int_binop IBitAnd l r)
  | RoBitOr, TInt _ => Ret (b_int_binop IBitOr l r)
  | RoBitXor, TInt _ => Ret (b_int_binop IBitXor l r)
  | RoAddUnchecked, TInt _ => Ret (b_int_binop IAddUnchecked l r)
  | RoSubUnchecked, TInt _ => Ret (b_int_binop ISubUnchecked l r)
  | RoMulUnchecked, TInt _ => Ret (b_int_binop IMulUnchecked l r)
  | RoShlUnchecked, TInt _ => Ret (b_int_binop IShlUnchecked l r)
  | RoShrUnchecked, TInt _ => Ret (b_int_binop IShrUnchecked l r)
  | RoLt, _ => Ret (b_rel RLt l r)
  | RoLe, _ => Ret (b_rel RLe l r)
  | RoGt, _ => Ret (b_rel RGt l r)
  | RoGe, _ => Ret (b_rel RGe l r)
  | RoEq, _ => Ret (b_rel REq l r)
  | RoNe, _ => Ret (b_rel RNe l r)
  | RoCmp, _ => let! t := ask (rc_ordering R) in Ret (b_transmute (b_rel RCmp l r) t)
  | RoBitAnd, TBool => Ret (b_bool_and l r)
  | RoBitOr, TBool => Ret (b_bool_or l r)
  | RoBitXor, TBool => Ret (b_bool_xor l r)
  | _, _ => span_bug "Binary Op not supported"
  end.

(** rvalue.rs:225-371 casts *)
Definition translate_cast (fuel : nat) (R : Rustc) (T : Target) (s : Fcx) (k : RCast) (o : ROperand) (cast_ty : RTy) : Outcome (ValueExpr * Fcx) :=
  match k with
  | CkIntToInt =>
      let! ot := operand_rty R s o in
      let! oty := ask (rc_ty R ot) in
      let! ' (e, s) := translate_operand fuel R T s o in
      let! ct := ask (rc_ty R cast_ty) in
      match ct with
      | TInt it =>
          match oty with
          | TInt _ => Ret (EUnOp (UCast (CIntToInt it)) e, s)
          | TBool => Ret (EUnOp (UCast (CIntToInt it)) (b_transmute e u8_ty), s)
          | _ => span_bug "Attempting to cast non-int and non-boolean type to int!"
          end
      | _ => span_bug "Attempting to IntToInt-Cast to non-int type!"
      end
  | CkPtrToPtr =>
      let! ot := operand_rty R s o in
      let! oty := ask (rc_ty R ot) in
      let! ct := ask (rc_ty R cast_ty) in
      match oty, ct with
      | TPtr (PRaw old), TPtr (PRaw new) =>
          let! ' (e, s) := translate_operand fuel R T s o in
          if bool_decide (old = new) then Ret (e, s)
          else if bool_decide (new = MKNone) then Ret (b_get_thin_pointer e, s)
          else span_bug "PtrToPtr cast with wide target"
      | _, _ => span_bug "ptr to ptr cast on non-raw-pointer"
      end
  | CkUnsize =>
      let! ot := operand_rty R s o in
      let! old := unwrap (rc_deref R ot) in
      let! new := unwrap (rc_deref R cast_ty) in
      let! ct := ask (rc_ty R cast_ty) in
      match ct with
      | TPtr npt =>
          let! ' (e, s) := translate_operand fuel R T s o in
          match rc_unsize R old new with
          | UsSlice n => Ret (EBinOp (BConstructWidePointer npt) e (b_const_int (b_usize_ty T) (Z.of_N n)), s)
          | UsSame => Ret (e, s)
          | UsDyn =>
              let! tn := ask (rc_dyn R new) in
              let! ' (v, c) := get_vtable R (fx_cx s) old tn in
              Ret (EBinOp (BConstructWidePointer npt) e (b_const_vtable v tn), set_cx s c)
          | UsNo => span_bug "Unsupported unsizing coercion"
          end
      | _ => span_bug "ptr to ptr cast to non-pointer"
      end
  | CkTransmute =>
      let! ' (e, s) := translate_operand fuel R T s o in
      let! ct := ask (rc_ty R cast_ty) in
      Ret (b_transmute e ct, s)
  | CkFnPtr f => let '(n, c) := get_fn_name (fx_cx s) f in Ret (b_fn_ptr n, set_cx s c)
  | CkExpose | CkWithExposed => Panic
  | CkOther => span_bug "cast not supported"
  end.

(** rvalue.rs:4-375 translate_rvalue *)
Definition translate_rvalue (fuel : nat) (R : Rustc) (T : Target) (s : Fcx) (rv : Rvalue) : Outcome (ValueExpr * Fcx) :=
  match rv with
  | RvUse o => translate_operand fuel R T s o
  | RvBinary op l r =>
      let! lr := operand_rty R s l in
      let! lty := ask (rc_ty R lr) in
      let! rr := operand_rty R s r in
      let! rty := ask (rc_ty R rr) in
      let! ' (l, s) := translate_operand fuel R T s l in
      let! ' (r, s) := translate_operand fuel R T s r in
      let pointee := match rc_deref R lr with Some p => rc_size R p | None => None end in
      let! e := translate_binop R op lty rty pointee l r in
      Ret (e, s)
  | RvChecked op l r =>
      let! ' (l, s) := translate_operand fuel R T s l in
      let! ' (r, s) := translate_operand fuel R T s r in
      let! op := match op with
                 | RoAdd => Ret OvAdd
                 | RoSub => Ret OvSub
                 | RoMul => Ret OvMul
                 | _ => span_bug "CheckedBinaryOp not supported."
                 end in
      Ret (EBinOp (BIntWithOverflow op) l r, s)
  | RvUnary op o =>
      let! ot := operand_rty R s o in
      let! ty := ask (rc_ty R ot) in
      let! ' (e, s) := translate_operand fuel R T s o in
      match op, ty with
      | RuNeg, TInt _ => Ret (b_neg e, s)
      | RuNot, TInt _ => Ret (b_bit_not e, s)
      | RuNot, TBool => Ret (b_not e, s)
      | RuPtrMetadata, TPtr _ => Ret (b_get_metadata e, s)
      | _, _ => span_bug "UnOp called with unsupported type"
      end
  | RvRef m p =>
      let! ty := place_rty R s p in
      let! pi := ask (rc_pointee R ty) in
      let! e := translate_place R s p in
      Ret (EAddrOf e (PRef m pi), s)
  | RvAddressOf p =>
      let! ty := place_rty R s p in
      let! e := translate_place R s p in
      let! pi := ask (rc_pointee R ty) in
      Ret (EAddrOf e (PRaw (layout_meta_kind (pi_layout pi))), s)
  | RvAggregate k rty os =>
      let! ty := ask (rc_ty R rty) in
      match ty with
      | TUnion _ _ _ _ =>
          let! f := unwrap (ag_field k) in
          match os with
          | [o] => let! ' (e, s) := translate_operand fuel R T s o in Ret (EUnion (Z.of_nat f) e ty, s)
          | _ => Panic
          end
      | TTuple _ _ _ | TArray _ _ =>
          let! ' (es, s) := map_st (translate_operand fuel R T) os s in
          Ret (ETuple es ty, s)
      | TEnum variants _ _ _ _ =>
          let! v := unwrap (ag_variant k) in
          let! d := discriminant_for_variant R rty v in
          let! ' (es, s) := map_st (translate_operand fuel R T) os s in
          let! vt := unwrap (map_get variants d) in
          Ret (EVariant d (ETuple es (fst vt)) ty, s)
      | TPtr (PRaw _) =>
          match os with
          | [p; m] =>
              let! ' (p, s) := translate_operand fuel R T s p in
              let! ' (m, s) := translate_operand fuel R T s m in
              let! e := b_construct_wide_pointer p m ty in
              Ret (e, s)
          | _ => span_bug "Aggregating a pointer"
          end
      | _ => span_bug "Invalid aggregate type"
      end
  | RvCopyForDeref p => let! e := translate_place R s p in Ret (ELoad e, s)
  | RvLen p =>
      let! rty := place_rty R s p in
      let! ty := ask (rc_ty R rty) in
      match ty with
      | TArray _ n => Ret (EConstant (KInt n) (b_usize_ty T), s)
      | TSlice _ =>
          let! e := translate_place R s p in
          Ret (b_get_metadata (EAddrOf e (PRaw MKElementCount)), s)
      | _ => span_bug "Rvalue::Len only supported for arrays & slices"
      end
  | RvDiscriminant p => let! e := translate_place R s p in Ret (EGetDiscriminant e, s)
  | RvRepeat o n =>
      let! er := operand_rty R s o in
      let! ety := ask (rc_ty R er) in
      let! ' (e, s) := translate_operand fuel R T s o in
      Ret (ETuple (repeat e (N.to_nat n)) (TArray ety (Z.of_N n)), s)
  | RvCast k o ty => translate_cast fuel R T s k o ty
  | RvOther => span_bug "rvalue not supported"
  end.

(** ** Statements *)

(** bb.rs:8-13 StatementResult *)
Inductive StmtResult :=
| SrStatement (st : Statement)
| SrIntrinsic (op : IntrinsicOp) (dest : PlaceExpr) (args : list ValueExpr).

(** bb.rs:69-143 translate_stmt *)
Definition translate_stmt (fuel : nat) (R : Rustc) (T : Target) (s : Fcx) (st : RStmt) : Outcome (StmtResult * Fcx) :=
  match st with
  | MsAssign p rv =>
      let! d := translate_place R s p in
      match rv with
      | RvCast CkExpose o _ =>
          let! ' (e, s) := translate_operand fuel R T s o in
          Ret (SrIntrinsic InPointerExposeProvenance d [e], s)
      | RvCast CkWithExposed o _ =>
          let! ' (e, s) := translate_operand fuel R T s o in
          Ret (SrIntrinsic InPointerWithExposedProvenance d [e], s)
      | _ =>
          let! ' (e, s) := translate_rvalue fuel R T s rv in
          Ret (SrStatement (SAssign d e), s)
      end
  | MsStorageLive l => let! n := local_name s l in Ret (SrStatement (SStorageLive n), s)
  | MsStorageDead l => let! n := local_name s l in Ret (SrStatement (SStorageDead n), s)
  | MsRetag fn_entry p => let! e := translate_place R s p in Ret (SrStatement (SValidate e fn_entry), s)
  | MsSetDiscriminant p v =>
      let! ty := place_rty R s p in
      let! d := discriminant_for_variant R ty v in
      let! e := translate_place R s p in
      Ret (SrStatement (SSetDiscriminant e d), s)
  | MsAssume o =>
      let! ' (e, s) := translate_operand fuel R T s o in
      Ret (SrIntrinsic InAssume b_unit_place [e], s)
  | MsPlaceMention p => let! e := translate_place R s p in Ret (SrStatement (SPlaceMention e), s)
  | MsOther => span_bug "Statement not supported"
  end.

(** ** Terminators *)

(** bb.rs:29 and others: the kind of a block *)
Definition block_kind (cleanup : bool) : BbKind := if cleanup then BkCleanup else BkRegular.

(** [self.blocks.insert(name, block)], with the check that there was no such block (bb.rs:51-52, 65-66, 226) and without *)
Definition add_block (s : Fcx) (n : BbName) (b : BasicBlock) : Outcome Fcx :=
  let! bs := try_insert (fx_blocks s) n b in Ret (set_blocks s bs).
Definition put_block (s : Fcx) (n : BbName) (b : BasicBlock) : Fcx := set_blocks s (map_insert (fx_blocks s) n b).
(** [self.locals.insert(name, ty)] *)
Definition put_local (s : Fcx) (n : LocalName) (ty : Ty) : Fcx := set_locals s (map_insert (fx_locals s) n ty).

(** a new block under a fresh name *)
Definition new_block (s : Fcx) (b : BasicBlock) : BbName * Fcx :=
  let '(n, s) := fresh_bb s in (n, put_block s n b).

(** bb.rs:620-671 translate_unwind_action *)
Definition translate_unwind_action (s : Fcx) (u : RUnwind) (cleanup : bool) : Outcome (BbName * Fcx) :=
  match u with
  | UwContinue =>
      let! _ := assert_ (negb cleanup) in
      Ret (new_block s (mkBlock [] TmResumeUnwind BkCleanup))
  | UwUnreachable => Ret (new_block s (mkBlock [] TmUnreachable (if cleanup then BkTerminate else BkCleanup)))
  | UwTerminate => Ret (new_block s (mkBlock [] b_abort (if cleanup then BkTerminate else BkCleanup)))
  | UwCleanup b => let! n := bb_name s b in Ret (n, s)
  end.

(** bb.rs:673-695 translate_panic *)
Definition translate_panic (R : Rustc) (s : Fcx) (u : RUnwind) (cleanup : bool) : Outcome (Terminator * Fcx) :=
  if rc_unwinds R then
    let! ' (n, s) := translate_unwind_action s u cleanup in
    Ret (TmStartUnwind b_unit_ptr n, s)
  else Ret (b_abort, s).

(** a temporary local under a fresh name *)
Definition new_local (s : Fcx) (ty : Ty) : LocalName * Fcx :=
  let '(n, s) := fresh_local s in (n, put_local s n ty).

(** bb.rs:278-450 translate_catch_unwind *)
Definition translate_catch_unwind (s : Fcx) (args : list ValueExpr) (dest : PlaceExpr) (target : BbName) : Outcome (Terminator * Fcx) :=
  let! try_fn := unwrap (args !! 0%nat) in
  let! data := unwrap (args !! 1%nat) in
  let! catch_fn := unwrap (args !! 2%nat) in
  let '(try_bb, s) := fresh_bb s in
  let '(return_bb, s) := fresh_bb s in
  let '(get_payload_bb, s) := fresh_bb s in
  let '(catch_bb, s) := fresh_bb s in
  let '(stop_unwind_bb, s) := fresh_bb s in
  let '(ret_tmp, s) := new_local s b_raw_void_ptr_ty in
  let '(try_fn_tmp, s) := new_local s (TPtr PFnPtr) in
  let '(data_tmp, s) := new_local s b_raw_void_ptr_ty in
  let '(catch_fn_tmp, s) := new_local s (TPtr PFnPtr) in
  let '(payload_tmp, s) := new_local s b_raw_void_ptr_ty in
  let s := put_block s try_bb (mkBlock
    [SStorageLive ret_tmp; SStorageLive try_fn_tmp; SStorageLive data_tmp; SStorageLive catch_fn_tmp;
     SAssign (PLocal ret_tmp) (EAddrOf dest (PRaw MKNone));
     SAssign (PLocal try_fn_tmp) try_fn;
     SAssign (PLocal data_tmp) data;
     SAssign (PLocal catch_fn_tmp) catch_fn]
    (TmCall (ELoad (PLocal try_fn_tmp)) CcRust [ByValue (ELoad (PLocal data_tmp))] b_unit_place (Some return_bb) (Some get_payload_bb))
    BkRegular) in
  let deads := [SStorageDead ret_tmp; SStorageDead try_fn_tmp; SStorageDead data_tmp; SStorageDead catch_fn_tmp] in
  let s := put_block s return_bb (mkBlock
    (SAssign (PDeref (ELoad (PLocal ret_tmp)) b_i32_ty) (b_const_int b_i32_ty 0) :: deads)
    (TmGoto target) BkRegular) in
  let s := put_block s get_payload_bb (mkBlock [SStorageLive payload_tmp]
    (TmIntrinsic InGetUnwindPayload [] (PLocal payload_tmp) (Some catch_bb)) BkCatch) in
  let s := put_block s catch_bb (mkBlock
    [SAssign (PDeref (ELoad (PLocal ret_tmp)) b_i32_ty) (b_const_int b_i32_ty 1)]
    (TmCall (ELoad (PLocal catch_fn_tmp)) CcRust [ByValue (ELoad (PLocal data_tmp)); ByValue (ELoad (PLocal payload_tmp))]
            b_unit_place (Some stop_unwind_bb) None)
    BkCatch) in
  let s := put_block s stop_unwind_bb (mkBlock deads (TmStopUnwind target) BkCatch) in
  Ret (TmGoto try_bb, s).

(** [build::*] an assignment, then [Goto] to the target: the shape of most Rust intrinsics. [target.unwrap()] *)
Definition assign_goto (s : Fcx) (dest : PlaceExpr) (e : ValueExpr) (target : option RBb) : Outcome (list Statement * Terminator * Fcx) :=
  let! t := unwrap target in
  let! n := bb_name s t in
  Ret ([SAssign dest e], TmGoto n, s).

(** the size of the pointee of the first argument: [lty.builtin_deref(true).unwrap()], [assert!(pointee.is_sized())] *)
Definition pointee_size (R : Rustc) (s : Fcx) (o : ROperand) : Outcome Size :=
  let! ty := operand_rty R s o in
  let! p := unwrap (rc_deref R ty) in
  unwrap (rc_size R p).

(** bb.rs:452-612 translate_rs_intrinsic *)
Definition translate_rs_intrinsic (fuel : nat) (R : Rustc) (T : Target) (s : Fcx) (i : RsIntrinsic) (args : list ROperand) (dest : RPlace)
    (target : option RBb) : Outcome (list Statement * Terminator * Fcx) :=
  match i with
  | RiAssert ok =>
      if ok then let! t := unwrap target in let! n := bb_name s t in Ret ([], TmGoto n, s)
      else Ret ([], b_abort, s)
  | RiRawEq =>
      let! ' (es, s) := map_st (translate_operand fuel R T) args s in
      let! d := translate_place R s dest in
      let! n := opt_bb_name s target in
      Ret ([], TmIntrinsic InRawEq es d n, s)
  | RiArithOffset =>
      let! a0 := unwrap (args !! 0%nat) in
      let! a1 := unwrap (args !! 1%nat) in
      let! rr := operand_rty R s a1 in
      let! ' (l, s) := translate_operand fuel R T s a0 in
      let! ' (r, s) := translate_operand fuel R T s a1 in
      let! d := translate_place R s dest in
      let! size := pointee_size R s a0 in
      let! rty := ask (rc_ty R rr) in
      assign_goto s d (b_ptr_offset l (b_int_binop IMulUnchecked r (EConstant (KInt (Z.of_N size)) rty)) false) target
  | RiPtrOffsetFrom unsigned =>
      let! a0 := unwrap (args !! 0%nat) in
      let! a1 := unwrap (args !! 1%nat) in
      let! ' (l, s) := translate_operand fuel R T s a0 in
      let! ' (r, s) := translate_operand fuel R T s a1 in
      let! d := translate_place R s dest in
      let! size := pointee_size R s a0 in
      let e := b_int_binop IDivExact (EBinOp (BPtrOffsetFrom false unsigned) l r) (b_const_int (b_isize_ty T) (Z.of_N size)) in
      let! e := if unsigned then b_int_cast (b_usize_ty T) e else Ret e in
      assign_goto s d e target
  | RiCtpop =>
      let! a0 := unwrap (args !! 0%nat) in
      let! ' (e, s) := translate_operand fuel R T s a0 in
      let! d := translate_place R s dest in
      assign_goto s d (b_count_ones e) target
  | RiExactDiv =>
      let! a0 := unwrap (args !! 0%nat) in
      let! a1 := unwrap (args !! 1%nat) in
      let! ' (l, s) := translate_operand fuel R T s a0 in
      let! ' (r, s) := translate_operand fuel R T s a1 in
      let! d := translate_place R s dest in
      assign_goto s d (b_int_binop IDivExact l r) target
  | RiSizeOfVal rty =>
      let! d := translate_place R s dest in
      let! a0 := unwrap (args !! 0%nat) in
      let! ' (p, s) := translate_operand fuel R T s a0 in
      let! ty := ask (rc_ty R rty) in
      assign_goto s d (EUnOp (UComputeSize ty) (b_get_metadata p)) target
  | RiAlignOfVal rty =>
      let! d := translate_place R s dest in
      let! a0 := unwrap (args !! 0%nat) in
      let! ' (p, s) := translate_operand fuel R T s a0 in
      let! ty := ask (rc_ty R rty) in
      assign_goto s d (EUnOp (UComputeAlign ty) (b_get_metadata p)) target
  | RiColdPath => let! t := unwrap target in let! n := bb_name s t in Ret ([], TmGoto n, s)
  | RiCatchUnwind =>
      let! ' (es, s) := map_st (translate_operand fuel R T) args s in
      let! d := translate_place R s dest in
      let! t := unwrap target in
      let! n := bb_name s t in
      let! ' (tm, s) := translate_catch_unwind s es d n in
      Ret ([], tm, s)
  | RiAbort => Ret ([], b_abort, s)
  | RiOther => span_bug "unsupported Rust intrinsic"
  end.

(** bb.rs:768-788 the intrinsics of MiniRust by name *)
Definition mini_intrinsic (name : string) : option IntrinsicOp :=
  match name with
  | "print"%string => Some InPrintStdout
  | "eprint"%string => Some InPrintStderr
  | "exit"%string => Some InExit
  | "panic"%string => Some InAbort
  | "allocate"%string => Some InAllocate
  | "deallocate"%string => Some InDeallocate
  | "spawn"%string => Some InSpawn
  | "join"%string => Some InJoin
  | "create_lock"%string => Some (InLock LkCreate)
  | "acquire"%string => Some (InLock LkAcquire)
  | "release"%string => Some (InLock LkRelease)
  | "atomic_store"%string => Some InAtomicStore
  | "atomic_load"%string => Some InAtomicLoad
  | "compare_exchange"%string => Some InAtomicCompareExchange
  | "atomic_fetch_add"%string => Some (InAtomicFetchAndOp IAdd)
  | "atomic_fetch_sub"%string => Some (InAtomicFetchAndOp ISub)
  | _ => None
  end.

(** bb.rs:727-735, 834-841, 850-857 an argument: moved places are passed in place *)
Definition translate_arg (fuel : nat) (R : Rustc) (T : Target) (s : Fcx) (o : ROperand) : Outcome (ArgumentExpr * Fcx) :=
  match o with
  | OpMove p => let! e := translate_place R s p in Ret (InPlace e, s)
  | _ => let! ' (e, s) := translate_operand fuel R T s o in Ret (ByValue e, s)
  end.

(** bb.rs:806-860 the arguments of a call. With the "rust-call" ABI the fields of the last argument, a tuple, are passed. *)
Definition translate_args (fuel : nat) (R : Rustc) (T : Target) (s : Fcx) (spread : bool) (args : list ROperand)
    : Outcome (list ArgumentExpr * Fcx) :=
  match spread, List.rev args with
  | true, last :: others =>
      match last with
      | OpMove p | OpCopy p =>
          let! ty := place_rty R s p in
          let! tys := unwrap (rc_fields R ty) in
          let! fields := map_m (fun f : nat * RTy =>
            let! e := translate_place R s (mkRPlace (rp_local p) (rp_proj p ++ [PjField (fst f) (snd f)])) in
            Ret (InPlace e)) (enumerate tys) in
          let! ' (es, s) := map_st (translate_arg fuel R T) (List.rev others) s in
          Ret (es ++ fields, s)
      | _ => Panic
      end
  | _, _ => map_st (translate_arg fuel R T) args s
  end.

(** bb.rs:697-885 translate_call *)
Definition translate_call (fuel : nat) (R : Rustc) (T : Target) (s : Fcx) (f : RCallee) (args : list ROperand) (dest : RPlace)
    (target : option RBb) (u : RUnwind) (cleanup : bool) : Outcome (list Statement * Terminator * Fcx) :=
  match f with
  | CePtr f conv =>
      let! ' (e, s) := translate_operand fuel R T s f in
      let! conv := ask conv in
      let! ' (es, s) := map_st (translate_arg fuel R T) args s in
      let! ' (ub, s) := translate_unwind_action s u cleanup in
      let! d := translate_place R s dest in
      let! n := opt_bb_name s target in
      Ret ([], TmCall e conv es d n (Some ub), s)
  | CeIntrinsic i => translate_rs_intrinsic fuel R T s i args dest target
  | CeMini name =>
      let! op := ask (mini_intrinsic name) in
      let! ' (es, s) := map_st (translate_operand fuel R T) args s in
      let! d := translate_place R s dest in
      let! n := opt_bb_name s target in
      Ret ([], TmIntrinsic op es d n, s)
  | CePanic => let! ' (tm, s) := translate_panic R s u cleanup in Ret ([], tm, s)
  | CeForeign => span_bug "cannot call foreign function"
  | CeFn conv spread f =>
      let! conv := ask conv in
      let! ' (es, s) := translate_args fuel R T s spread args in
      let! ' (ub, s) := translate_unwind_action s u cleanup in
      let '(fn, c) := get_fn_name (fx_cx s) f in
      let s := set_cx s c in
      let! d := translate_place R s dest in
      let! n := opt_bb_name s target in
      Ret ([], TmCall (b_fn_ptr fn) conv es d n (Some ub), s)
  | CeVirtual conv spread method =>
      let! conv := ask conv in
      let! ' (es, s) := translate_args fuel R T s spread args in
      let! ' (ub, s) := translate_unwind_action s u cleanup in
      let! a0 := unwrap (args !! 0%nat) in
      let! ' (recv, s) := translate_operand fuel R T s a0 in
      let! es := match es with _ :: r => Ret (ByValue (b_get_thin_pointer recv) :: r) | [] => Panic end in
      let! d := translate_place R s dest in
      let! n := opt_bb_name s target in
      Ret ([], TmCall (b_vtable_method_lookup (b_get_metadata recv) method) conv es d n (Some ub), s)
  end.

(** bb.rs:145-276 translate_terminator. A switch on a boolean goes through [u8]. *)
Definition translate_terminator (fuel : nat) (R : Rustc) (T : Target) (s : Fcx) (tm : RTerm) (cleanup : bool)
    : Outcome (list Statement * Terminator * Fcx) :=
  match tm with
  | MtReturn => Ret ([], TmReturn, s)
  | MtGoto b => let! n := bb_name s b in Ret ([], TmGoto n, s)
  | MtCall f args dest target u => translate_call fuel R T s f args dest target u cleanup
  | MtSwitch o targets otherwise =>
      let! rty := operand_rty R s o in
      let! ty := ask (rc_ty R rty) in
      let! ' (e, s) := translate_operand fuel R T s o in
      let! ' (v, it) := match ty with
                        | TBool => Ret (b_transmute e u8_ty, mkIntTy Unsigned 1)
                        | TInt it => Ret (e, it)
                        | _ => span_bug "SwitchInt terminator currently only supports int and bool."
                        end in
      let! cases := fold_m (fun acc (c : Z * RBb) =>
        let! n := bb_name s (snd c) in
        Ret (map_insert acc (int_from_bits (fst c) it) n)) targets [] in
      let! fb := bb_name s otherwise in
      Ret ([], TmSwitch v cases fb, s)
  | MtUnreachable => Ret ([], TmUnreachable, s)
  | MtAssert cond expected target u =>
      let! ' (c, s) := translate_operand fuel R T s cond in
      let c := if expected then c else b_not c in
      let! ' (tm, s) := translate_panic R s u cleanup in
      let '(n, s) := fresh_bb s in
      let! s := add_block s n (mkBlock [] tm (block_kind cleanup)) in
      let! t := bb_name s target in
      let! e := b_bool_to_int u8_ty c in
      Ret ([], TmSwitch e [(1, t)] n, s)
  | MtDrop p drop target _ =>
      let! rty := place_rty R s p in
      let! e := translate_place R s p in
      let! ' (callee, ptr, s) :=
        match rc_dyn R rty with
        | Some tn =>
            let ptr := EAddrOf e (PRaw (MKVTablePointer tn)) in
            Ret (b_vtable_method_lookup (b_get_metadata ptr) DROP_IN_PLACE, b_get_thin_pointer ptr, s)
        | None =>
            let '(fn, c) := get_fn_name (fx_cx s) drop in
            Ret (b_fn_ptr fn, EAddrOf e (PRaw MKNone), set_cx s c)
        end in
      let! n := bb_name s target in
      Ret ([], TmCall callee CcRust [ByValue ptr] b_unit_place (Some n) None, s)
  | MtResume => Ret ([], TmResumeUnwind, s)
  | MtOther => span_bug "Terminator not supported"
  end.

(** ** Blocks *)

(** bb.rs:32-57 the loop over the statements of a block: an intrinsic ends the current block and starts the next *)
Fixpoint translate_stmts (fuel : nat) (R : Rustc) (T : Target) (s : Fcx) (k : BbKind) (sts : list RStmt) (cur : BbName) (acc : list Statement)
    : Outcome (BbName * list Statement * Fcx) :=
  match sts with
  | [] => Ret (cur, acc, s)
  | st :: sts =>
      let! ' (r, s) := translate_stmt fuel R T s st in
      match r with
      | SrStatement st => translate_stmts fuel R T s k sts cur (acc ++ [st])
      | SrIntrinsic op dest args =>
          let '(next, s) := fresh_bb s in
          let! s := add_block s cur (mkBlock acc (TmIntrinsic op args dest (Some next)) k) in
          translate_stmts fuel R T s k sts next []
      end
  end.

(** bb.rs:25-67 translate_bb *)
Definition translate_bb (fuel : nat) (R : Rustc) (T : Target) (s : Fcx) (name : BbName) (b : RBlock) : Outcome Fcx :=
  let k := block_kind (rb_cleanup b) in
  let! ' (cur, acc, s) := translate_stmts fuel R T s k (rb_stmts b) name [] in
  let! ' (sts, tm, s) := translate_terminator fuel R T s (rb_term b) (rb_cleanup b) in
  add_block s cur (mkBlock (acc ++ sts) tm k).

(** ** Functions *)

(** function.rs:92-100 names for the blocks and the locals of the body *)
Definition name_bbs (s : Fcx) : Fcx :=
  List.fold_left (fun s b =>
    let '(n, s) := fresh_bb s in
    mkFcx (fx_body s) (fx_cx s) (fx_lmap s) (map_insert (fx_bmap s) b n) (fx_next_bb s) (fx_next_local s) (fx_locals s) (fx_blocks s))
    (seq 0 (length (ro_blocks (fx_body s)))) s.
Definition name_locals (s : Fcx) : Fcx :=
  List.fold_left (fun s l =>
    let '(n, s) := fresh_local s in
    mkFcx (fx_body s) (fx_cx s) (map_insert (fx_lmap s) l n) (fx_bmap s) (fx_next_bb s) (fx_next_local s) (fx_locals s) (fx_blocks s))
    (seq 0 (length (ro_locals (fx_body s)))) s.

(** function.rs:103-108 the types of the locals. The order of a HashMap does not matter here. *)
Definition type_locals (R : Rustc) (s : Fcx) : Outcome Fcx :=
  fold_m (fun s (ln : RLocal * LocalName) =>
    let! rty := unwrap (ro_locals (fx_body s) !! fst ln) in
    let! ty := ask (rc_ty R rty) in
    Ret (put_local s (snd ln) ty)) (fx_lmap s) s.

(** function.rs:116-156 one argument: its name, or the names of the fresh locals that receive the fields of the spread
    argument, with the statements that put them together *)
Definition translate_param (R : Rustc) (st : Fcx * list LocalName * list Statement) (i : RLocal)
    : Outcome (Fcx * list LocalName * list Statement) :=
  let '(s, args, init) := st in
  if bool_decide (ro_spread (fx_body s) = Some i) then
    let! n := local_name s i in
    let! rty := unwrap (ro_locals (fx_body s) !! i) in
    let! tys := unwrap (rc_fields R rty) in
    fold_m (fun st (f : nat * RTy) =>
      let '(s, args, init) := st in
      let '(tmp, s) := fresh_local s in
      let! ty := ask (rc_ty R (snd f)) in
      let s := put_local s tmp ty in
      Ret (s, args ++ [tmp], init ++ [SAssign (PField (PLocal n) (Z.of_nat (fst f))) (ELoad (PLocal tmp))]))
      (enumerate tys) (s, args, init ++ [SStorageLive n])
  else Ret (s, args ++ [N.of_nat i], init).

(** function.rs:90-203 translate. The blocks are translated in the order of a HashMap, which may be any: [order] lists them. *)
Definition translate_body (fuel : nat) (R : Rustc) (T : Target) (c : Cx) (order : list RBb) (b : RBody) : Outcome (Function * Cx) :=
  let s := name_locals (name_bbs (fcx_new c b)) in
  let! s := type_locals R s in
  let! ' (s, args, init) := fold_m (translate_param R) (seq 1 (ro_args b)) (s, [], []) in
  let '(init_bb, s) := fresh_bb s in
  let! lives := map_m (local_name s) (ro_always_live b) in
  let lives := List.filter (fun l => (N.of_nat (ro_args b) + 1 <=? l)%N) lives in
  let! start := bb_name s 0%nat in
  let s := put_block s init_bb (mkBlock (init ++ List.map SStorageLive lives) (TmGoto start) BkRegular) in
  let! s := fold_m (fun s i =>
    let! n := bb_name s i in
    let! blk := unwrap (ro_blocks b !! i) in
    translate_bb fuel R T s n blk) order s in
  let! conv := ask (ro_conv b) in
  Ret (mkFunction (fx_locals s) args 0%N conv (fx_blocks s) init_bb, fx_cx s).

(** ** Programs *)

(** program.rs:170-239 mk_start_fn *)
Definition mk_start_fn (entry : FnName) : Function :=
  mkFunction [(0%N, unit_ty)] [] 0%N CcC
    [(0%N, mkBlock [] (TmCall (b_fn_ptr entry) CcRust [] b_unit_place (Some 1%N) (Some 2%N)) BkRegular);
     (1%N, mkBlock [] (TmIntrinsic InExit [] b_unit_place None) BkRegular);
     (2%N, mkBlock [] b_abort BkCatch)]
    0%N.

(** program.rs:29-72 Ctxt::new and program.rs:80-85: at first only the entry function has a name. The checks of the target
    against the compiler's are left out. *)
Definition cx_init (entry : Inst) : Cx := mkCx [(entry, 0%N)] [] [] [] [].

(** program.rs:87-106 one round of the loop: any function that has a name and is not translated yet. The blocks of its body may
    come in any order. *)
Inductive mono (fuel : nat) (R : Rustc) (T : Target) : Cx * list (FnName * Function) -> Cx * list (FnName * Function) -> Prop :=
| mono_fn c fns i n b order f c' :
    map_get (cx_fns c) i = Some n -> map_get fns n = None -> rc_body R i = Some b ->
    order ≡ₚ seq 0 (length (ro_blocks b)) ->
    translate_body fuel R T c order b = Ret (f, c') ->
    mono fuel R T (c, fns) (c', map_insert fns n f).

(** program.rs:78-121 translate, when it ends: nothing is left to translate, and the start function is added *)
Definition translated (fuel : nat) (R : Rustc) (T : Target) (entry : Inst) (P : Program) : Prop :=
  exists c fns, rtc (mono fuel R T) (cx_init entry, []) (c, fns) /\
    (forall i n, map_get (cx_fns c) i = Some n -> is_Some (map_get fns n)) /\
    let start := N.of_nat (length (cx_fns c)) in
    P = mkProgram (map_insert fns start (mk_start_fn 0)) start (cx_globals c) (traits_of R) (cx_vtables c).
