(** Well-formedness of expressions, statements, terminators, functions and programs.
    Models spec/lang/well-formed.md:288-935. *)
From Verif Require Export Syntax WfTypes Repr.

Section WfProg.
  Variable T : Target.
  Variable prog : Program.

  (** prog.traits.contains_key *)
  Definition has_trait (tn : TraitName) : bool := map_contains (pr_traits prog) tn.

  (** well-formed.md:877-890 Relocation::check_wf *)
  Definition reloc_check_wf (r : Relocation) : Outcome unit :=
    match map_get (pr_globals prog) (r_name r) with
    | None => throw_ill_formed "Relocation: invalid global name"
    | Some global =>
        ensure_wf (r_offset r <=? N.of_nat (length (g_bytes global)))%N
          "Relocation: offset out-of-bounds"
    end.

  (** well-formed.md:291-327 Constant::check_wf *)
  Definition constant_check_wf (c : Constant) (ty : Ty) : Outcome unit :=
    match c, ty with
    | KInt i, TInt it => ensure_wf (can_represent it i) "Constant::Int: invalid int value"
    | KBool _, TBool => Ret tt
    | KGlobalPointer r, TPtr _ => reloc_check_wf r
    | KFnPointer f, TPtr pt =>
        let! _ := ensure_wf (bool_decide (pt = PFnPtr))
                    "Constant::FnPointer: non function pointer type" in
        ensure_wf (map_contains (pr_functions prog) f) "Constant::FnPointer: invalid function name"
    | KVTablePointer v, TPtr pt =>
        match map_get (pr_vtables prog) v with
        | None => throw_ill_formed "Constant::VTablePointer: invalid vtable name"
        | Some vt => ensure_wf (bool_decide (pt = PVTablePtr (vt_trait vt)))
                       "Constant::VTablePointer: non or wrong vtable pointer type"
        end
    | KPointerWithoutProvenance addr, TPtr _ =>
        ensure_wf (in_bounds Unsigned (PTR_SIZE T) addr)
          "Constant::PointerWithoutProvenance: pointer out-of-bounds"
    | _, _ => throw_ill_formed "Constant: value does not match type"
    end.

  (** well-formed.md:396-460 the UnOp case of ValueExpr::check_wf, given the operand type *)
  Definition unop_check_wf (op : UnOp) (operand : Ty) : Outcome Ty :=
    match op with
    | UInt int_op =>
        match operand with
        | TInt it => Ret (TInt (match int_op with IUCountOnes => mkIntTy Unsigned 4 | _ => it end))
        | _ => throw_ill_formed "UnOp::Int: invalid operand"
        end
    | UCast (CIntToInt it) =>
        let! _ := ensure_wf (match operand with TInt _ => true | _ => false end)
                    "Cast::IntToInt: invalid operand" in
        Ret (TInt it)
    | UCast (CTransmute new_ty) =>
        let! l := layout T operand in
        let! _ := ensure_wf (is_sized l) "Cast::Transmute: unsized source type" in
        let! l' := layout T new_ty in
        let! _ := ensure_wf (is_sized l') "Cast::Transmute: unsized target type" in
        Ret new_ty
    | UGetThinPointer =>
        let! _ := ensure_wf (match operand with TPtr _ => true | _ => false end)
                    "UnOp::GetThinPointer: invalid operand: not a pointer" in
        Ret (TPtr (PRaw MKNone))
    | UGetMetadata =>
        match operand with
        | TPtr pt => Ret (meta_kind_ty T (ptr_meta_kind pt))
        | _ => throw_ill_formed "UnOp::GetMetadata: invalid operand: not a pointer"
        end
    | UComputeSize ty | UComputeAlign ty =>
        let! _ := ty_check_wf T has_trait ty in
        if bool_decide (operand = meta_kind_ty T (ty_meta_kind ty)) then Ret (TInt (usize_ty T))
        else throw_ill_formed
               "UnOp::ComputeSize|ComputeAlign: invalid operand type: not metadata of type"
    | UVTableMethodLookup method =>
        match operand with
        | TPtr (PVTablePtr tn) =>
            let! methods := unwrap (map_get (pr_traits prog) tn) in
            let! _ := ensure_wf (bool_decide (method ∈ methods))
                  "UnOp::VTableMethodLookup: invalid operand: method doesn't exist in trait" in
            Ret (TPtr PFnPtr)
        | _ => throw_ill_formed "UnOp::VTableMethodLookup: invalid operand: not a vtable pointer"
        end
    end.

  (** [matches!(int_op, Shl | Shr | ShlUnchecked | ShrUnchecked)] in well-formed.md:477 *)
  Definition is_shift (op : IntBinOp) : bool :=
    match op with IShl | IShr | IShlUnchecked | IShrUnchecked => true | _ => false end.

  (** well-formed.md:461-549 the BinOp case of ValueExpr::check_wf, given the operand types *)
  Definition binop_check_wf (op : BinOp) (left right : Ty) : Outcome Ty :=
    match op with
    | BInt int_op =>
        match left with
        | TInt l =>
            match right with
            | TInt r =>
                let! _ := if negb (is_shift int_op)
                          then ensure_wf (bool_decide (l = r))
                                 "BinOp:Int: right and left type are not equal"
                          else Ret tt in
                Ret (TInt l)
            | _ => throw_ill_formed "BinOp::Int: invalid right type"
            end
        | _ => throw_ill_formed "BinOp::Int: invalid left type"
        end
    | BIntWithOverflow _ =>
        match left with
        | TInt it =>
            let! _ := ensure_wf (bool_decide (right = TInt it))
                        "BinOp::IntWithOverflow: invalid right type" in
            with_overflow T it
        | _ => throw_ill_formed "BinOp::IntWithOverflow: invalid left type"
        end
    | BRel rel =>
        let! _ := ensure_wf (match left with TInt _ | TBool | TPtr _ => true | _ => false end)
                    "BinOp::Rel: invalid left type" in
        let! _ := ensure_wf (bool_decide (right = left)) "BinOp::Rel: invalid right type" in
        Ret (match rel with RCmp => TInt i8_ty | _ => TBool end)
    | BPtrOffset _ =>
        match left with
        | TPtr lpt =>
            if bool_decide (ptr_meta_kind lpt <> MKNone)
            then throw_ill_formed "BinOp::PtrOffset: invalid left type: unsized pointee" else
            let! _ := ensure_wf (match right with TInt _ => true | _ => false end)
                        "BinOp::PtrOffset: invalid right type" in
            Ret left
        | _ => throw_ill_formed "BinOp::PtrOffset: invalid left type: not a pointer"
        end
    | BPtrOffsetFrom _ _ =>
        match left with
        | TPtr lpt =>
            if bool_decide (ptr_meta_kind lpt <> MKNone)
            then throw_ill_formed "BinOp::PtrOffsetFrom: invalid left type: unsized pointee" else
            match right with
            | TPtr rpt =>
                if bool_decide (ptr_meta_kind rpt <> MKNone)
                then throw_ill_formed "BinOp::PtrOffsetFrom: invalid right type: unsized pointee" else
                Ret (TInt (mkIntTy Signed (PTR_SIZE T)))
            | _ => throw_ill_formed "BinOp::PtrOffsetFrom: invalid right type: not a pointer"
            end
        | _ => throw_ill_formed "BinOp::PtrOffsetFrom: invalid left type: not a pointer"
        end
    | BConstructWidePointer pt =>
        match left with
        | TPtr tpt =>
            if bool_decide (ptr_meta_kind tpt <> MKNone)
            then throw_ill_formed "BinOp::ConstructWidePointer: invalid left type: not a thin pointer" else
            if bool_decide (right <> meta_kind_ty T (ptr_meta_kind pt))
            then throw_ill_formed "BinOp::ConstructWidePointer: invalid right type: not metadata of target"
            else Ret (TPtr pt)
        | _ => throw_ill_formed "BinOp::ConstructWidePointer: invalid left type: not a pointer"
        end
    end.

  Section Exprs.
    Variable locals : list (LocalName * Ty).

    (** well-formed.md:329-553 ValueExpr::check_wf and well-formed.md:555-624 PlaceExpr::check_wf *)
    Fixpoint value_check_wf (e : ValueExpr) : Outcome Ty :=
      match e with
      | EConstant c ty =>
          let! _ := ty_check_wf T has_trait ty in
          let! _ := constant_check_wf c ty in
          Ret ty
      | ETuple exprs t =>
          let! _ := ty_check_wf T has_trait t in
          let! _ :=
            match t with
            | TTuple fields _ unsized =>
                let! _ := ensure_wf (match unsized with None => true | Some _ => false end)
                            "ValueExpr::Tuple: constructing an unsized tuple value" in
                let! _ := ensure_wf (length exprs =? length fields)%nat
                            "ValueExpr::Tuple: invalid number of tuple fields" in
                for_each2 (fun e f =>
                  let! checked := value_check_wf e in
                  ensure_wf (bool_decide (checked = snd f))
                    "ValueExpr::Tuple: invalid tuple field type") exprs fields
            | TArray elem count =>
                let! _ := ensure_wf (Z.of_nat (length exprs) =? count)
                            "ValueExpr::Tuple: invalid number of array elements" in
                for_each (fun e =>
                  let! checked := value_check_wf e in
                  ensure_wf (bool_decide (checked = elem))
                    "ValueExpr::Tuple: invalid array element type") exprs
            | _ => throw_ill_formed "ValueExpr::Tuple: expression does not match type"
            end in
          Ret t
      | EUnion field expr union_ty =>
          let! _ := ty_check_wf T has_trait union_ty in
          match union_ty with
          | TUnion fields _ _ _ =>
              let! _ := ensure_wf (field <? Z.of_nat (length fields))
                          "ValueExpr::Union: invalid field length" in
              let! '(_, ty) := unwrap (list_get fields field) in
              let! checked := value_check_wf expr in
              let! _ := ensure_wf (bool_decide (checked = ty))
                          "ValueExpr::Union: invalid field type" in
              Ret union_ty
          | _ => throw_ill_formed "ValueExpr::Union: invalid type"
          end
      | EVariant d data enum_ty =>
          match enum_ty with
          | TEnum variants _ _ _ _ =>
              let! _ := ty_check_wf T has_trait enum_ty in
              match map_get variants d with
              | None => throw_ill_formed "ValueExpr::Variant: invalid discriminant"
              | Some v =>
                  let! checked := value_check_wf data in
                  let! _ := ensure_wf (bool_decide (checked = fst v))
                              "ValueExpr::Variant: invalid type" in
                  Ret enum_ty
              end
          | _ => throw_ill_formed "ValueExpr::Variant: invalid type"
          end
      | EGetDiscriminant place =>
          let! ty := place_check_wf place in
          match ty with
          | TEnum _ dty _ _ _ => Ret (TInt dty)
          | _ => throw_ill_formed "ValueExpr::GetDiscriminant: invalid type"
          end
      | ELoad source =>
          let! ty := place_check_wf source in
          let! l := layout T ty in
          let! _ := ensure_wf (is_sized l) "ValueExpr::Load: unsized value type" in
          Ret ty
      | EAddrOf target pt =>
          let! _ := ptrtype_check_wf T has_trait pt in
          let! ty := place_check_wf target in
          let! _ := ensure_wf (bool_decide (ty_meta_kind ty = ptr_meta_kind pt))
                      "ValueExpr::AddrOf: mismatched metadata kind" in
          Ret (TPtr pt)
      | EUnOp op operand =>
          let! ty := value_check_wf operand in
          unop_check_wf op ty
      | EBinOp op e1 e2 =>
          let! lt := value_check_wf e1 in
          let! rt := value_check_wf e2 in
          binop_check_wf op lt rt
      end
    with place_check_wf (p : PlaceExpr) : Outcome Ty :=
      match p with
      | PLocal name =>
          match map_get locals name with
          | None => throw_ill_formed "PlaceExpr::Local: unknown local name"
          | Some ty => Ret ty
          end
      | PDeref operand ty =>
          let! _ := ty_check_wf T has_trait ty in
          let! op_ty := value_check_wf operand in
          match op_ty with
          | TPtr pt =>
              let! _ := ensure_wf (bool_decide (ptr_meta_kind pt = ty_meta_kind ty))
                          "PlaceExpr::Deref: metadata kind of operand and type don't match" in
              Ret ty
          | _ => throw_ill_formed "PlaceExpr::Deref: invalid operand type"
          end
      | PField root field =>
          let! root := place_check_wf root in
          match root with
          | TTuple fields _ unsized =>
              if (0 <=? field) && (field <? Z.of_nat (length fields)) then
                let! f := unwrap (list_get fields field) in Ret (snd f)
              else if field =? Z.of_nat (length fields) then
                match unsized with
                | None => throw_ill_formed "PlaceExpr::Field: invalid field"
                | Some ty => Ret ty
                end
              else throw_ill_formed "PlaceExpr::Field: invalid field"
          | TUnion fields _ _ _ =>
              match list_get fields field with
              | None => throw_ill_formed "PlaceExpr::Field: invalid field"
              | Some f => Ret (snd f)
              end
          | _ => throw_ill_formed "PlaceExpr::Field: expression does not match type"
          end
      | PIndex root index =>
          let! root := place_check_wf root in
          let! index := value_check_wf index in
          let! _ := ensure_wf (match index with TInt _ => true | _ => false end)
                      "PlaceExpr::Index: invalid index type" in
          match root with
          | TArray elem _ | TSlice elem => Ret elem
          | _ => throw_ill_formed "PlaceExpr::Index: expression type is not indexable"
          end
      | PDowncast root d =>
          let! root := place_check_wf root in
          match root with
          | TEnum variants _ _ _ _ =>
              match map_get variants d with
              | None => throw_ill_formed "PlaceExpr::Downcast: invalid discriminant"
              | Some v => Ret (fst v)
              end
          | _ => throw_ill_formed "PlaceExpr::Downcast: invalid root type"
          end
      end.

    (** well-formed.md:626-633 ArgumentExpr::check_wf *)
    Definition argument_check_wf (a : ArgumentExpr) : Outcome Ty :=
      match a with
      | ByValue e => value_check_wf e
      | InPlace p => place_check_wf p
      end.
  End Exprs.

  Section Functions.
    Variable func : Function.

    (** [ty.layout().is_sized()] followed by ensure_wf *)
    Definition ensure_sized (ty : Ty) (msg : string) : Outcome unit :=
      let! l := layout T ty in ensure_wf (is_sized l) msg.

    (** well-formed.md:640-693 Statement::check_wf *)
    Definition statement_check_wf (s : Statement) : Outcome unit :=
      match s with
      | SAssign destination source =>
          let! lty := place_check_wf (fn_locals func) destination in
          let! rty := value_check_wf (fn_locals func) source in
          let! _ := ensure_wf (bool_decide (lty = rty))
                      "Statement::Assign: destination and source type differ" in
          let! l := layout T rty in
          assert_ (is_sized l)
      | SPlaceMention place => let! _ := place_check_wf (fn_locals func) place in Ret tt
      | SSetDiscriminant destination value =>
          let! ty := place_check_wf (fn_locals func) destination in
          match ty with
          | TEnum variants _ _ _ _ =>
              match map_get variants value with
              | None => throw_ill_formed "Statement::SetDiscriminant: invalid discriminant write"
              | Some _ => Ret tt
              end
          | _ => throw_ill_formed "Statement::SetDiscriminant: invalid type"
          end
      | SValidate place _ =>
          let! ty := place_check_wf (fn_locals func) place in
          ensure_sized ty "Statement::Validate: unsized place"
      | SDeinit place =>
          let! ty := place_check_wf (fn_locals func) place in
          ensure_sized ty "Statement::Deinit: unsized place"
      | SStorageLive local =>
          ensure_wf (map_contains (fn_locals func) local)
            "Statement::StorageLive: invalid local variable"
      | SStorageDead local =>
          let! _ := ensure_wf (map_contains (fn_locals func) local)
                      "Statement::StorageDead: invalid local variable" in
          if bool_decide (local = fn_ret func) || bool_decide (local ∈ fn_args func)
          then throw_ill_formed
                 "Statement::StorageDead: trying to mark argument or return local as dead"
          else Ret tt
      end.

    (** well-formed.md:699-705 is_atomic_binop *)
    Definition is_atomic_binop (op : IntBinOp) : bool :=
      match op with IAdd | ISub => true | _ => false end.

    (** well-formed.md:846-855 check_next_block *)
    Definition check_next_block (expected : BbKind) (next : BbName) : Outcome unit :=
      match map_get (fn_blocks func) next with
      | None => throw_ill_formed "Terminator: next block does not exist"
      | Some b => ensure_wf (bool_decide (bb_kind b = expected))
                    "Terminator: next block has the wrong block kind"
      end.

    (** well-formed.md:858-872 check_unwind_block *)
    Definition check_unwind_block (current : BbKind) (unwind : BbName) : Outcome unit :=
      let! expected :=
        match current with
        | BkRegular => Ret [BkCleanup; BkCatch]
        | BkCleanup | BkTerminate => Ret [BkTerminate]
        | BkCatch => throw_ill_formed "Terminator: unwinding is not allowed in a catch block"
        end in
      match map_get (fn_blocks func) unwind with
      | None => throw_ill_formed "Terminator: unwind block does not exist"
      | Some b => ensure_wf (existsb (fun k => bool_decide (k = bb_kind b)) expected)
                    "Terminator: unwind block has the wrong block kind"
      end.

    Definition check_opt {A} (f : A -> Outcome unit) (o : option A) : Outcome unit :=
      match o with Some a => f a | None => Ret tt end.

    (** well-formed.md:707-809 Terminator::check_wf *)
    Definition terminator_check_wf (block_kind : BbKind) (t : Terminator) : Outcome unit :=
      match t with
      | TmGoto b => check_next_block block_kind b
      | TmSwitch value cases fallback =>
          let! ty := value_check_wf (fn_locals func) value in
          match ty with
          | TInt switch_ty =>
              let! _ := for_each (fun c =>
                  let! _ := ensure_wf (can_represent switch_ty (fst c))
                              "Terminator::Switch: value does not fit in switch type" in
                  check_next_block block_kind (snd c)) cases in
              check_next_block block_kind fallback
          | _ => throw_ill_formed "Terminator::Switch: switch is not Int"
          end
      | TmUnreachable => Ret tt
      | TmIntrinsic op arguments ret next_block =>
          let! ret_ty := place_check_wf (fn_locals func) ret in
          let! _ := ensure_sized ret_ty "Terminator::Intrinsic: unsized return type" in
          let! _ := for_each (fun a =>
              let! ty := value_check_wf (fn_locals func) a in
              ensure_sized ty "Terminator::Intrinsic: unsized argument type") arguments in
          let! _ := match op with
                    | InAtomicFetchAndOp op =>
                        if negb (is_atomic_binop op)
                        then throw_ill_formed "IntrinsicOp::AtomicFetchAndOp: non atomic op"
                        else Ret tt
                    | _ => Ret tt
                    end in
          check_opt (check_next_block block_kind) next_block
      | TmCall callee _ arguments ret next_block unwind_block =>
          let! ty := value_check_wf (fn_locals func) callee in
          let! _ := ensure_wf (bool_decide (ty = TPtr PFnPtr)) "Terminator::Call: invalid type" in
          let! ret_ty := place_check_wf (fn_locals func) ret in
          let! _ := ensure_sized ret_ty "Terminator::Call: unsized return type" in
          let! _ := for_each (fun a =>
              let! ty := argument_check_wf (fn_locals func) a in
              ensure_sized ty "Terminator::Call: unsized argument type") arguments in
          let! _ := check_opt (check_next_block block_kind) next_block in
          check_opt (check_unwind_block block_kind) unwind_block
      | TmReturn =>
          ensure_wf (bool_decide (block_kind = BkRegular))
            "Terminator::Return has to be called in a regular block"
      | TmStartUnwind payload unwind_block =>
          let! ty := value_check_wf (fn_locals func) payload in
          let! _ := ensure_wf (bool_decide (ty = TPtr (PRaw MKNone)))
                      "Terminator::StartUnwind: the unwind payload should be a raw pointer" in
          let! _ := ensure_wf (bool_decide (block_kind = BkRegular))
                      "Terminator::StartUnwind has to be called in a regular block" in
          check_unwind_block block_kind unwind_block
      | TmStopUnwind next_block =>
          let! _ := ensure_wf (bool_decide (block_kind = BkCatch))
                      "Terminator::StopUnwind has to be called in a catch block" in
          check_next_block BkRegular next_block
      | TmResumeUnwind =>
          ensure_wf (bool_decide (block_kind = BkCleanup))
            "Terminator::ResumeUnwind: has to be called in cleanup block"
      end.

    (** well-formed.md:812-843 Function::check_wf *)
    Definition function_check_wf : Outcome unit :=
      let! _ := for_each (fun l =>
          let! _ := ensure_sized (snd l) "Function: unsized local variable" in
          ty_check_wf T has_trait (snd l)) (fn_locals func) in
      let! start_live := fold_m (fun live arg =>
          let! _ := ensure_wf (map_contains (fn_locals func) arg)
                      "Function: argument local does not exist" in
          if bool_decide (arg ∈ live)
          then throw_ill_formed "Function: two arguments refer to the same local"
          else Ret (arg :: live)) (fn_args func) [] in
      let! _ := ensure_wf (map_contains (fn_locals func) (fn_ret func))
                  "Function: return local does not exist" in
      let! _ := if bool_decide (fn_ret func ∈ start_live)
                then throw_ill_formed "Function: return local is also used for an argument"
                else Ret tt in
      for_each (fun b =>
          let! _ := for_each statement_check_wf (bb_statements (snd b)) in
          terminator_check_wf (bb_kind (snd b)) (bb_terminator (snd b))) (fn_blocks func).
  End Functions.

  (** well-formed.md:892-905 the check of a vtable *)
  Definition vtable_check_wf (vt : VTable) : Outcome unit :=
    let! _ := ensure_wf (vt_size vt mod align_bytes (vt_align vt) =? 0)%N
                "Program: size stored in vtable not a multiple of alignment" in
    let! _ := check_cells (vt_cells vt) (vt_size vt) in
    match map_get (pr_traits prog) (vt_trait vt) with
    | None => throw_ill_formed "Program: vtable for unknown trait"
    | Some trait_methods =>
        let methods := List.map fst (vt_methods vt) in
        ensure_wf (forallb (fun x => bool_decide (x ∈ trait_methods)) methods &&
                   forallb (fun x => bool_decide (x ∈ methods)) trait_methods)
          "Program: vtable has not the right set of methods"
    end.

  (** well-formed.md:892-935 Program::check_wf *)
  Definition program_check_wf : Outcome unit :=
    let! _ := for_each (fun v => vtable_check_wf (snd v)) (pr_vtables prog) in
    let! _ := for_each (fun f => function_check_wf (snd f)) (pr_functions prog) in
    match map_get (pr_functions prog) (pr_start prog) with
    | None => throw_ill_formed "Program: start function does not exist"
    | Some start =>
        let! _ := ensure_wf (bool_decide (fn_conv start = CcC))
                    "Program: start function has invalid calling convention" in
        let! ret_ty := unwrap (map_get (fn_locals start) (fn_ret start)) in
        let! ret_layout := layout T ret_ty in
        let! _ := ensure_wf (bool_decide (ret_layout = LSized 0 align_one))
                    "Program: start function return local has invalid layout" in
        let! _ := ensure_wf (match fn_args start with [] => true | _ => false end)
                    "Program: start function has arguments" in
        for_each (fun g =>
          for_each (fun r =>
            let! _ := ensure_wf (fst r + PTR_SIZE T <=? N.of_nat (length (g_bytes (snd g))))%N
                        "Program: invalid global pointer value" in
            reloc_check_wf (snd r)) (g_relocations (snd g))) (pr_globals prog)
    end.
End WfProg.
