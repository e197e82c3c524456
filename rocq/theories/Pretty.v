(** Model of the pretty printer: tooling/miniutil/src/pretty/. Strings are byte strings. Names are printed as their numbers
    (get_internal). A Map is printed in the order of its association list where the code iterates over it as it is. *)
From Coq Require Import Ascii String DecimalString.
From stdpp Require Export sorting.
From Verif Require Export Machine WfProg.
Local Open Scope string_scope.

(** Display of integers *)
Definition show_int (i : Z) : string := NilZero.string_of_int (Z.to_int i).
Definition show_nat (n : N) : string := show_int (Z.of_N n).
(** Display of bool *)
Definition show_bool (b : bool) : string := if b then "true" else "false".
(** [join] of a list of strings *)
Fixpoint join_str (sep : string) (l : list string) : string :=
  match l with [] => "" | [s] => s | s :: r => s ++ sep ++ join_str sep r end.
(** [sort_by_key] with a name as the key *)
Definition name_le {A} (x y : N * A) : Prop := (fst x <= fst y)%N.
Global Instance name_le_dec {A} : RelDecision (@name_le A).
Proof. intros x y. unfold name_le. apply _. Defined.
Definition sort_by_name {A} (l : list (N * A)) : list (N * A) := merge_sort name_le l.
(** [sort] of strings *)
Definition str_le (s t : string) : Prop := String.leb s t = true.
Global Instance str_le_dec : RelDecision str_le.
Proof. intros s t. unfold str_le. apply _. Defined.

(** expr.rs:5-13 FmtExpr; the constructors NonAtomic and Atomic have an F here *)
Inductive FmtExpr := FNonAtomic (s : string) | FAtomic (s : string).
(** expr.rs:18-23 to_string *)
Definition to_string (f : FmtExpr) : string := match f with FNonAtomic s => s | FAtomic s => s end.
(** expr.rs:27-33 to_atomic_string *)
Definition to_atomic_string (f : FmtExpr) : string := match f with FNonAtomic s => "(" ++ s ++ ")" | FAtomic s => s end.

(** ** Names *)

(** expr.rs:63-66 fmt_local_name *)
Definition fmt_local_name (l : LocalName) : string := "_" ++ show_nat l.
(** expr.rs:68-71 fmt_global_name *)
Definition fmt_global_name (g : GlobalName) : string := "global(" ++ show_nat g ++ ")".
(** function.rs:295-298 fmt_fn_name *)
Definition fmt_fn_name (f : FnName) : string := "f" ++ show_nat f.
(** function.rs:281-284 fmt_bb_name *)
Definition fmt_bb_name (b : BbName) : string := "bb" ++ show_nat b.
(** vtables.rs:18-20 fmt_vtable_name *)
Definition fmt_vtable_name (v : VTableName) : string := "vtable" ++ show_nat v.
(** vtables.rs:54-56 fmt_trait_name *)
Definition fmt_trait_name (t : TraitName) : string := "trait" ++ show_nat t.
(** vtables.rs:71-73 fmt_trait_method_name *)
Definition fmt_trait_method_name (m : TraitMethodName) : string := "m" ++ show_nat m.

(** ** Types *)

(** ty.rs:28-36 fmt_int_type *)
Definition fmt_int_type (it : IntType) : string :=
  (match it_signed it with Signed => "i" | Unsigned => "u" end) ++ show_int (8 * Z.of_N (it_size it)).

(** ty.rs:61-68 fmt_meta_kind *)
Definition fmt_meta_kind (k : MetaKind) : string :=
  match k with
  | MKNone => "thin"
  | MKElementCount => "meta=len"
  | MKVTablePointer tn => "meta=vtable<" ++ fmt_trait_name tn ++ ">"
  end.

(** ty.rs:70-92 fmt_layout_strategy *)
Fixpoint fmt_layout_strategy (l : LayoutStrategy) : string :=
  match l with
  | LSized size align => "size=" ++ show_nat size ++ ", align=" ++ show_nat (align_bytes align)
  | LSlice size align => "size=" ++ show_nat size ++ "*len, align=" ++ show_nat (align_bytes align)
  | LTraitObject _ => "size,align={unknown}"
  | LTuple head tail =>
      let packed_str := match th_packed head with Some packed => ", packed=" ++ show_nat (align_bytes packed) | None => "" end in
      "head=(end=" ++ show_nat (th_end head) ++ ", align=" ++ show_nat (align_bytes (th_align head)) ++ ")" ++ packed_str ++
      ", tail=(" ++ fmt_layout_strategy tail ++ ")"
  end.

(** ty.rs:94-110 fmt_pointee_info *)
Definition fmt_pointee_info (pi : PointeeInfo) : string :=
  "pointee_info(" ++ fmt_meta_kind (layout_meta_kind (pi_layout pi)) ++ ", " ++ fmt_layout_strategy (pi_layout pi) ++
  (if pi_inhabited pi then "" else ", uninhabited") ++ (if pi_freeze pi then "" else ", !Freeze") ++
  (if pi_unpin pi then "" else ", !Unpin") ++ ")".

(** ty.rs:38-59 fmt_ptr_type *)
Definition fmt_ptr_type (pt : PtrType) : FmtExpr :=
  match pt with
  | PRef Mutable pi => FNonAtomic ("&mut " ++ fmt_pointee_info pi)
  | PRef Immutable pi => FNonAtomic ("&" ++ fmt_pointee_info pi)
  | PBox pi => FAtomic ("Box<" ++ fmt_pointee_info pi ++ ">")
  | PRaw mk => FNonAtomic ("*raw(" ++ fmt_meta_kind mk ++ ")")
  | PFnPtr => FAtomic "fn()"
  | PVTablePtr _ => FAtomic "{vtable}"
  end.

(** The table of composite types, [&mut Vec<CompType>]. ty.rs:129-140 get_comptype_index *)
Notation Table := (list Ty) (only parsing).
Fixpoint position (t : Ty) (ct : Table) : option nat :=
  match ct with [] => None | x :: r => if bool_decide (x = t) then Some O else option_map S (position t r) end.
Definition get_comptype_index (t : Ty) (ct : Table) : nat * Table :=
  match position t ct with Some i => (i, ct) | None => (length ct, (ct ++ [t])%list) end.
(** ty.rs:142-145 fmt_comptype_index *)
Definition fmt_comptype_index (i : nat) : string := "T" ++ show_nat (N.of_nat i).

(** ty.rs:3-26 fmt_type *)
Fixpoint fmt_type (t : Ty) (ct : Table) : FmtExpr * Table :=
  match t with
  | TInt it => (FAtomic (fmt_int_type it), ct)
  | TPtr pt => (fmt_ptr_type pt, ct)
  | TBool => (FAtomic "bool", ct)
  | TTuple _ _ _ | TUnion _ _ _ _ | TEnum _ _ _ _ _ =>
      let '(i, ct) := get_comptype_index t ct in (FAtomic (fmt_comptype_index i), ct)
  | TArray elem count =>
      let '(e, ct) := fmt_type elem ct in (FAtomic ("[" ++ to_string e ++ "; " ++ show_int count ++ "]"), ct)
  | TSlice elem => let '(e, ct) := fmt_type elem ct in (FAtomic ("[" ++ to_string e ++ "]"), ct)
  | TTraitObject tn => (FAtomic ("dyn " ++ fmt_trait_name tn), ct)
  end.

(** ty.rs:200-208 fmt_comptype_fields *)
Fixpoint fmt_comptype_fields (fields : list (Offset * Ty)) (ct : Table) : string * Table :=
  match fields with
  | [] => ("", ct)
  | (offset, f) :: r =>
      let '(ty, ct) := fmt_type f ct in
      let '(s, ct) := fmt_comptype_fields r ct in
      ("  at byte " ++ show_nat offset ++ ": " ++ to_string ty ++ "," ++ newline ++ s, ct)
  end.
(** ty.rs:210-218 fmt_comptype_chunks *)
Definition fmt_comptype_chunks (chunks : list (Offset * Size)) : string :=
  String.concat "" (List.map (fun c => "  chunk(at=" ++ show_nat (fst c) ++ ", size=" ++ show_nat (snd c) ++ ")," ++ newline) chunks).
(** ty.rs:188-194 the variants *)
Fixpoint fmt_comptype_variants (vs : list (Z * (Ty * Tagger))) (ct : Table) : string * Table :=
  match vs with
  | [] => ("", ct)
  | (d, v) :: r =>
      let '(ty, ct) := fmt_type (fst v) ct in
      let '(s, ct) := fmt_comptype_variants r ct in
      ("  Variant " ++ show_int d ++ ": " ++ to_string ty ++ newline ++ s, ct)
  end.

Section Target.
  (** DefaultTarget *)
  Variable T : Target.

  (** ty.rs:165-198 fmt_comptype *)
  Definition fmt_comptype (i : nat) (t : Ty) (ct : Table) : Outcome (string * Table) :=
    let! keyword := match t with
                    | TTuple _ _ _ => Ret "tuple"
                    | TUnion _ _ _ _ => Ret "union"
                    | TEnum _ _ _ _ _ => Ret "enum"
                    | _ => Panic
                    end in
    let! l := layout T t in
    let s := keyword ++ " " ++ fmt_comptype_index i ++ " (" ++ fmt_layout_strategy l ++ ") {" ++ newline in
    let! ' (body, ct) :=
      match t with
      | TTuple fields _ unsized =>
          let '(s, ct) := fmt_comptype_fields fields ct in
          match unsized with
          | None => Ret (s, ct)
          | Some u => let '(ty, ct) := fmt_type u ct in Ret (s ++ "  tail: " ++ to_string ty ++ "," ++ newline, ct)
          end
      | TUnion fields chunks _ _ => let '(s, ct) := fmt_comptype_fields fields ct in Ret (s ++ fmt_comptype_chunks chunks, ct)
      | TEnum variants dty _ _ _ =>
          let '(s, ct) := fmt_comptype_variants variants ct in
          Ret ("  Discriminant: " ++ fmt_int_type dty ++ newline ++ s, ct)
      | _ => Panic
      end in
    Ret (s ++ body ++ "}" ++ newline ++ newline, ct).

  (** ty.rs:147-163 fmt_comptypes: the loop from index [i] on. The table may grow meanwhile, so the model has [fuel]; with
      too little of it, the result is [NoBehavior]. The result has the final table, too. *)
  Fixpoint fmt_comptypes (fuel : nat) (i : nat) (ct : Table) : Outcome (string * Table) :=
    match ct !! i with
    | None => Ret ("", ct)
    | Some c =>
        match fuel with
        | O => NoBehavior
        | S fuel =>
            let! ' (s, ct) := fmt_comptype i c ct in
            let! ' (r, ct) := fmt_comptypes fuel (S i) ct in
            Ret (s ++ r, ct)
        end
    end.
End Target.

(** ** Expressions *)

(** global.rs:17-26 fmt_relocation *)
Definition fmt_relocation (r : Relocation) : FmtExpr :=
  if (r_offset r =? 0)%N then FAtomic (fmt_global_name (r_name r))
  else FNonAtomic (fmt_global_name (r_name r) ++ " + " ++ show_nat (r_offset r)).

(** expr.rs:73-87 fmt_constant *)
Definition fmt_constant (c : Constant) : FmtExpr :=
  match c with
  | KInt i => FAtomic (show_int i)
  | KBool b => FAtomic (show_bool b)
  | KGlobalPointer r => fmt_relocation r
  | KFnPointer f => FAtomic (fmt_fn_name f)
  | KVTablePointer v => FAtomic (fmt_vtable_name v)
  | KPointerWithoutProvenance addr =>
      if (addr =? 0)%Z then FAtomic "nullptr" else FAtomic ("invalid_ptr(" ++ show_int addr ++ ")")
  end.

(** expr.rs:179-198 the integer operators: infix, or the name of a function *)
Definition fmt_int_op (op : IntBinOp) : string + string :=
  match op with
  | IAdd => inl "+" | ISub => inl "-" | IMul => inl "*" | IDiv => inl "/" | IRem => inl "%" | IShl => inl "<<" | IShr => inl ">>"
  | IBitAnd => inl "&" | IBitOr => inl "|" | IBitXor => inl "^"
  | IAddUnchecked => inr "AddUnchecked" | ISubUnchecked => inr "SubUnchecked" | IMulUnchecked => inr "MulUnchecked"
  | IDivExact => inr "DivExact" | IShlUnchecked => inr "ShlUnchecked" | IShrUnchecked => inr "ShrUnchecked"
  end.
(** expr.rs:206-210 *)
Definition fmt_overflow_op (op : IntBinOpOv) : string := match op with OvAdd => "Add" | OvSub => "Sub" | OvMul => "Mul" end.
(** expr.rs:214-222 *)
Definition fmt_rel_op (op : RelOp) : string :=
  match op with RLt => "<" | RLe => "<=" | RGt => ">" | RGe => ">=" | REq => "==" | RNe => "!=" | RCmp => "<=>" end.
(** expr.rs:143-174 the unary operators *)
Definition fmt_un_op (op : UnOp) (operand : string) (ct : Table) : FmtExpr * Table :=
  match op with
  | UInt IUNeg => (FNonAtomic ("-(" ++ operand ++ ")"), ct)
  | UInt IUBitNot => (FNonAtomic ("!(" ++ operand), ct)
  | UInt IUCountOnes => (FNonAtomic ("count_ones(" ++ operand), ct)
  | UCast (CIntToInt it) => (FAtomic ("int2int<" ++ fmt_int_type it ++ ">(" ++ operand ++ ")"), ct)
  | UCast (CTransmute ty) => let '(t, ct) := fmt_type ty ct in (FAtomic ("transmute<" ++ to_string t ++ ">(" ++ operand ++ ")"), ct)
  | UGetThinPointer => (FAtomic ("get_thin_ptr(" ++ operand ++ ")"), ct)
  | UGetMetadata => (FAtomic ("get_metadata(" ++ operand ++ ")"), ct)
  | UComputeSize ty => let '(t, ct) := fmt_type ty ct in (FAtomic ("compute_size<" ++ to_string t ++ ">(" ++ operand ++ ")"), ct)
  | UComputeAlign ty => let '(t, ct) := fmt_type ty ct in (FAtomic ("compute_align<" ++ to_string t ++ ">(" ++ operand ++ ")"), ct)
  | UVTableMethodLookup m => (FNonAtomic ("vtable_lookup<" ++ fmt_trait_method_name m ++ ">(" ++ operand ++ ")"), ct)
  end.
(** expr.rs:176-251 the binary operators *)
Definition fmt_bin_op (op : BinOp) (l r : FmtExpr) : FmtExpr :=
  match op with
  | BInt op =>
      match fmt_int_op op with
      | inl o => FNonAtomic (to_atomic_string l ++ " " ++ o ++ " " ++ to_atomic_string r)
      | inr f => FAtomic (f ++ "(" ++ to_atomic_string l ++ ", " ++ to_atomic_string r ++ ")")
      end
  | BIntWithOverflow op => FAtomic (fmt_overflow_op op ++ "WithOverflow(" ++ to_atomic_string l ++ ", " ++ to_atomic_string r ++ ")")
  | BRel op => FNonAtomic (to_atomic_string l ++ " " ++ fmt_rel_op op ++ " " ++ to_atomic_string r)
  | BPtrOffset inbounds =>
      FAtomic ((if inbounds then "offset_inbounds" else "offset_wrapping") ++ "(" ++ to_string l ++ ", " ++ to_string r ++ ")")
  | BPtrOffsetFrom inbounds nonneg =>
      FAtomic ("offset_from_" ++ (if inbounds then "inbounds" else "wrapping") ++ (if nonneg then "_nonneg" else "") ++
              "(" ++ to_string l ++ ", " ++ to_string r ++ ")")
  | BConstructWidePointer pt => FAtomic ("construct_ptr<" ++ to_string (fmt_ptr_type pt) ++ ">(" ++ to_string l ++ ", " ++ to_string r ++ ")")
  end.

(** expr.rs:36-61 fmt_place_expr and expr.rs:89-252 fmt_value_expr *)
Fixpoint fmt_value_expr (v : ValueExpr) (ct : Table) : Outcome (FmtExpr * Table) :=
  match v with
  | EConstant c _ => Ret (fmt_constant c, ct)
  | ETuple l t =>
      let! ' (lparen, rparen) := match t with TArray _ _ => Ret ("[", "]") | TTuple _ _ _ => Ret ("(", ")") | _ => Panic end in
      let! ' (l, ct) := map_st (fun ct x => fmt_value_expr x ct) l ct in
      Ret (FAtomic (lparen ++ join_str ", " (List.map to_string l) ++ rparen), ct)
  | EUnion field expr union_ty =>
      let '(t, ct) := fmt_type union_ty ct in
      let! ' (e, ct) := fmt_value_expr expr ct in
      Ret (FNonAtomic (to_string t ++ " { field" ++ show_int field ++ ": " ++ to_string e ++ " }"), ct)
  | EVariant discriminant data enum_ty =>
      let '(t, ct) := fmt_type enum_ty ct in
      let! ' (e, ct) := fmt_value_expr data ct in
      Ret (FNonAtomic (to_string t ++ "(variant " ++ show_int discriminant ++ "): " ++ to_string e), ct)
  | EGetDiscriminant place => let! ' (p, ct) := fmt_place_expr place ct in Ret (FAtomic ("discriminant(" ++ to_string p ++ ")"), ct)
  | ELoad source => let! ' (p, ct) := fmt_place_expr source ct in Ret (FAtomic ("load(" ++ to_string p ++ ")"), ct)
  | EAddrOf target (PRaw _) => let! ' (p, ct) := fmt_place_expr target ct in Ret (FNonAtomic ("&raw " ++ to_atomic_string p), ct)
  | EAddrOf target (PRef mutbl _) =>
      let! ' (p, ct) := fmt_place_expr target ct in
      Ret (FNonAtomic ("&" ++ (match mutbl with Mutable => "mut " | Immutable => "" end) ++ to_atomic_string p), ct)
  | EAddrOf _ _ => Panic
  | EUnOp op operand => let! ' (e, ct) := fmt_value_expr operand ct in Ret (fmt_un_op op (to_string e) ct)
  | EBinOp op e1 e2 =>
      let! ' (l, ct) := fmt_value_expr e1 ct in
      let! ' (r, ct) := fmt_value_expr e2 ct in
      Ret (fmt_bin_op op l r, ct)
  end
with fmt_place_expr (p : PlaceExpr) (ct : Table) : Outcome (FmtExpr * Table) :=
  match p with
  | PLocal l => Ret (FAtomic (fmt_local_name l), ct)
  | PDeref operand ty =>
      let '(t, ct) := fmt_type ty ct in
      let! ' (e, ct) := fmt_value_expr operand ct in
      Ret (FAtomic ("deref<" ++ to_string t ++ ">(" ++ to_string e ++ ")"), ct)
  | PField root field => let! ' (r, ct) := fmt_place_expr root ct in Ret (FAtomic (to_atomic_string r ++ "." ++ show_int field), ct)
  | PIndex root index =>
      let! ' (r, ct) := fmt_place_expr root ct in
      let! ' (i, ct) := fmt_value_expr index ct in
      Ret (FAtomic (to_atomic_string r ++ "[" ++ to_string i ++ "]"), ct)
  | PDowncast root discriminant =>
      let! ' (r, ct) := fmt_place_expr root ct in Ret (FNonAtomic (to_atomic_string r ++ " as variant " ++ show_int discriminant), ct)
  end.

(** ** Statements and terminators *)

(** function.rs:88-125 fmt_statement *)
Definition fmt_statement (st : Statement) (ct : Table) : Outcome (string * Table) :=
  match st with
  | SAssign destination source =>
      let! ' (l, ct) := fmt_place_expr destination ct in
      let! ' (r, ct) := fmt_value_expr source ct in
      Ret ("    " ++ to_string l ++ " = " ++ to_string r ++ ";", ct)
  | SPlaceMention place => let! ' (p, ct) := fmt_place_expr place ct in Ret ("    _ = " ++ to_string p ++ ";", ct)
  | SSetDiscriminant destination value =>
      let! ' (p, ct) := fmt_place_expr destination ct in Ret ("    discriminant(" ++ to_string p ++ ") = " ++ show_int value ++ ";", ct)
  | SValidate place fn_entry =>
      let! ' (p, ct) := fmt_place_expr place ct in Ret ("    validate(" ++ to_string p ++ ", " ++ show_bool fn_entry ++ ");", ct)
  | SDeinit place => let! ' (p, ct) := fmt_place_expr place ct in Ret ("    deinit(" ++ to_string p ++ ");", ct)
  | SStorageLive l => Ret ("    storage_live(" ++ fmt_local_name l ++ ");", ct)
  | SStorageDead l => Ret ("    storage_dead(" ++ fmt_local_name l ++ ");", ct)
  end.

(** function.rs:145-168 the successors of a call *)
Definition fmt_next (next_block unwind_block : option BbName) : string :=
  match next_block, unwind_block with
  | Some n, Some u => " -> [return: " ++ fmt_bb_name n ++ ", unwind: " ++ fmt_bb_name u ++ "]"
  | None, None => ""
  | Some n, None => " -> return: " ++ fmt_bb_name n
  | None, Some u => " -> unwind: " ++ fmt_bb_name u
  end.
(** function.rs:171-174 *)
Definition fmt_conv (conv : CallingConvention) : string :=
  match conv with CcRust => "" | CcC => "extern " ++ String """"%char ("C" ++ String """"%char "") end.
(** function.rs:128-177 fmt_call *)
Definition fmt_call (callee : string) (conv : CallingConvention) (args : string) (ret : PlaceExpr) (next_block unwind_block : option BbName)
    (ct : Table) : Outcome (string * Table) :=
  let! ' (r, ct) := fmt_place_expr ret ct in
  Ret ("    " ++ to_string r ++ " = " ++ fmt_conv conv ++ callee ++ "(" ++ args ++ ")" ++ fmt_next next_block unwind_block ++ ";", ct).

(** function.rs:272-279 fmt_fetch *)
Definition fmt_fetch (op : IntBinOp) : string :=
  match op with IAdd => "atomic_fetch_add" | ISub => "atomic_fetch_sub" | _ => "atomic_fetch_ILL_FORMED" end.
(** function.rs:234-255 the names of intrinsics *)
Definition fmt_intrinsic (op : IntrinsicOp) : string :=
  match op with
  | InAbort => "abort" | InAssume => "assume" | InExit => "exit" | InPrintStdout => "print" | InPrintStderr => "eprint"
  | InAllocate => "allocate" | InDeallocate => "deallocate" | InSpawn => "spawn" | InJoin => "join" | InRawEq => "raw_eq"
  | InAtomicStore => "atomic_store" | InAtomicLoad => "atomic_load" | InAtomicCompareExchange => "atomic_compare_exchange"
  | InAtomicFetchAndOp op => fmt_fetch op
  | InLock LkAcquire => "lock_acquire" | InLock LkCreate => "lock_create" | InLock LkRelease => "lock_release"
  | InPointerExposeProvenance => "pointer_expose_provenance"
  | InPointerWithExposedProvenance => "pointer_with_exposed_provenance"
  | InGetUnwindPayload => "get_unwind_payload"
  end.
(** function.rs:206-215 an argument *)
Definition fmt_argument (ct : Table) (a : ArgumentExpr) : Outcome (string * Table) :=
  match a with
  | ByValue v => let! ' (e, ct) := fmt_value_expr v ct in Ret ("by-value(" ++ to_string e ++ ")", ct)
  | InPlace p => let! ' (e, ct) := fmt_place_expr p ct in Ret ("in-place(" ++ to_string e ++ ")", ct)
  end.
(** function.rs:179-270 fmt_terminator *)
Definition fmt_terminator (t : Terminator) (ct : Table) : Outcome (string * Table) :=
  match t with
  | TmGoto bb => Ret ("    goto -> " ++ fmt_bb_name bb ++ ";", ct)
  | TmSwitch value cases fallback =>
      let! ' (e, ct) := fmt_value_expr value ct in
      let case_strs := List.map (fun c : Z * BbName => show_int (fst c) ++ ": " ++ fmt_bb_name (snd c)) cases in
      let case_strs := (case_strs ++ [("otherwise: " ++ fmt_bb_name fallback)%string])%list in
      Ret ("    switch(" ++ to_string e ++ ") -> [" ++ newline ++ "      " ++ join_str ("," ++ newline ++ "      ") case_strs ++
           newline ++ "    ];", ct)
  | TmUnreachable => Ret ("    unreachable;", ct)
  | TmCall callee conv args ret nb ub =>
      let! ' (c, ct) := fmt_value_expr callee ct in
      let! ' (l, ct) := map_st fmt_argument args ct in
      fmt_call (to_atomic_string c) conv (join_str ", " l) ret nb ub ct
  | TmReturn => Ret ("    return;", ct)
  | TmStartUnwind payload ub =>
      let! ' (e, ct) := fmt_value_expr payload ct in
      Ret ("    start unwind(" ++ to_string e ++ ") -> unwind: " ++ fmt_bb_name ub ++ " ", ct)
  | TmStopUnwind b => Ret ("    start unwind -> unwind: " ++ fmt_bb_name b ++ " ", ct)
  | TmResumeUnwind => Ret ("    resume", ct)
  | TmIntrinsic op args ret nb =>
      let! ' (l, ct) := map_st (fun ct v => fmt_value_expr v ct) args ct in
      fmt_call (fmt_intrinsic op) CcRust (join_str ", " (List.map to_string l)) ret nb None ct
  end.

(** ** Functions and programs *)

(** function.rs:286-293 fmt_bb_kind *)
Definition fmt_bb_kind (k : BbKind) : string :=
  match k with BkRegular => "" | BkCleanup => " (Cleanup)" | BkCatch => " (Catch)" | BkTerminate => " (Terminate)" end.
(** function.rs:66-86 fmt_bb *)
Definition fmt_bb (name : BbName) (bb : BasicBlock) (start : bool) (ct : Table) : Outcome (string * Table) :=
  let! ' (sts, ct) := map_st (fun ct st => let! ' (s, ct) := fmt_statement st ct in Ret (s ++ newline, ct)) (bb_statements bb) ct in
  let! ' (tm, ct) := fmt_terminator (bb_terminator bb) ct in
  Ret ((if start then "  start bb" else "  bb") ++ show_nat name ++ fmt_bb_kind (bb_kind bb) ++ ":" ++ newline ++
       String.concat "" sts ++ tm ++ newline, ct).
(** function.rs:45-49 a local *)
Definition fmt_local (ct : Table) (l : LocalName * Ty) : Outcome (string * Table) :=
  let '(t, ct) := fmt_type (snd l) ct in Ret ("  let " ++ fmt_local_name (fst l) ++ ": " ++ to_string t ++ ";" ++ newline, ct).
(** function.rs:21-64 fmt_function *)
Definition fmt_function (name : FnName) (f : Function) (start : bool) (ct : Table) : Outcome (string * Table) :=
  let args := join_str ", " (List.map fmt_local_name (fn_args f)) in
  let sig := (if start then "start fn " else "fn ") ++ fmt_fn_name name ++ "(" ++ args ++ ") -> " ++ fmt_local_name (fn_ret f) ++ " {" ++ newline in
  let! ' (locals, ct) := map_st fmt_local (sort_by_name (fn_locals f)) ct in
  let! ' (blocks, ct) := map_st (fun ct (b : BbName * BasicBlock) => fmt_bb (fst b) (snd b) (bool_decide (fn_start f = fst b)) ct)
                           (sort_by_name (fn_blocks f)) ct in
  Ret (sig ++ String.concat "" locals ++ String.concat "" blocks ++ "}" ++ newline ++ newline, ct).
(** function.rs:5-19 fmt_functions *)
Definition fmt_functions (prog : Program) (ct : Table) : Outcome (string * Table) :=
  let! ' (fs, ct) := map_st (fun ct (f : FnName * Function) => fmt_function (fst f) (snd f) (bool_decide (pr_start prog = fst f)) ct)
                       (sort_by_name (pr_functions prog)) ct in
  Ret (String.concat "" fs, ct).

(** [{:02x?}] of a byte *)
Definition hex_digit (n : N) : string :=
  match String.get (N.to_nat n) "0123456789abcdef" with Some c => String c "" | None => "" end.
Definition show_byte (b : byte) : string := hex_digit (Byte.to_N b / 16) ++ hex_digit (Byte.to_N b mod 16).
(** global.rs:46-58 fmt_bytes *)
Definition fmt_bytes (bytes : list (option byte)) : string :=
  join_str " " (List.map (fun x => match x with Some u => show_byte u | None => "__" end) bytes).
(** global.rs:28-44 fmt_global *)
Definition fmt_global (name : GlobalName) (g : Global) : string :=
  fmt_global_name name ++ " {" ++ newline ++ "  bytes = [" ++ fmt_bytes (g_bytes g) ++ "]," ++ newline ++
  "  align = " ++ show_nat (align_bytes (g_align g)) ++ " bytes," ++ newline ++
  String.concat "" (List.map (fun r => "  at byte " ++ show_nat (fst r) ++ ": " ++ to_string (fmt_relocation (snd r)) ++ "," ++ newline)
                      (g_relocations g)) ++
  "}" ++ newline ++ newline.
(** global.rs:3-15 fmt_globals *)
Definition fmt_globals (globals : list (GlobalName * Global)) : string :=
  String.concat "" (List.map (fun g : GlobalName * Global => fmt_global (fst g) (snd g)) (sort_by_name globals)).

(** vtables.rs:22-41 fmt_vtable *)
Definition fmt_vtable (name : VTableName) (vt : VTable) : string :=
  fmt_vtable_name name ++ " {" ++ newline ++
  "  trait = " ++ fmt_trait_name (vt_trait vt) ++ "," ++ newline ++
  "  size = " ++ show_nat (vt_size vt) ++ "," ++ newline ++
  "  align = " ++ show_nat (align_bytes (vt_align vt)) ++ "," ++ newline ++
  String.concat "" (List.map (fun m => "  " ++ fmt_trait_method_name (fst m) ++ "() = " ++ fmt_fn_name (snd m) ++ "," ++ newline)
                      (vt_methods vt)) ++
  "}" ++ newline.
(** vtables.rs:3-16 fmt_vtables *)
Definition fmt_vtables (vtables : list (VTableName * VTable)) : string :=
  String.concat "" (List.map (fun v : VTableName * VTable => fmt_vtable (fst v) (snd v)) (sort_by_name vtables)) ++ newline.
(** vtables.rs:58-69 fmt_trait: the methods are in the order of their printed names *)
Definition fmt_trait (name : TraitName) (methods : list TraitMethodName) : string :=
  fmt_trait_name name ++ " { " ++ join_str ", " (merge_sort str_le (List.map fmt_trait_method_name methods)) ++ " }" ++ newline.
(** vtables.rs:43-52 fmt_traits *)
Definition fmt_traits (traits : list (TraitName * list TraitMethodName)) : string :=
  String.concat "" (List.map (fun t : TraitName * list TraitMethodName => fmt_trait (fst t) (snd t)) (sort_by_name traits)) ++ newline.

(** mod.rs:25-35 fmt_program; [fuel] is for [fmt_comptypes] *)
Definition fmt_program (T : Target) (fuel : nat) (prog : Program) : Outcome string :=
  let! ' (functions, ct) := fmt_functions prog [] in
  let! ' (comptypes, _) := fmt_comptypes T fuel 0 ct in
  Ret (comptypes ++ fmt_traits (pr_traits prog) ++ fmt_vtables (pr_vtables prog) ++ functions ++ fmt_globals (pr_globals prog)).
