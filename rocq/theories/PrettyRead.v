(** A reader of the printed text, to show that it is unambiguous. *)
From Coq Require Import Ascii String DecimalString.
From Verif Require Export PrettySpec OutSpec OutProofs RunProofs.
Local Open Scope string_scope.

(** ** Texts *)

Fixpoint eat (p s : string) : option string :=
  match p, s with
  | EmptyString, _ => Some s
  | String c p, String d s => if Ascii.eqb c d then eat p s else None
  | String _ _, EmptyString => None
  end.
Definition Reader (A : Type) : Type := string -> option (A * string).
(** [then_ m k]: go on with what was read and the rest *)
Definition then_ {A B} (m : option (A * string)) (k : A -> string -> option B) : option B :=
  match m with Some (a, r) => k a r | None => None end.
Definition expect {B} (p : string) (s : string) (k : string -> option B) : option B :=
  match eat p s with Some r => k r | None => None end.
Notation "'let*' x , s := m 'in' k" := (then_ m (fun x s => k)) (at level 200, x name, s name, m at level 200, k at level 200).
(** the first keyword that is there decides *)
Fixpoint alt {A} (ks : list (string * Reader A)) (d : Reader A) : Reader A :=
  fun s => match ks with [] => d s | (k, f) :: ks => match eat k s with Some r => f r | None => alt ks d s end end.

Fixpoint read_digits (acc : N) (s : string) : N * string :=
  match s with
  | EmptyString => (acc, s)
  | String c r => match digit_value c with Some d => read_digits (10 * acc + d) r | None => (acc, s) end
  end.
Definition read_nat : Reader N := fun s =>
  match s with
  | String c r => match digit_value c with Some _ => Some (read_digits 0 s) | None => None end
  | EmptyString => None
  end.
Definition read_int : Reader Z := fun s =>
  match eat "-" s with
  | Some r => let* n, r := read_nat r in Some (- Z.of_N n, r)
  | None => let* n, r := read_nat s in Some (Z.of_N n, r)
  end.
Definition read_align : Reader Align := fun s => let* n, r := read_nat s in Some (mkAlign (N.log2 n), r).

(** ** Types *)

Definition read_meta_kind : Reader MetaKind :=
  alt [("thin", fun r => Some (MKNone, r)); ("meta=len", fun r => Some (MKElementCount, r));
       ("meta=vtable<trait", fun r => let* n, r := read_nat r in expect ">" r (fun r => Some (MKVTablePointer n, r)))] (fun _ => None).
Definition meta_trait (k : MetaKind) : TraitName := match k with MKVTablePointer tn => tn | _ => 0%N end.
Fixpoint read_layout (n : nat) (tn : TraitName) : Reader LayoutStrategy :=
  match n with
  | O => fun _ => None
  | S n =>
      alt [("size=", fun r => let* s, r := read_nat r in
              alt [("*len, align=", fun r => let* a, r := read_align r in Some (LSlice s a, r));
                   (", align=", fun r => let* a, r := read_align r in Some (LSized s a, r))] (fun _ => None) r);
           ("size,align={unknown}", fun r => Some (LTraitObject tn, r));
           ("head=(end=", fun r => let* e, r := read_nat r in expect ", align=" r (fun r => let* a, r := read_align r in expect ")" r (fun r =>
              alt [(", packed=", fun r => let* p, r := read_align r in expect ", tail=(" r (fun r => let* l, r := read_layout n tn r in expect ")" r (fun r =>
                     Some (LTuple (mkHead e a (Some p)) l, r))));
                   (", tail=(", fun r => let* l, r := read_layout n tn r in expect ")" r (fun r => Some (LTuple (mkHead e a None) l, r)))]
                (fun _ => None) r)))] (fun _ => None)
  end.
Definition read_flag (k : string) (s : string) : bool * string := match eat k s with Some r => (false, r) | None => (true, s) end.
Definition read_pointee (n : nat) : Reader PointeeInfo := fun s =>
  expect "pointee_info(" s (fun r => let* k, r := read_meta_kind r in expect ", " r (fun r => let* l, r := read_layout n (meta_trait k) r in
    let '(i, r) := read_flag ", uninhabited" r in
    let '(f, r) := read_flag ", !Freeze" r in
    let '(u, r) := read_flag ", !Unpin" r in
    expect ")" r (fun r => Some (mkPointee l i (CSized []) f u, r)))).
Definition read_ptr (n : nat) : Reader PtrType :=
  alt [("&mut ", fun r => let* pi, r := read_pointee n r in Some (PRef Mutable pi, r));
       ("&", fun r => let* pi, r := read_pointee n r in Some (PRef Immutable pi, r));
       ("Box<", fun r => let* pi, r := read_pointee n r in expect ">" r (fun r => Some (PBox pi, r)));
       ("*raw(", fun r => let* k, r := read_meta_kind r in expect ")" r (fun r => Some (PRaw k, r)));
       ("fn()", fun r => Some (PFnPtr, r)); ("{vtable}", fun r => Some (PVTablePtr 0, r))] (fun _ => None).
Definition read_int_ty : Reader IntType :=
  alt [("i", fun r => let* n, r := read_nat r in Some (mkIntTy Signed (n / 8), r));
       ("u", fun r => let* n, r := read_nat r in Some (mkIntTy Unsigned (n / 8), r))] (fun _ => None).

Section Read.
  Variable F : list Ty.

  Definition read_comp (r : string) : option (Ty * string) :=
    let* i, r := read_nat r in match F !! N.to_nat i with Some t => Some (t, r) | None => None end.
  Fixpoint read_ty (n : nat) : Reader Ty :=
    match n with
    | O => fun _ => None
    | S n =>
        alt [("i", fun r => let* n, r := read_nat r in Some (TInt (mkIntTy Signed (n / 8)), r));
             ("u", fun r => let* n, r := read_nat r in Some (TInt (mkIntTy Unsigned (n / 8)), r));
             ("bool", fun r => Some (TBool, r)); ("T", read_comp);
             ("[", fun r => let* t, r := read_ty n r in
                alt [("; ", fun r => let* c, r := read_int r in expect "]" r (fun r => Some (TArray t c, r)));
                     ("]", fun r => Some (TSlice t, r))] (fun _ => None) r);
             ("dyn trait", fun r => let* n, r := read_nat r in Some (TTraitObject n, r))]
          (fun s => let* pt, r := read_ptr n s in Some (TPtr pt, r))
    end.

  (** ** Expressions *)

  Definition read_op : Reader BinOp :=
    alt (List.map (fun x : string * BinOp => (fst x, fun r => Some (snd x, r)))
      [(" + ", BInt IAdd); (" - ", BInt ISub); (" * ", BInt IMul); (" / ", BInt IDiv); (" % ", BInt IRem); (" << ", BInt IShl);
       (" >> ", BInt IShr); (" & ", BInt IBitAnd); (" | ", BInt IBitOr); (" ^ ", BInt IBitXor); (" < ", BRel RLt); (" <= ", BRel RLe);
       (" > ", BRel RGt); (" >= ", BRel RGe); (" == ", BRel REq); (" != ", BRel RNe); (" <=> ", BRel RCmp)]) (fun _ => None).
  (** the fields and indices that follow a place *)
  Fixpoint read_suffix (rv : Reader ValueExpr) (k : nat) (p : PlaceExpr) : Reader PlaceExpr := fun s =>
    match k with
    | O => Some (p, s)
    | S k =>
        alt [(".", fun r => let* i, r := read_int r in read_suffix rv k (PField p i) r);
             ("[", fun r => let* i, r := rv r in expect "]" r (fun r => read_suffix rv k (PIndex p i) r))] (fun s => Some (p, s)) s
    end.
  (** the rest of a list, up to the closing bracket *)
  Fixpoint read_items {A} (rv : Reader A) (k : nat) (close : string) : Reader (list A) := fun s =>
    match k with
    | O => None
    | S k => let* e, r := rv s in alt [(", ", fun r => let* l, r := read_items rv k close r in Some (e :: l, r)); (close, fun r => Some ([e], r))] (fun _ => None) r
    end.
  Definition read_list {A} (rv : Reader A) (k : nat) (close : string) : Reader (list A) :=
    fun s => match read_items rv k close s with Some x => Some x | None => expect close s (fun r => Some ([], r)) end.
  (** two operands in parentheses *)
  Definition read_two (rv : Reader ValueExpr) (op : BinOp) : Reader ValueExpr := fun r =>
    let* l, r := rv r in expect ", " r (fun r => let* e, r := rv r in expect ")" r (fun r => Some (EBinOp op l e, r))).
  (** an operand in parentheses *)
  Definition read_one (rv : Reader ValueExpr) (op : UnOp) : Reader ValueExpr := fun r =>
    let* e, r := rv r in expect ")" r (fun r => Some (EUnOp op e, r)).

  Fixpoint read_value (n : nat) : Reader ValueExpr :=
    match n with
    | O => fun _ => None
    | S n =>
        alt [("&raw ", fun r => let* p, r := read_patom n r in Some (EAddrOf p (PRaw MKNone), r));
             ("&mut ", fun r => let* p, r := read_patom n r in Some (EAddrOf p (PRef Mutable no_pointee), r));
             ("&", fun r => let* p, r := read_patom n r in Some (EAddrOf p (PRef Immutable no_pointee), r));
             ("-(", fun r => read_one (read_value n) (UInt IUNeg) r);
             ("!(", fun r => let* e, r := read_value n r in Some (EUnOp (UInt IUBitNot) e, r));
             ("count_ones(", fun r => let* e, r := read_value n r in Some (EUnOp (UInt IUCountOnes) e, r));
             ("vtable_lookup<m", fun r => let* m, r := read_nat r in expect ">(" r (read_one (read_value n) (UVTableMethodLookup m)));
             ("T", fun r => let* t, r := read_comp r in
                alt [(" { field", fun r => let* f, r := read_int r in expect ": " r (fun r => let* e, r := read_value n r in expect " }" r (fun r => Some (EUnion f e t, r))));
                     ("(variant ", fun r => let* d, r := read_int r in expect "): " r (fun r => let* e, r := read_value n r in Some (EVariant d e t, r)))]
                  (fun _ => None) r);
             ("(", fun r => let* l, r := read_list (read_value n) n ")" r in
                match read_op r with
                | Some (op, r) => match l with [e] => let* e2, r := read_atom n r in Some (EBinOp op e e2, r) | _ => None end
                | None => Some (ETuple l no_type, r)
                end)]
          (fun s => let* e, r := read_atom n s in
             match read_op r with
             | Some (op, r) =>
                 match e, op with
                 | EConstant (KGlobalPointer g) t, BInt IAdd => let* o, r := read_nat r in Some (EConstant (KGlobalPointer (mkReloc (r_name g) o)) t, r)
                 | _, _ => let* e2, r := read_atom n r in Some (EBinOp op e e2, r)
                 end
             | None => Some (e, r)
             end)
    end
  with read_atom (n : nat) : Reader ValueExpr :=
    match n with
    | O => fun _ => None
    | S n =>
        alt [("(", fun r => let* e, r := read_value n r in expect ")" r (fun r => Some (e, r)));
             ("[", fun r => let* l, r := read_list (read_value n) n "]" r in Some (ETuple l (TArray no_type 0), r));
             ("true", fun r => Some (EConstant (KBool true) no_type, r)); ("false", fun r => Some (EConstant (KBool false) no_type, r));
             ("global(", fun r => let* g, r := read_nat r in expect ")" r (fun r => Some (EConstant (KGlobalPointer (mkReloc g 0)) no_type, r)));
             ("f", fun r => let* f, r := read_nat r in Some (EConstant (KFnPointer f) no_type, r));
             ("vtable", fun r => let* v, r := read_nat r in Some (EConstant (KVTablePointer v) no_type, r));
             ("nullptr", fun r => Some (EConstant (KPointerWithoutProvenance 0) no_type, r));
             ("invalid_ptr(", fun r => let* a, r := read_int r in expect ")" r (fun r => Some (EConstant (KPointerWithoutProvenance a) no_type, r)));
             ("discriminant(", fun r => let* p, r := read_place n r in expect ")" r (fun r => Some (EGetDiscriminant p, r)));
             ("load(", fun r => let* p, r := read_place n r in expect ")" r (fun r => Some (ELoad p, r)));
             ("int2int<", fun r => let* t, r := read_int_ty r in expect ">(" r (read_one (read_value n) (UCast (CIntToInt t))));
             ("transmute<", fun r => let* t, r := read_ty n r in expect ">(" r (read_one (read_value n) (UCast (CTransmute t))));
             ("get_thin_ptr(", read_one (read_value n) UGetThinPointer);
             ("get_metadata(", read_one (read_value n) UGetMetadata);
             ("compute_size<", fun r => let* t, r := read_ty n r in expect ">(" r (read_one (read_value n) (UComputeSize t)));
             ("compute_align<", fun r => let* t, r := read_ty n r in expect ">(" r (read_one (read_value n) (UComputeAlign t)));
             ("AddUnchecked(", read_two (read_atom n) (BInt IAddUnchecked)); ("SubUnchecked(", read_two (read_atom n) (BInt ISubUnchecked));
             ("MulUnchecked(", read_two (read_atom n) (BInt IMulUnchecked)); ("DivExact(", read_two (read_atom n) (BInt IDivExact));
             ("ShlUnchecked(", read_two (read_atom n) (BInt IShlUnchecked)); ("ShrUnchecked(", read_two (read_atom n) (BInt IShrUnchecked));
             ("AddWithOverflow(", read_two (read_atom n) (BIntWithOverflow OvAdd)); ("SubWithOverflow(", read_two (read_atom n) (BIntWithOverflow OvSub));
             ("MulWithOverflow(", read_two (read_atom n) (BIntWithOverflow OvMul));
             ("offset_inbounds(", read_two (read_value n) (BPtrOffset true)); ("offset_wrapping(", read_two (read_value n) (BPtrOffset false));
             ("offset_from_inbounds_nonneg(", read_two (read_value n) (BPtrOffsetFrom true true));
             ("offset_from_inbounds(", read_two (read_value n) (BPtrOffsetFrom true false));
             ("offset_from_wrapping_nonneg(", read_two (read_value n) (BPtrOffsetFrom false true));
             ("offset_from_wrapping(", read_two (read_value n) (BPtrOffsetFrom false false));
             ("construct_ptr<", fun r => let* pt, r := read_ptr n r in expect ">(" r (read_two (read_value n) (BConstructWidePointer pt)))]
          (fun s => let* i, r := read_int s in Some (EConstant (KInt i) no_type, r))
    end
  with read_place (n : nat) : Reader PlaceExpr :=
    match n with
    | O => fun _ => None
    | S n => fun s => let* p, r := read_patom n s in alt [(" as variant ", fun r => let* d, r := read_int r in Some (PDowncast p d, r))] (fun s => Some (p, s)) r
    end
  with read_patom (n : nat) : Reader PlaceExpr :=
    match n with
    | O => fun _ => None
    | S n =>
        alt [("_", fun r => let* l, r := read_nat r in read_suffix (read_value n) n (PLocal l) r);
             ("deref<", fun r => let* t, r := read_ty n r in expect ">(" r (fun r => let* e, r := read_value n r in expect ")" r (fun r =>
                read_suffix (read_value n) n (PDeref e t) r)));
             ("(", fun r => let* p, r := read_place n r in expect ")" r (fun r => read_suffix (read_value n) n p r))] (fun _ => None)
    end.
End Read.
