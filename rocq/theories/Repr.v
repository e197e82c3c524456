(** Value representation. Models spec/lang/representation.md. *)
From Verif Require Export Types.

Section Repr.
  Context {P : Type} `{EqDecision P}.
  Variable T : Target.

  Notation AB := (AByte P).
  Notation Val := (Value P).

  (** all bytes initialised: their data; [bytes.try_map(|b| b.data())] *)
  Fixpoint bytes_data (l : list AB) : option (list byte) :=
    match l with
    | [] => Some []
    | b :: r =>
        match ab_data b with
        | None => None
        | Some d => match bytes_data r with Some ds => Some (d :: ds) | None => None end
        end
    end.

  (** representation.md:54-61 decode Bool *)
  Definition decode_bool (bytes : list AB) : Outcome (option Val) :=
    match bytes with
    | [Init x00 _] => Ret (Some (VBool false))
    | [Init x01 _] => Ret (Some (VBool true))
    | [_] => Ret None
    | _ => Panic
    end.
  (** representation.md:62-65 encode Bool *)
  Definition encode_bool (v : Val) : Outcome (list AB) :=
    match v with
    | VBool b => Ret [Init (if b then x01 else x00) None]
    | _ => Panic
    end.

  (** representation.md:75-80 decode Int *)
  Definition decode_int_opt (it : IntType) (bytes : list AB) : Outcome (option Z) :=
    if (N.of_nat (length bytes) =? it_size it)%N then
      match bytes_data bytes with
      | None => Ret None
      | Some ds => Ret (Some (endian_decode (ENDIANNESS T) (it_signed it) ds))
      end
    else Panic.
  Definition decode_int (it : IntType) (bytes : list AB) : Outcome (option Val) :=
    let! o := decode_int_opt it bytes in Ret (option_map VInt o).
  (** representation.md:81-86 encode Int *)
  Definition encode_int (it : IntType) (i : Z) : Outcome (list AB) :=
    let! ds := unwrap (endian_encode (ENDIANNESS T) (it_signed it) (it_size it) i) in
    Ret (List.map (fun b => Init b None) ds).

  (** representation.md:119-131 the fold over the provenance fragments: [idx] is the index of the
      next byte *)
  Fixpoint prov_fold (acc : option P) (idx : Z) (bytes : list AB) : option P :=
    match bytes with
    | [] => acc
    | b :: r =>
        let acc' :=
          match ab_frag b with
          | Some f => if (frag_pos f =? idx) && bool_decide (Some (frag_prov f) = acc)
                      then acc else None
          | None => None
          end in
        prov_fold acc' (idx + 1) r
    end.

  (** representation.md:112-133 decode_ptr *)
  Definition decode_ptr (bytes : list AB) : Outcome (option (ThinPtr P)) :=
    if (N.of_nat (length bytes) =? PTR_SIZE T)%N then
      match bytes_data bytes with
      | None => Ret None
      | Some ds =>
          let addr := endian_decode (ENDIANNESS T) Unsigned ds in
          match bytes with
          | [] => Panic
          | b0 :: _ =>
              let start := option_map frag_prov (ab_frag b0) in
              Ret (Some (mkThin addr (prov_fold start 0 bytes)))
          end
      end
    else Panic.

  Fixpoint encode_frags (prov : option P) (idx : Z) (ds : list byte) : list AB :=
    match ds with
    | [] => []
    | d :: r => Init d (option_map (fun p => mkFrag p idx) prov) :: encode_frags prov (idx + 1) r
    end.
  (** representation.md:135-142 encode_ptr *)
  Definition encode_ptr (p : ThinPtr P) : Outcome (list AB) :=
    let! ds := unwrap (endian_encode (ENDIANNESS T) Unsigned (PTR_SIZE T) (tp_addr p)) in
    Ret (encode_frags (tp_prov p) 0 ds).

  (** representation.md:146-152 PointerMetaKind::ty *)
  Definition meta_kind_ty (mk : MetaKind) : Ty :=
    match mk with
    | MKNone => unit_ty
    | MKElementCount => TInt (usize_ty T)
    | MKVTablePointer tn => TPtr (PVTablePtr tn)
    end.

  (** representation.md:157-175 PtrType::as_wide_pair *)
  Definition as_wide_pair (pt : PtrType) : Outcome (option Ty) :=
    match ptr_meta_kind pt with
    | MKNone => Ret None
    | mk =>
        let meta_ty := meta_kind_ty mk in
        let! s := size_of T meta_ty in
        let! _ := assert_ (s =? PTR_SIZE T)%N in
        let! a := align_of T meta_ty in
        let! _ := assert_ (bool_decide (a = PTR_ALIGN T)) in
        Ret (Some (TTuple [(0%N, TPtr (PRaw MKNone)); (PTR_SIZE T, meta_ty)]
                          (mkHead (2 * PTR_SIZE T) (PTR_ALIGN T) None) None))
    end.

  (** representation.md:182-189 PointerMetaKind::decode_value *)
  Definition meta_decode_value (mk : MetaKind) (v : Val) : Outcome (option (PtrMeta P)) :=
    match mk, v with
    | MKNone, VTuple [] => Ret None
    | MKElementCount, VInt c => Ret (Some (MElementCount c))
    | MKVTablePointer _, VPtr (mkPtr p None) => Ret (Some (MVTablePointer p))
    | _, _ => Panic
    end.
  (** representation.md:193-200 PointerMetaKind::encode_as_value *)
  Definition meta_encode_as_value (mk : MetaKind) (m : option (PtrMeta P)) : Outcome Val :=
    match mk, m with
    | MKNone, None => Ret unit_value
    | MKElementCount, Some (MElementCount c) => Ret (VInt c)
    | MKVTablePointer _, Some (MVTablePointer p) => Ret (VPtr (widen p None))
    | _, _ => Panic
    end.

  (** The metadata half of a wide pointer, decoded at [meta_kind_ty]. *)
  Definition decode_meta (mk : MetaKind) (bytes : list AB) : Outcome (option Val) :=
    match mk with
    | MKNone => Panic
    | MKElementCount => decode_int (usize_ty T) bytes
    | MKVTablePointer _ =>
        let! o := decode_ptr bytes in Ret (option_map (fun p => VPtr (widen p None)) o)
    end.
  Definition encode_meta (mk : MetaKind) (v : Val) : Outcome (list AB) :=
    match mk, v with
    | MKElementCount, VInt c => encode_int (usize_ty T) c
    | MKVTablePointer _, VPtr (mkPtr p None) => encode_ptr p
    | _, _ => Panic
    end.

  (** representation.md:204-221 decode Ptr. The code decodes wide pointers by a recursive call at
      the tuple type [as_wide_pair]; here that tuple decoding is written out.
      [decode_ptr_as_wide_pair] in ReprTy3.v proves that both agree. *)
  Definition decode_pointer (pt : PtrType) (bytes : list AB) : Outcome (option Val) :=
    let! wide := as_wide_pair pt in
    match wide with
    | None =>
        let! o := decode_ptr bytes in Ret (option_map (fun p => VPtr (widen p None)) o)
    | Some _ =>
        let '(size, _) := head_size_and_align (mkHead (2 * PTR_SIZE T) (PTR_ALIGN T) None) in
        if (N.of_nat (length bytes) =? size)%N then
          let! b1 := subslice bytes 0 (PTR_SIZE T) in
          let! o1 := decode_ptr b1 in
          match o1 with
          | None => Ret None
          | Some p =>
              let! b2 := subslice bytes (PTR_SIZE T) (PTR_SIZE T) in
              let! o2 := decode_meta (ptr_meta_kind pt) b2 in
              match o2 with
              | None => Ret None
              | Some mv =>
                  let! meta := meta_decode_value (ptr_meta_kind pt) mv in
                  match meta with
                  | None => Panic
                  | Some m => Ret (Some (VPtr (widen p (Some m))))
                  end
              end
          end
        else Panic
    end.

  (** representation.md:222-238 encode Ptr; the recursive call at [as_wide_pair] is written out,
      see [encode_ptr_as_wide_pair] in ReprTy3.v. *)
  Definition encode_pointer (pt : PtrType) (p : Pointer P) : Outcome (list AB) :=
    let! wide := as_wide_pair pt in
    match wide with
    | None =>
        match p_meta p with
        | Some _ => Panic
        | None => encode_ptr (p_thin p)
        end
    | Some _ =>
        let! mv := meta_encode_as_value (ptr_meta_kind pt) (p_meta p) in
        let '(size, _) := head_size_and_align (mkHead (2 * PTR_SIZE T) (PTR_ALIGN T) None) in
        let bytes := list_repeat Uninit size in
        let! b1 := encode_ptr (p_thin p) in
        let! bytes := write_subslice bytes 0 b1 in
        let! b2 := encode_meta (ptr_meta_kind pt) mv in
        write_subslice bytes (PTR_SIZE T) b2
    end.

  (** the list 0, 1, ..., n-1 of array indices *)
  Definition indices (count : Z) : list N := List.map N.of_nat (seq 0 (Z.to_nat count)).

  (** representation.md:366-374 first child whose range contains the value *)
  Definition in_range (val : Z) (r : Z * Z) : bool := (fst r <=? val) && (val <? snd r).

  Definition find_child {R} (f : Discriminator -> R) (val : Z)
    : list ((Z * Z) * Discriminator) -> option R :=
    fix go l := match l with
                | [] => None
                | (r, c) :: rest => if in_range val r then Some (f c) else go rest
                end.

  (** representation.md:361-375 decode_discriminant. The accessor is a function that may fail
      (memory access) and, because loads can change the memory, threads a state [S]. *)
  Fixpoint decode_discriminant {S} (accessor : S -> Offset -> Size -> Outcome (list AB * S))
      (d : Discriminator) (s : S) : Outcome (option Z * S) :=
    match d with
    | DKnown val => Ret (Some val, s)
    | DInvalid => Ret (None, s)
    | DBranch offset value_type fallback children =>
        let! '(bytes, s) := accessor s offset (it_size value_type) in
        let! o := decode_int_opt value_type bytes in
        match o with
        | None => Ret (None, s)
        | Some val =>
            match find_child (fun c => decode_discriminant accessor c s) val children with
            | Some r => r
            | None => decode_discriminant accessor fallback s
            end
        end
    end.

  (** the accessor that reads from a byte list, representation.md:399-402 *)
  Definition bytes_accessor (bytes : list AB) : unit -> Offset -> Size -> Outcome (list AB * unit) :=
    fun _ off size => let! b := subslice bytes off size in Ret (b, tt).

  (** representation.md:382-391 encode_discriminant, with a state-threading accessor *)
  Definition encode_discriminant {S} (accessor : S -> Offset -> list AB -> Outcome S)
      (tagger : Tagger) (s : S) : Outcome S :=
    fold_m (fun s entry =>
              let '(offset, (value_type, value)) := entry in
              let! bytes := encode_int value_type value in
              accessor s offset bytes) tagger s.

  (** representation.md:182-457 Type::decode *)
  Fixpoint decode (ty : Ty) (bytes : list AB) {struct ty} : Outcome (option Val) :=
    match ty with
    | TBool => decode_bool bytes
    | TInt it => decode_int it bytes
    | TPtr pt => decode_pointer pt bytes
    | TTuple fields head unsized =>
        match unsized with
        | Some _ => Panic
        | None =>
            let '(size, _) := head_size_and_align head in
            if (N.of_nat (length bytes) =? size)%N then
              let! vs := try_map (fun f =>
                  let! s := size_of T (snd f) in
                  let! sub := subslice bytes (fst f) s in
                  decode (snd f) sub) fields in
              Ret (option_map VTuple vs)
            else Panic
        end
    | TArray elem count =>
        let! elem_size := size_of T elem in
        let! full_size := size_mul elem_size count in
        if (N.of_nat (length bytes) =? full_size)%N then
          let! chunks := map_m (fun i => subslice bytes (i * elem_size) elem_size) (indices count) in
          let! vs := try_map (decode elem) chunks in
          Ret (option_map VTuple vs)
        else Panic
    | TUnion _ chunks size _ =>
        if (N.of_nat (length bytes) =? size)%N then
          let! data := map_m (fun c => subslice bytes (fst c) (snd c)) chunks in
          Ret (Some (VUnion data))
        else Panic
    | TEnum variants _ discr size _ =>
        if (N.of_nat (length bytes) =? size)%N then
          let! '(d, _) := decode_discriminant (bytes_accessor bytes) discr tt in
          match d with
          | None => Ret None
          | Some d =>
              match map_get_with (fun v => decode (fst v) bytes) d variants with
              | None => Panic
              | Some r => let! o := r in Ret (option_map (VVariant d) o)
              end
          end
        else Panic
    | TSlice _ => Panic
    | TTraitObject _ => Panic
    end.

  (** representation.md:62-457 Type::encode *)
  Fixpoint encode (ty : Ty) (v : Val) {struct ty} : Outcome (list AB) :=
    match ty with
    | TBool => encode_bool v
    | TInt it => match v with VInt i => encode_int it i | _ => Panic end
    | TPtr pt => match v with VPtr p => encode_pointer pt p | _ => Panic end
    | TTuple fields head unsized =>
        match unsized with
        | Some _ => Panic
        | None =>
            let '(size, _) := head_size_and_align head in
            match v with
            | VTuple vals =>
                let! _ := assert_ (length vals =? length fields)%nat in
                fold_m2 (fun bytes f v =>
                    let! e := encode (snd f) v in
                    write_subslice bytes (fst f) e) fields vals (list_repeat Uninit size)
            | _ => Panic
            end
        end
    | TArray elem count =>
        match v with
        | VTuple vals =>
            let! _ := assert_ (Z.of_nat (length vals) =? count) in
            let! parts := map_m (fun v =>
                let! b := encode elem v in
                let! s := size_of T elem in
                let! _ := assert_ (N.of_nat (length b) =? s)%N in
                Ret b) vals in
            Ret (concat parts)
        | _ => Panic
        end
    | TUnion _ chunks size _ =>
        match v with
        | VUnion data =>
            let! _ := assert_ (length data =? length chunks)%nat in
            fold_m2 (fun bytes c d =>
                let! _ := assert_ (snd c =? N.of_nat (length d))%N in
                write_subslice bytes (fst c) d) chunks data (list_repeat Uninit size)
        | _ => Panic
        end
    | TEnum variants _ _ _ _ =>
        match v with
        | VVariant d data =>
            match map_get_with (fun var =>
                let! bytes := encode (fst var) data in
                encode_discriminant (fun bytes off b => write_subslice bytes off b) (snd var) bytes)
                d variants with
            | None => Panic
            | Some r => r
            end
        | _ => Panic
        end
    | TSlice _ => Panic
    | TTraitObject _ => Panic
    end.

  (** ** Well-formed values *)

  (** What [check_value] asks of the machine state: whether memory is dereferenceable
      (spec/mem/interface.md:107), the fallible vtable lookup (spec/lang/machine.md:347-352) and the
      panicking one (spec/lang/machine.md:372-381). *)
  Record ChkEnv := mkChkEnv {
    ce_deref : ThinPtr P -> Size -> Outcome unit;
    ce_vtable_from_ptr : ThinPtr P -> Outcome VTable;
    ce_vtable_lookup : ThinPtr P -> Outcome VTable;
  }.

  Variable env : ChkEnv.

  (** representation.md:482-485 ensure_else_ub *)
  Definition ensure_else_ub (b : bool) (msg : string) : Outcome unit :=
    if b then Ret tt else throw_ub msg.

  (** representation.md:505-537 check_ptr at [PtrType::VTablePtr] and a pointer without metadata:
      the only recursive use of check_ptr (from check_ptr_metadata). *)
  Definition check_vtable_ptr (p : ThinPtr P) (tn : TraitName) : Outcome unit :=
    let! _ := ensure_else_ub (in_bounds Unsigned (PTR_SIZE T) (tp_addr p))
                "Value::Ptr: pointer out-of-bounds" in
    let! vt := ce_vtable_from_ptr env p in
    ensure_else_ub (bool_decide (vt_trait vt = tn)) "Value::Ptr: invalid vtable in metadata".

  (** representation.md:490-502 check_ptr_metadata *)
  Definition check_ptr_metadata (m : option (PtrMeta P)) (mk : MetaKind) : Outcome unit :=
    match m, mk with
    | None, MKNone => Ret tt
    | Some (MElementCount n), MKElementCount =>
        ensure_else_ub (can_represent (usize_ty T) n) "Value::Int: invalid integer value"
    | Some (MVTablePointer p), MKVTablePointer tn => check_vtable_ptr p tn
    | _, _ => throw_ub "Value::Ptr: invalid metadata"
    end.

  (** spec/lang/machine.md:384-393 compute_size, compute_align *)
  Definition compute_size (l : LayoutStrategy) (m : option (PtrMeta P)) : Outcome Size :=
    let! '(s, _) := compute_size_and_align l m (ce_vtable_lookup env) in Ret s.
  Definition compute_align (l : LayoutStrategy) (m : option (PtrMeta P)) : Outcome Align :=
    let! '(_, a) := compute_size_and_align l m (ce_vtable_lookup env) in Ret a.

  (** representation.md:505-537 check_ptr *)
  Definition check_ptr (p : Pointer P) (pt : PtrType) : Outcome unit :=
    let! _ := ensure_else_ub (in_bounds Unsigned (PTR_SIZE T) (tp_addr (p_thin p)))
                "Value::Ptr: pointer out-of-bounds" in
    let! _ := check_ptr_metadata (p_meta p) (ptr_meta_kind pt) in
    match safe_pointee pt with
    | Some pi =>
        let! size := compute_size (pi_layout pi) (p_meta p) in
        let! align := compute_align (pi_layout pi) (p_meta p) in
        let! _ := ensure_else_ub (in_bounds Signed (PTR_SIZE T) (Z.of_N size))
                    "Value::Ptr: total size exeeds isize::MAX" in
        let! _ := ensure_else_ub (negb (tp_addr (p_thin p) =? 0)) "Value::Ptr: null safe pointer" in
        let! _ := ensure_else_ub (is_aligned align (tp_addr (p_thin p)))
                    "Value::Ptr: unaligned safe pointer" in
        let! _ := ensure_else_ub (pi_inhabited pi)
                    "Value::Ptr: safe pointer to uninhabited type" in
        let! ok := is_ok (ce_deref env (p_thin p) size) in
        ensure_else_ub ok "Value::Ptr: non-dereferenceable safe pointer"
    | None =>
        match pt with
        | PVTablePtr tn =>
            let! vt := ce_vtable_from_ptr env (p_thin p) in
            ensure_else_ub (bool_decide (vt_trait vt = tn)) "Value::Ptr: invalid vtable in metadata"
        | _ => Ret tt
        end
    end.

  (** representation.md:541-579 check_value *)
  Fixpoint check_value (ty : Ty) (v : Val) {struct ty} : Outcome unit :=
    match ty with
    | TInt it =>
        match v with
        | VInt i => ensure_else_ub (can_represent it i) "Value::Int: invalid integer value"
        | _ => Panic
        end
    | TBool => match v with VBool _ => Ret tt | _ => Panic end
    | TPtr pt => match v with VPtr p => check_ptr p pt | _ => Panic end
    | TTuple fields _ unsized =>
        match v with
        | VTuple vals =>
            match unsized with
            | Some _ => Panic
            | None =>
                let! _ := ensure_else_ub (length vals =? length fields)%nat
                            "Value::Tuple: invalid number of fields" in
                for_each2 (fun f v => check_value (snd f) v) fields vals
            end
        | _ => Panic
        end
    | TArray elem count =>
        match v with
        | VTuple vals =>
            let! _ := ensure_else_ub (Z.of_nat (length vals) =? count)
                        "Value::Tuple: invalid number of elements" in
            for_each (check_value elem) vals
        | _ => Panic
        end
    | TUnion _ chunks _ _ =>
        match v with
        | VUnion data =>
            let! _ := ensure_else_ub (length data =? length chunks)%nat
                        "Value::Union: invalid chunk size" in
            for_each2 (fun c d => ensure_else_ub (N.of_nat (length d) =? snd c)%N
                        "Value::Union: invalid chunk data") chunks data
        | _ => Panic
        end
    | TEnum variants _ _ _ _ =>
        match v with
        | VVariant d data =>
            match map_get_with (fun var => check_value (fst var) data) d variants with
            | None => throw_ub "Value::Variant: invalid discrimant"
            | Some r => r
            end
        | _ => Panic
        end
    | TSlice _ => Panic
    | TTraitObject _ => Panic
    end.

  (** representation.md:790-802 transmute *)
  Definition transmute (v : Val) (type1 type2 : Ty) : Outcome Val :=
    let! s1 := size_of T type1 in
    let! s2 := size_of T type2 in
    let! _ := assert_ (s1 =? s2)%N in
    let! bytes := encode type1 v in
    let! o := decode type2 bytes in
    match o with
    | Some raw => let! _ := check_value type2 raw in Ret raw
    | None => throw_ub "transmuted value is not valid at new type"
    end.

  (** ** The definedness order *)

  (** representation.md:654-672 le_defined on AbstractByte *)
  Definition ab_le (a b : AB) : bool :=
    match a, b with
    | Uninit, _ => true
    | Init d1 None, Init d2 _ => Byte.eqb d1 d2
    | Init d1 (Some p1), Init d2 (Some p2) => Byte.eqb d1 d2 && bool_decide (p1 = p2)
    | _, _ => false
    end.
  (** representation.md:677-686 le_defined on ThinPointer *)
  Definition thin_le (a b : ThinPtr P) : bool :=
    (tp_addr a =? tp_addr b) &&
    match tp_prov a, tp_prov b with
    | None, _ => true
    | Some p1, Some p2 => bool_decide (p1 = p2)
    | _, _ => false
    end.
  (** representation.md:688-695 le_defined on PointerMeta *)
  Definition meta_le (a b : PtrMeta P) : bool :=
    match a, b with
    | MVTablePointer p1, MVTablePointer p2 => thin_le p1 p2
    | _, _ => bool_decide (a = b)
    end.
  (** representation.md:738-746 le_defined on Option *)
  Definition opt_le {A} (le : A -> A -> bool) (a b : option A) : bool :=
    match a, b with
    | None, _ => true
    | Some x, Some y => le x y
    | _, _ => false
    end.
  (** representation.md:697-702 le_defined on Pointer *)
  Definition ptr_le (a b : Pointer P) : bool :=
    thin_le (p_thin a) (p_thin b) && opt_le meta_le (p_meta a) (p_meta b).
  (** representation.md:707-712 le_defined on List *)
  Definition list_le {A} (le : A -> A -> bool) : list A -> list A -> bool := forall2b le.
  (** representation.md:716-735 le_defined on Value *)
  Fixpoint val_le (a b : Val) : bool :=
    match a, b with
    | VInt i1, VInt i2 => i1 =? i2
    | VBool b1, VBool b2 => Bool.eqb b1 b2
    | VPtr p1, VPtr p2 => ptr_le p1 p2
    | VTuple v1, VTuple v2 => list_le val_le v1 v2
    | VVariant d1 v1, VVariant d2 v2 => (d1 =? d2) && val_le v1 v2
    | VUnion c1, VUnion c2 => list_le (list_le ab_le) c1 c2
    | _, _ => false
    end.
End Repr.

Arguments ChkEnv : clear implicits.
