(** Well-formedness of layouts and types. Models spec/lang/well-formed.md:12-286.
    The program is only consulted for its set of trait names, so the checks take that as a
    function [has_trait] ([prog.traits.contains_key]). *)
From Verif Require Export Types.

(** well-formed.md:12-15 ensure_wf *)
Definition ensure_wf (b : bool) (msg : string) : Outcome unit :=
  if b then Ret tt else throw_ill_formed msg.

Section WfTypes.
  Variable T : Target.
  Variable has_trait : TraitName -> bool.

  (** well-formed.md:22-25 IntType::check_wf *)
  Definition inttype_check_wf (it : IntType) : Outcome unit :=
    ensure_wf (is_power_of_two (it_size it)) "IntType: size is not power of two".

  (** well-formed.md:29-35 TupleHeadLayout::check_wf *)
  Definition head_check_wf (h : TupleHead) : Outcome unit :=
    let! _ := ensure_wf (valid_size T (th_end h)) "TupleHeadLayout: end not valid" in
    match th_packed h with
    | Some packed =>
        ensure_wf (align_le (th_align h) packed) "TupleHeadLayout: align bigger than packed attribute"
    | None => Ret tt
    end.

  (** well-formed.md:40-60 LayoutStrategy::check_wf *)
  Fixpoint layout_check_wf (l : LayoutStrategy) : Outcome unit :=
    match l with
    | LSized size _ => ensure_wf (valid_size T size) "LayoutStrategy: size not valid"
    | LSlice size _ => ensure_wf (valid_size T size) "LayoutStrategy: element size not valid"
    | LTraitObject tn => ensure_wf (has_trait tn) "LayoutStrategy: trait name doesn't exist"
    | LTuple head tail =>
        let! _ := head_check_wf head in
        let! _ := layout_check_wf tail in
        ensure_wf (negb (is_sized tail)) "LayoutStrategy: tuple with sized tail"
    end.

  (** well-formed.md:62-77 LayoutStrategy::check_aligned *)
  Fixpoint layout_check_aligned (l : LayoutStrategy) : Outcome unit :=
    match l with
    | LSized size align =>
        ensure_wf (size mod align_bytes align =? 0)%N "check_aligned: size not a multiple of alignment"
    | LSlice size align =>
        ensure_wf (size mod align_bytes align =? 0)%N
          "check_aligned: element size not a multiple of alignment"
    | LTraitObject _ => Ret tt
    | LTuple _ tail => layout_check_aligned tail
    end.

  (** well-formed.md:81-89 UnsafeCellStrategy::check_cells *)
  Definition check_cells (cells : list (Offset * Size)) (size : Size) : Outcome unit :=
    let! last_end := fold_m (fun last_end c =>
        let! _ := ensure_wf (last_end <=? fst c)%N "LayoutStrategy: invalid cells" in
        Ret (fst c + snd c)%N) cells 0%N in
    ensure_wf (last_end <=? size)%N "LayoutStrategy: invalid cells".

  (** well-formed.md:91-109 UnsafeCellStrategy::check_wf *)
  Fixpoint cells_check_wf (c : CellStrategy) (l : LayoutStrategy) : Outcome unit :=
    match c, l with
    | CSized cells, LSized size _ => check_cells cells size
    | CSlice cells, LSlice size _ => check_cells cells size
    | CTraitObject, LTraitObject _ => Ret tt
    | CTuple head_cells tail_cells, LTuple head tail =>
        let! _ := check_cells head_cells (th_end head) in
        cells_check_wf tail_cells tail
    | _, _ => throw_ill_formed "UnsafeCellStrategy and LayoutStrategy variants do not match"
    end.

  (** well-formed.md:113-119 PointeeInfo::check_wf *)
  Definition pointee_check_wf (pi : PointeeInfo) : Outcome unit :=
    let! _ := layout_check_wf (pi_layout pi) in
    cells_check_wf (pi_cells pi) (pi_layout pi).

  (** well-formed.md:123-135 PtrType::check_wf *)
  Definition ptrtype_check_wf (pt : PtrType) : Outcome unit :=
    match pt with
    | PRef _ pi | PBox pi => pointee_check_wf pi
    | PRaw _ | PFnPtr => Ret tt
    | PVTablePtr tn => ensure_wf (has_trait tn) "PtrType::VTablePtr: trait name doesn't exist"
    end.

  (** the iteration of [children.keys().enumerate()] in well-formed.md:278-279 *)
  Definition ranges_disjoint (idx : nat) (start end_ : Z)
      (children : list ((Z * Z) * Discriminator)) : bool :=
    forallb (fun ko => let '(other_idx, (other_start, other_end)) := ko in
               (other_end <=? start) || (end_ <=? other_start) || (idx =? other_idx)%nat)
            (zip (seq 0 (length children)) (List.map fst children)).

  (** a for loop with index *)
  Definition for_each_idx {A} (f : nat -> A -> Outcome unit) : nat -> list A -> Outcome unit :=
    fix go i l := match l with
                  | [] => Ret tt
                  | x :: r => let! _ := f i x in go (S i) r
                  end.

  (** well-formed.md:263-285 Discriminator::check_wf *)
  Fixpoint discr_check_wf (size : Size) (variants : list (Z * (Ty * Tagger))) (d : Discriminator)
    : Outcome unit :=
    match d with
    | DKnown d => ensure_wf (map_contains variants d) "Discriminator: invalid discriminant"
    | DInvalid => Ret tt
    | DBranch offset value_type fallback children =>
        let! _ := inttype_check_wf value_type in
        let! _ := ensure_wf (offset + it_size value_type <=? size)%N
                    "Discriminator: branch offset exceeds size" in
        let! _ := discr_check_wf size variants fallback in
        for_each_idx (fun idx child =>
          let start := fst (fst child) in
          let end_ := snd (fst child) in
          let! _ := ensure_wf (can_represent value_type start)
                      "Discriminator: invalid branch start bound" in
          let! _ := ensure_wf (can_represent value_type (end_ - 1))
                      "Discriminator: invalid branch end bound" in
          let! _ := ensure_wf (start <? end_) "Discriminator: invalid bound values" in
          let! _ := ensure_wf (ranges_disjoint idx start end_ children)
                      "Discriminator: branch ranges overlap" in
          discr_check_wf size variants (snd child)) 0%nat children
    end.

  (** well-formed.md:230-234 the tagger part of the variant check *)
  Definition tagger_check_wf (size : Size) (tg : Tagger) : Outcome unit :=
    for_each (fun e =>
      let! _ := inttype_check_wf (fst (snd e)) in
      let! _ := ensure_wf (can_represent (fst (snd e)) (snd (snd e)))
                  "Type::Enum: invalid tagger value" in
      ensure_wf (fst e + it_size (fst (snd e)) <=? size)%N
        "Type::Enum tagger type size too big for enum") tg.

  (** well-formed.md:199-207 the union chunk check *)
  Definition chunks_check_wf (chunks : list (Offset * Size)) (size : Size) : Outcome unit :=
    let! last_end := fold_m (fun last_end c =>
        let! _ := ensure_wf (last_end <=? fst c)%N
                    "Type::Union: chunks are not stored in ascending order" in
        Ret (fst c + snd c)%N) chunks 0%N in
    ensure_wf (last_end <=? size)%N "Type::Union: chunks do not fit union".

  (** well-formed.md:246-255 the tail of Type::check_wf, run for every type *)
  Definition final_check_wf (ty : Ty) : Outcome unit :=
    let! l := layout T ty in
    let! _ := layout_check_wf l in
    let! _ := layout_check_aligned l in
    assert_ (bool_decide (layout_meta_kind l = ty_meta_kind ty)).

  (** well-formed.md:139-259 Type::check_wf. The sorted copy of the tuple fields
      (well-formed.md:155) is a sort of triples of offset, recursive check and type, because the
      recursion has to go through the unsorted list. *)
  Fixpoint ty_check_wf (ty : Ty) : Outcome unit :=
    let! _ :=
      match ty with
      | TInt it => inttype_check_wf it
      | TBool => Ret tt
      | TPtr pt => ptrtype_check_wf pt
      | TTuple fields head unsized =>
          let checked := List.map (fun f => (fst f, (ty_check_wf (snd f), snd f))) fields in
          let sorted := sort_by_key fst checked in
          let! last_end := fold_m (fun last_end f =>
              let! _ := fst (snd f) in
              let! _ := ensure_wf (last_end <=? fst f)%N "Type::Tuple: overlapping fields" in
              let! l := layout T (snd (snd f)) in
              let! _ := ensure_wf (is_sized l) "Type::Tuple: unsized field type in head" in
              let! s := expect_size l in
              Ret (fst f + s)%N) sorted 0%N in
          let! _ := match unsized with
                    | Some u =>
                        let! _ := ty_check_wf u in
                        let! l := layout T u in
                        ensure_wf (negb (is_sized l)) "Type::Tuple: sized unsized field type"
                    | None => Ret tt
                    end in
          let! _ := head_check_wf head in
          let! _ := ensure_wf (last_end <=? th_end head)%N
                      "Type::Tuple: size of fields is bigger than the end of the sized head" in
          match th_packed head with
          | Some _ => ensure_wf (bool_decide (is_Some unsized))
                        "Type::Tuple: meaningless packed align for sized tuple"
          | None => Ret tt
          end
      | TArray elem count =>
          let! _ := ensure_wf (0 <=? count) "Type::Array: negative amount of elements" in
          let! l := layout T elem in
          let! _ := ensure_wf (is_sized l) "Type::Array: unsized element type" in
          ty_check_wf elem
      | TSlice elem =>
          let! l := layout T elem in
          let! _ := ensure_wf (is_sized l) "Type::Slice: unsized element type" in
          ty_check_wf elem
      | TUnion fields chunks size _ =>
          let! _ := for_each (fun f =>
              let! _ := ty_check_wf (snd f) in
              let! l := layout T (snd f) in
              let! _ := ensure_wf (is_sized l) "Type::Union: unsized field type" in
              let! s := expect_size l in
              ensure_wf (fst f + s <=? size)%N "Type::Union: field size does not fit union") fields in
          chunks_check_wf chunks size
      | TEnum variants dty discr size align =>
          let! _ := for_each (fun v =>
              let! _ := ensure_wf (can_represent dty (fst v))
                          "Type::Enum: invalid value for discriminant" in
              let! _ := ty_check_wf (fst (snd v)) in
              let! l := layout T (fst (snd v)) in
              match l with
              | LSized var_size var_align =>
                  let! _ := ensure_wf (var_size =? size)%N
                              "Type::Enum: variant size is not the same as enum size" in
                  let! _ := ensure_wf (align_le var_align align)
                              "Type::Enum: invalid align requirement" in
                  tagger_check_wf size (snd (snd v))
              | _ => throw_ill_formed "Type::Enum: variant type is unsized"
              end) variants in
          discr_check_wf size variants discr
      | TTraitObject tn => ensure_wf (has_trait tn) "Type::TraitObject: trait name doesn't exist"
      end in
    final_check_wf ty.
End WfTypes.
