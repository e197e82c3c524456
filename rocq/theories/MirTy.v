(** Model of the translation of types: tooling/minimize/src/ty.rs and tooling/minimize/src/enums.rs. The layouts of types are
    the compiler's; they are inputs.

    Simplifications: the cache of translated types (ty.rs:178-180, 261) is left out, translating a type twice gives the same
    result. Normalisation of field types (ty.rs:278-280) is left to the compiler's answers. [translate_size] and
    [translate_align] (ty.rs:334-340) are identities here, because sizes and alignments have the same type on both sides.
    The recursion takes fuel; types do not contain themselves, so for each type some amount of fuel is enough. Running out of
    fuel is reported like an unsupported type. *)
From Verif Require Export Chunks Mini.

(** rs::Scalar of an enum's tag: the integer type of its primitive ([to_int_ty]), its size and its valid range, given by the
    bits of both ends *)
Record RTag := mkRTag { tg_int_ty : RTy; tg_size : Size; tg_start : Z; tg_end : Z }.

(** rs::TagEncoding. [Niche]: the untagged variant, the first and last of the niche variants, and the bits of the first tag *)
Inductive RTagEncoding :=
| TeDirect
| TeNiche (untagged : nat) (niche_first niche_last : nat) (niche_start : Z).

(** rs::Variants. [Multiple]: the tag, its encoding, the number of the tag's field, and the field offsets of each variant *)
Inductive RVariants :=
| VaEmpty
| VaSingle (index : nat)
| VaMultiple (tag : RTag) (encoding : RTagEncoding) (tag_field : nat) (variants : list (list Offset)).

(** rs::Layout: size, alignment, the offsets of the fields, the variants *)
Record RLayout := mkRLayout {
  rl_size : Size; rl_align : Align; rl_sized : bool; rl_uninhabited : bool; rl_offsets : list Offset; rl_variants : RVariants
}.

(** rs::TyKind, as far as ty.rs:99-158 and 177-263 tell types apart. Int and Uint have their integer type; tuples, closures,
    structs and unions the types of their fields; enums their discriminant type and, for each variant, the bits of its
    discriminant and the types of its fields; trait objects their trait's name (vtable.rs:91-105). *)
Inductive RKind :=
| RkBool
| RkInt (it : IntType)
| RkChar
| RkPat (inner : RTy)
| RkTuple (fields : list RTy)
| RkClosure (fields : list RTy)
| RkBox (pointee : RTy)
| RkStruct (is_unsafe_cell : bool) (fields : list RTy)
| RkUnion (fields : list RTy)
| RkEnum (discriminant_ty : RTy) (variants : list (Z * list RTy))
| RkRef (m : Mutability) (pointee : RTy)
| RkRawPtr (pointee : RTy)
| RkArray (elem : RTy) (count : N)
| RkFnPtr
| RkFnDef
| RkNever
| RkSlice (elem : RTy)
| RkStr
| RkDyn (tn : TraitName)
| RkOther.

(** What the compiler knows of types: [rs_layout_of], [is_freeze], [is_unpin], and the unit type *)
Record RTypes := mkRTypes {
  ty_kind : RTy -> RKind;
  ty_layout : RTy -> RLayout;
  ty_freeze : RTy -> bool;
  ty_unpin : RTy -> bool;
  ty_unit : RTy;
}.

(** [iter_enumerated] *)
Definition enumerate {A} (l : list A) : list (nat * A) := zip (seq 0 (length l)) l.

Section Types.
  Context (L : RTypes).
  Notation T := x86_64.

  (** ty.rs:99-158 cells_in_sized_ty, first half: the questions it asks the compiler, as a tree; Chunks.cells_in_sized_ty
      computes the cells from the tree. The code does both at once. *)
  Fixpoint cell_tree (fuel : nat) (r : RTy) : Outcome RsTy :=
    match fuel with
    | O => span_bug "out of fuel"
    | S fuel =>
        let l := ty_layout L r in
        let fields (tys : list RTy) : Outcome RsTy :=
          (* ty.rs:83-97 cells_from_layout *)
          let! fs := map_m (fun i =>
              let! o := unwrap (rl_offsets l !! i) in
              let! ty := unwrap (tys !! i) in
              let! t := cell_tree fuel ty in
              Ret (o, t)) (seq 0 (length (rl_offsets l))) in
          Ret (RsFields fs (rl_size l)) in
        match ty_kind L r with
        | RkBool | RkInt _ | RkChar | RkRawPtr _ | RkRef _ _ | RkBox _ | RkFnPtr | RkFnDef | RkNever => Ret (RsPlain (rl_size l))
        | RkTuple tys => fields tys
        | RkStruct true _ => Ret (RsUnsafeCell (rl_size l))
        | RkStruct false tys => fields tys
        | RkUnion _ | RkEnum _ _ => Ret (RsUnionOrEnum (ty_freeze L r) (rl_size l))
        | RkClosure tys => fields tys
        | RkArray elem count => let! t := cell_tree fuel elem in Ret (RsArray t count (rl_size l))
        | _ => span_bug "cells_in_sized_ty: TyKind not supported"
        end
    end.

  (** ty.rs:18-20, 35-37 the sorted cells *)
  Definition sorted_cells (fuel : nat) (r : RTy) : Outcome (list (Offset * Size)) :=
    let! t := cell_tree fuel r in
    Ret (sort_by_key fst (cells_in_sized_ty t)).

  (** ty.rs:4-72 pointee_info_of *)
  Definition pointee_info_of (fuel : nat) (r : RTy) : Outcome PointeeInfo :=
    let l := ty_layout L r in
    let inhabited := negb (rl_uninhabited l) in
    let mk layout cells := mkPointee layout inhabited cells (ty_freeze L r) (ty_unpin L r) in
    if rl_sized l then
      let! cells := sorted_cells fuel r in
      Ret (mk (LSized (rl_size l) (rl_align l)) (CSized cells))
    else
      match ty_kind L r with
      | RkSlice elem =>
          let el := ty_layout L elem in
          let! cells := sorted_cells fuel elem in
          Ret (mk (LSlice (rl_size el) (rl_align el)) (CSlice cells))
      | RkStr => Ret (mk (LSlice 1%N align_one) (CSlice []))
      | RkDyn tn => Ret (mk (LTraitObject tn) CTraitObject)
      | _ => span_bug "encountered unimplemented unsized type"
      end.

  (** The functions that translate_ty calls are given the recursive call. *)
  Section Open.
    Context (tr : RTy -> Outcome Ty).

    (** ty.rs:160-175 tuple_from_layout *)
    Definition tuple_from_layout (l : RLayout) (tys : list RTy) : Outcome Ty :=
      let! fields := map_m (fun i =>
          let! ty := unwrap (tys !! i) in
          let! t := tr ty in
          let! o := unwrap (rl_offsets l !! i) in
          Ret (o, t)) (seq 0 (length (rl_offsets l))) in
      Ret (b_tuple_ty fields (rl_size l) (rl_align l)).

    (** ty.rs:265-297 translate_adt_variant_fields *)
    Definition variant_fields (shape : option (list Offset)) (tys : list RTy) : Outcome (list (Offset * Ty)) :=
      map_m (fun x =>
          let '(i, ty) := x in
          let! t := tr ty in
          let! o := match shape with
                    | Some offsets => unwrap (offsets !! i)
                    | None =>
                        let! s := size_of T t in
                        let! _ := assert_ (s =? 0)%N in
                        Ret 0%N
                    end in
          Ret (o, t)) (enumerate tys).

    (** ty.rs:299-318 translate_non_enum_adt, without size and alignment *)
    Definition translate_non_enum_adt (l : RLayout) (tys : list RTy) : Outcome (list (Offset * Ty)) :=
      variant_fields (Some (rl_offsets l)) tys.

    (** [let Type::Int(..) = self.translate_ty(..) else { panic!(..) }], enums.rs:17-20, 60-64 *)
    Definition int_ty_of (r : RTy) : Outcome IntType :=
      let! t := tr r in
      match t with TInt it => Ret it | _ => Panic end.

    Definition Variants : Type := list (Z * (Ty * Tagger)).
    Definition Branches : Type := list ((Z * Z) * Discriminator).

    (** enums.rs:30-55 Variants::Single *)
    Definition enum_single (l : RLayout) (dty : IntType) (vs : list (Z * list RTy)) (single : nat)
      : Outcome (Variants * Discriminator) :=
      let! tv := fold_m (fun (tv : Variants) x =>
          let '(i, (bits, tys)) := x in
          let discr_int := int_from_bits bits dty in
          let! fields := variant_fields (if (i =? single)%nat then Some (rl_offsets l) else None) tys in
          Ret (map_insert tv discr_int (b_tuple_ty fields (rl_size l) (rl_align l), []))) (enumerate vs) [] in
      let! sv := unwrap (vs !! single) in
      Ret (tv, DKnown (int_from_bits (fst sv) dty)).

    (** enums.rs:69-154 the body of the loop over the variants in Variants::Multiple, for the variant with index [i],
        discriminant bits [bits] and fields [fields] *)
    Definition enum_variant (l : RLayout) (dty tag_ty : IntType) (tag_offset : Offset) (enc : RTagEncoding)
        (i : nat) (bits : Z) (fields : list (Offset * Ty)) (acc : Variants * Branches) : Variants * Branches :=
      let '(tv, br) := acc in
      let discr_int := int_from_bits bits dty in
      let ty := b_tuple_ty fields (rl_size l) (rl_align l) in
      match enc with
      | TeDirect =>
          (map_insert tv discr_int (ty, [(tag_offset, (tag_ty, discr_int))]),
           map_insert br (discr_int, discr_int + 1) (DKnown discr_int))
      | TeNiche untagged first last niche_start =>
          let discr_int := int_from_bits bits tag_ty in
          let tag_int := int_bring_in_bounds tag_ty (discr_int - Z.of_nat first + niche_start) in
          if negb (untagged =? i)%nat then
            (map_insert tv discr_int (ty, [(tag_offset, (tag_ty, tag_int))]),
             map_insert br (tag_int, tag_int + 1) (DKnown discr_int))
          else
            (map_insert tv discr_int (ty, []),
             if (first <=? i)%nat && (i <=? last)%nat
             then map_insert br (tag_int, tag_int + 1) DInvalid else br)
      end.

    (** enums.rs:160-195 the values outside of the valid range of the tag *)
    Definition niche_invalid (tag : RTag) (tag_ty : IntType) (br : Branches) : Branches :=
      let start := int_from_bits (tg_start tag) tag_ty in
      let end_ := int_from_bits (tg_end tag) tag_ty in
      if start <=? end_ then
        let bits := 8 * Z.of_N (tg_size tag) in
        let min := match it_signed tag_ty with Signed => - 2 ^ (bits - 1) | Unsigned => 0 end in
        let max := match it_signed tag_ty with Signed => 2 ^ (bits - 1) - 1 | Unsigned => 2 ^ bits - 1 end in
        let br := if end_ <? max then map_insert br (end_ + 1, max + 1) DInvalid else br in
        if min <? start then map_insert br (min, start) DInvalid else br
      else if end_ + 1 <? start then map_insert br (end_ + 1, start) DInvalid
      else br.

    (** enums.rs:56-208 Variants::Multiple *)
    Definition enum_multiple (l : RLayout) (dty : IntType) (vs : list (Z * list RTy)) (tag : RTag) (enc : RTagEncoding)
        (tag_field : nat) (shapes : list (list Offset)) : Outcome (Variants * Discriminator) :=
      let! tag_offset := unwrap (rl_offsets l !! tag_field) in
      let! tag_ty := int_ty_of (tg_int_ty tag) in
      let! ' (tv, br) := fold_m (fun acc x =>
          let '(i, (bits, tys)) := x in
          let! shape := unwrap (shapes !! i) in
          let! fields := variant_fields (Some shape) tys in
          Ret (enum_variant l dty tag_ty tag_offset enc i bits fields acc)) (enumerate vs) (([], []) : Variants * Branches) in
      let '(fallback, br) := match enc with
                             | TeDirect => (DInvalid, br)
                             | TeNiche untagged _ _ _ => (DKnown (Z.of_nat untagged), niche_invalid tag tag_ty br)
                             end in
      Ret (tv, DBranch tag_offset tag_ty fallback br).

    (** enums.rs:6-212 translate_enum, with 23-29 Variants::Empty *)
    Definition translate_enum (l : RLayout) (dty : RTy) (vs : list (Z * list RTy)) : Outcome Ty :=
      let! dit := int_ty_of dty in
      let! ' (tv, discr) :=
        match rl_variants l with
        | VaEmpty => match vs with [] => Ret ([], DInvalid) | _ => Panic end
        | VaSingle single => enum_single l dit vs single
        | VaMultiple tag enc tag_field shapes => enum_multiple l dit vs tag enc tag_field shapes
        end in
      Ret (TEnum tv dit discr (rl_size l) (rl_align l)).
  End Open.

  (** ty.rs:177-263 translate_ty. The unit type for FnDef (ty.rs:235-239) is translated like any other. *)
  Fixpoint translate_ty (fuel : nat) (r : RTy) : Outcome Ty :=
    match fuel with
    | O => span_bug "out of fuel"
    | S fuel =>
        let l := ty_layout L r in
        let tr := translate_ty fuel in
        match ty_kind L r with
        | RkBool => Ret TBool
        | RkInt it => Ret (TInt it)
        | RkChar => Ret (TInt (mkIntTy Unsigned 4))
        | RkPat inner => tr inner
        | RkTuple tys => tuple_from_layout tr l tys
        | RkBox p => let! pi := pointee_info_of fuel p in Ret (TPtr (PBox pi))
        | RkStruct _ tys =>
            let! fields := translate_non_enum_adt tr l tys in
            Ret (b_tuple_ty fields (rl_size l) (rl_align l))
        | RkUnion tys =>
            let! fields := translate_non_enum_adt tr l tys in
            union_ty T fields (rl_size l) (rl_align l)
        | RkEnum dty vs => translate_enum tr l dty vs
        | RkRef m p => let! pi := pointee_info_of fuel p in Ret (TPtr (PRef m pi))
        | RkRawPtr p => let! pi := pointee_info_of fuel p in Ret (TPtr (PRaw (layout_meta_kind (pi_layout pi))))
        | RkArray elem count => let! t := tr elem in Ret (TArray t (Z.of_N count))
        | RkFnPtr => Ret (TPtr PFnPtr)
        | RkFnDef => tr (ty_unit L)
        | RkClosure tys => tuple_from_layout tr l tys
        | RkNever => Ret (TEnum [] (mkIntTy Unsigned 1) DInvalid 0%N align_one)
        | RkSlice elem => let! t := tr elem in Ret (TSlice t)
        | RkStr => Ret (TSlice (TInt (mkIntTy Unsigned 1)))
        | RkDyn tn => Ret (TTraitObject tn)
        | RkOther => span_bug "TyKind not supported"
        end
    end.

  (** enums.rs:227-243 discriminant_for_variant *)
  Definition variant_discriminant (fuel : nat) (r : RTy) (v : nat) : Outcome Z :=
    match ty_kind L r with
    | RkEnum dty vs =>
        let! dit := int_ty_of (translate_ty fuel) dty in
        let! x := unwrap (vs !! v) in
        Ret (int_from_bits (fst x) dit)
    | _ => Panic
    end.
End Types.
