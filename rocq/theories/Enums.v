(** Model of the enum translation of tooling/minimize/src/enums.rs: how rustc's tag layouts become
    MiniRust variants, taggers and discriminators. The rustc layout data (tag offset, tag type, the
    translated variant types, niche start) are inputs. *)
From Verif Require Export Repr.

(** enums.rs:24-30 Variants::Empty *)
Definition empty_enum (dty : IntType) (size : Size) (align : Align) : Ty :=
  TEnum [] dty DInvalid size align.

(** enums.rs:31-55 Variants::Single: no taggers, the discriminator knows the inhabited variant. *)
Definition single_enum (vs : list (Z * Ty)) (single : Z) (dty : IntType) (size : Size) (align : Align)
  : Ty :=
  TEnum (List.map (fun v => (fst v, (snd v, []))) vs) dty (DKnown single) size align.

(** enums.rs:56-99 and 152, 191-196 Variants::Multiple with TagEncoding::Direct: every variant writes
    its discriminant into the tag, the discriminator has one singleton branch per variant. The Rust
    maps are association lists here, so the caller must supply distinct discriminants. *)
Definition direct_enum (vs : list (Z * Ty)) (tag_offset : Offset) (tag_ty : IntType)
    (dty : IntType) (size : Size) (align : Align) : Ty :=
  TEnum (List.map (fun v => (fst v, (snd v, [(tag_offset, (tag_ty, fst v))]))) vs) dty
        (DBranch tag_offset tag_ty DInvalid
           (List.map (fun v => ((fst v, fst v + 1), DKnown (fst v))) vs))
        size align.

(** enums.rs:106-109 the tag of a niche-encoded variant *)
Definition niche_tag (tag_ty : IntType) (niche_variants_start niche_start : Z) (discr : Z) : Z :=
  int_bring_in_bounds tag_ty (discr - niche_variants_start + niche_start).

(** enums.rs:100-150 and 154-196 Variants::Multiple with TagEncoding::Niche. [invalid] are the ranges
    of enums.rs:157-188 (values outside the valid range of the tag) and the branch of
    enums.rs:142-147 for the untagged variant; both map to DInvalid. *)
Definition niche_enum (vs : list (Z * Ty)) (untagged : Z) (untagged_ty : Ty)
    (tag_offset : Offset) (tag_ty : IntType) (nvstart nstart : Z) (invalid : list (Z * Z))
    (dty : IntType) (size : Size) (align : Align) : Ty :=
  let tag := niche_tag tag_ty nvstart nstart in
  TEnum ((untagged, (untagged_ty, [])) ::
         List.map (fun v => (fst v, (snd v, [(tag_offset, (tag_ty, tag (fst v)))]))) vs) dty
        (DBranch tag_offset tag_ty (DKnown untagged)
           (List.map (fun v => ((tag (fst v), tag (fst v) + 1), DKnown (fst v))) vs ++
            List.map (fun r => (r, DInvalid)) invalid))
        size align.
