(** What is assumed of the compiler's layouts, and what the tag of an enum means (C83, C84). Nothing here is taken from the
    translation, except [int_from_bits]: the value of given bits at an integer type. *)
From Verif Require Export MirTy MirSpec.

Section Sane.
  Context (L : RTypes) (ht : TraitName -> bool).
  Notation T := x86_64.

  (** The translation does not handle all sane layouts. The conditions that exclude those it does not handle are marked by
      [plain ->]: with [plain := False] there is nothing but sanity, with [plain := True] all the conditions hold. *)
  Context (plain : Prop).

  Definition lsize (r : RTy) : Size := rl_size (ty_layout L r).
  Definition lalign (r : RTy) : Align := rl_align (ty_layout L r).
  Definition lsized (r : RTy) : Prop := rl_sized (ty_layout L r) = true.

  (** a sized type: a valid size that is a multiple of the alignment *)
  Definition lay_ok (r : RTy) : Prop := lsized r /\ valid_size T (lsize r) = true /\ (lsize r mod align_bytes (lalign r) = 0)%N.
  Definition lay_is (r : RTy) (s a : N) : Prop := lsized r /\ lsize r = s /\ align_bytes (lalign r) = a.

  (** the integer types of Rust *)
  Definition rust_int (it : IntType) : Prop := it_size it ∈ [1; 2; 4; 8; 16]%N.

  (** Fields lie inside the type and are disjoint. (Plain: no field that is not zero-sized comes, in the order of declaration,
      before another at the same offset.) *)
  Definition apart (f g : Offset * Size) : Prop := (fst f + snd f <= fst g \/ fst g + snd g <= fst f)%N.
  Definition fields_ok (offs : list Offset) (tys : list RTy) (size : Size) : Prop :=
    length offs = length tys /\
    let fs := zip offs (List.map lsize tys) in
    Forall (fun f => fst f + snd f <= size)%N fs /\
    ForallOrdPairs (fun f g => apart f g /\ (plain -> fst f = fst g -> snd f = 0%N)) fs.

  (** ** Interior mutability *)

  (** no part of the type is an UnsafeCell, or a union or enum that may have one *)
  Inductive cell_free : RTy -> Prop :=
  | cf_plain r : ty_kind L r ∈ [RkBool; RkChar; RkFnPtr; RkFnDef; RkNever] -> cell_free r
  | cf_int r it : ty_kind L r = RkInt it -> cell_free r
  | cf_raw r p : ty_kind L r = RkRawPtr p -> cell_free r
  | cf_ref r m p : ty_kind L r = RkRef m p -> cell_free r
  | cf_box r p : ty_kind L r = RkBox p -> cell_free r
  | cf_fields r tys : ty_kind L r = RkTuple tys \/ ty_kind L r = RkStruct false tys \/ ty_kind L r = RkClosure tys ->
      (forall ty, ty ∈ tys -> cell_free ty) -> cell_free r
  | cf_union r tys : ty_kind L r = RkUnion tys -> ty_freeze L r = true -> cell_free r
  | cf_enum r dty vs : ty_kind L r = RkEnum dty vs -> ty_freeze L r = true -> cell_free r
  | cf_array r e n : ty_kind L r = RkArray e n -> cell_free e -> cell_free r.

  (** The parts of a type that may contain cells have sane layouts. (Plain: nothing is a pattern type; cells are not
      zero-sized; an array of cells has at least two elements.) *)
  Inductive cells_ok : RTy -> Prop :=
  | co_plain r : ty_kind L r ∈ [RkBool; RkChar; RkFnPtr; RkFnDef; RkNever] -> cells_ok r
  | co_int r it : ty_kind L r = RkInt it -> cells_ok r
  | co_raw r p : ty_kind L r = RkRawPtr p -> cells_ok r
  | co_ref r m p : ty_kind L r = RkRef m p -> cells_ok r
  | co_box r p : ty_kind L r = RkBox p -> cells_ok r
  | co_pat r inner : ty_kind L r = RkPat inner -> ~ plain -> cells_ok r
  | co_cell r tys : ty_kind L r = RkStruct true tys -> (plain -> lsize r <> 0%N) -> cells_ok r
  | co_union r tys : ty_kind L r = RkUnion tys -> (plain -> ty_freeze L r = true \/ lsize r <> 0%N) -> cells_ok r
  | co_enum r dty vs : ty_kind L r = RkEnum dty vs -> (plain -> ty_freeze L r = true \/ lsize r <> 0%N) -> cells_ok r
  | co_fields r tys : ty_kind L r = RkTuple tys \/ ty_kind L r = RkStruct false tys \/ ty_kind L r = RkClosure tys ->
      fields_ok (rl_offsets (ty_layout L r)) tys (lsize r) -> (forall ty, ty ∈ tys -> cells_ok ty) -> cells_ok r
  | co_array r e n : ty_kind L r = RkArray e n -> lsize r = (lsize e * n)%N -> cells_ok e ->
      (plain -> cell_free e \/ (2 <= n)%N) -> cells_ok r.

  (** A type that pointers may point to. Structs with an unsized last field are not among them, minimize does not support those. *)
  Inductive pointee_ok : RTy -> Prop :=
  | pk_sized r : lay_ok r -> cells_ok r -> pointee_ok r
  | pk_slice r e : ~ lsized r -> ty_kind L r = RkSlice e -> lay_ok e -> cells_ok e -> pointee_ok r
  | pk_str r : ~ lsized r -> ty_kind L r = RkStr -> pointee_ok r
  | pk_dyn r tn : ~ lsized r -> ty_kind L r = RkDyn tn -> ht tn = true -> pointee_ok r.

  (** the layout of a type, as MiniRust describes it: size and alignment of the type or, for slices, of the elements *)
  Inductive layout_of : RTy -> LayoutStrategy -> Prop :=
  | lo_sized r : lsized r -> layout_of r (LSized (lsize r) (lalign r))
  | lo_slice r e : ~ lsized r -> ty_kind L r = RkSlice e -> layout_of r (LSlice (lsize e) (lalign e))
  | lo_str r : ~ lsized r -> ty_kind L r = RkStr -> layout_of r (LSlice 1 align_one)
  | lo_dyn r tn : ~ lsized r -> ty_kind L r = RkDyn tn -> layout_of r (LTraitObject tn).

  (** ** Enums *)

  (** the number of values of the tag *)
  Definition tag_values (it : IntType) : Z := 2 ^ (8 * Z.of_N (it_size it)).
  (** a value is in a range given by its ends, which may wrap around *)
  Definition wrapping_range (start end_ b : Z) : Prop := if start <=? end_ then start <= b <= end_ else b <= end_ \/ start <= b.
  (** no value of the variant exists *)
  Definition absent (v : Z * list RTy) : Prop := exists ty, ty ∈ snd v /\ rl_uninhabited (ty_layout L ty) = true.
  (** the bits of the tag of the [i]-th variant under niche encoding *)
  Definition niche_bits (it : IntType) (first : nat) (niche_start : Z) (i : nat) : Z :=
    (niche_start + (Z.of_nat i - Z.of_nat first)) mod tag_values it.

  Definition encoding_ok (dit tit : IntType) (tag : RTag) (vs : list (Z * list RTy)) (enc : RTagEncoding) : Prop :=
    match enc with
    | TeDirect => forall v, v ∈ vs -> can_represent tit (int_from_bits (fst v) dit) = true
    | TeNiche u first last niche_start =>
        (u < length vs)%nat /\ (first <= last < length vs)%nat /\
        (* niche-encoded enums have no explicit discriminants *)
        (forall i v, vs !! i = Some v -> int_from_bits (fst v) dit = Z.of_nat i /\ fst v = Z.of_nat i) /\
        0 <= niche_start < tag_values tit /\ 0 <= tg_start tag < tag_values tit /\ 0 <= tg_end tag < tag_values tit /\
        Z.of_nat last - Z.of_nat first < tag_values tit /\
        (forall i, (first <= i <= last)%nat -> wrapping_range (tg_start tag) (tg_end tag) (niche_bits tit first niche_start i)) /\
        (forall i v, vs !! i = Some v -> i <> u -> ~ (first <= i <= last)%nat -> absent v) /\
        (* plain: no variants are absent, and the tag can represent the number of each variant *)
        (plain -> forall i, (i < length vs)%nat -> (i <> u -> (first <= i <= last)%nat) /\ can_represent tit (Z.of_nat i) = true)
    end.

  Inductive variants_ok (r : RTy) (dit : IntType) (vs : list (Z * list RTy)) : RVariants -> Prop :=
  | vo_empty : (forall v, v ∈ vs -> absent v) -> (plain -> vs = []) -> variants_ok r dit vs VaEmpty
  | vo_single i v : vs !! i = Some v -> fields_ok (rl_offsets (ty_layout L r)) (snd v) (lsize r) ->
      (forall j w ty, vs !! j = Some w -> j <> i -> ty ∈ snd w -> lsized ty /\ lsize ty = 0%N) ->
      variants_ok r dit vs (VaSingle i)
  | vo_multiple tag enc tf shapes tit off : ty_kind L (tg_int_ty tag) = RkInt tit -> rust_int tit -> tg_size tag = it_size tit ->
      rl_offsets (ty_layout L r) !! tf = Some off -> (off + it_size tit <= lsize r)%N ->
      Forall2 (fun shape v => fields_ok shape (snd v) (lsize r)) shapes vs ->
      encoding_ok dit tit tag vs enc ->
      variants_ok r dit vs (VaMultiple tag enc tf shapes).

  (** ** Types *)

  (** The compiler's layout of a type is sane. *)
  Inductive ty_ok : RTy -> Prop :=
  | ok_bool r : ty_kind L r = RkBool -> lay_is r 1 1 -> ty_ok r
  | ok_int r it : ty_kind L r = RkInt it -> rust_int it -> lay_is r (it_size it) (it_size it) -> ty_ok r
  | ok_char r : ty_kind L r = RkChar -> lay_is r 4 4 -> ty_ok r
  | ok_pat r inner : ty_kind L r = RkPat inner -> lsized inner -> ty_ok inner ->
      lsized r -> lsize r = lsize inner -> lalign r = lalign inner -> ty_ok r
  | ok_fields r tys : ty_kind L r = RkTuple tys \/ (exists b, ty_kind L r = RkStruct b tys) \/ ty_kind L r = RkClosure tys ->
      lay_ok r -> fields_ok (rl_offsets (ty_layout L r)) tys (lsize r) ->
      (forall ty, ty ∈ tys -> lsized ty) -> (forall ty, ty ∈ tys -> ty_ok ty) -> ty_ok r
  | ok_union r tys : ty_kind L r = RkUnion tys -> lay_ok r -> length (rl_offsets (ty_layout L r)) = length tys ->
      Forall (fun f => fst f + snd f <= lsize r)%N (zip (rl_offsets (ty_layout L r)) (List.map lsize tys)) ->
      (forall ty, ty ∈ tys -> lsized ty) -> (forall ty, ty ∈ tys -> ty_ok ty) -> ty_ok r
  | ok_ptr r p : ty_kind L r = RkBox p \/ (exists m, ty_kind L r = RkRef m p) \/ ty_kind L r = RkRawPtr p ->
      pointee_ok p -> (lsized p -> lay_is r 8 8) -> (~ lsized p -> lay_is r 16 8) -> ty_ok r
  | ok_fnptr r : ty_kind L r = RkFnPtr -> lay_is r 8 8 -> ty_ok r
  | ok_fndef r : ty_kind L r = RkFnDef -> lay_is r 0 1 ->
      ty_kind L (ty_unit L) = RkTuple [] -> rl_offsets (ty_layout L (ty_unit L)) = [] -> lay_is (ty_unit L) 0 1 -> ty_ok r
  | ok_never r : ty_kind L r = RkNever -> lay_is r 0 1 -> ty_ok r
  | ok_array r e n : ty_kind L r = RkArray e n -> lay_ok r -> lsize r = (lsize e * n)%N -> lalign r = lalign e ->
      lsized e -> ty_ok e -> ty_ok r
  | ok_slice r e : ty_kind L r = RkSlice e -> ~ lsized r -> lsized e -> ty_ok e -> ty_ok r
  | ok_str r : ty_kind L r = RkStr -> ~ lsized r -> ty_ok r
  | ok_dyn r tn : ty_kind L r = RkDyn tn -> ~ lsized r -> ht tn = true -> ty_ok r
  | ok_enum r dty dit vs : ty_kind L r = RkEnum dty vs -> lay_ok r -> ty_kind L dty = RkInt dit -> rust_int dit ->
      NoDup (List.map (fun v => int_from_bits (fst v) dit) vs) ->
      (forall v ty, v ∈ vs -> ty ∈ snd v -> lsized ty) -> (forall v ty, v ∈ vs -> ty ∈ snd v -> ty_ok ty) ->
      variants_ok r dit vs (rl_variants (ty_layout L r)) -> ty_ok r.

  (** ** Tags *)

  (** [tag_means dit tit tag vs enc b o]: the tag with the bits [b] says that the enum is in variant [o]; [None]: the tag is
      invalid. Direct encoding: the tag is the discriminant. Niche encoding: a tag outside of the valid range is invalid; the
      niche variants, except for the untagged one, have their own tags; all else is the untagged variant. *)
  Inductive tag_means (dit tit : IntType) (tag : RTag) (vs : list (Z * list RTy)) : RTagEncoding -> Z -> option nat -> Prop :=
  | tm_direct i v b : vs !! i = Some v -> b = int_from_bits (fst v) dit mod tag_values tit ->
      tag_means dit tit tag vs TeDirect b (Some i)
  | tm_direct_none b : (forall v, v ∈ vs -> b <> int_from_bits (fst v) dit mod tag_values tit) ->
      tag_means dit tit tag vs TeDirect b None
  | tm_outside u first last ns b : ~ wrapping_range (tg_start tag) (tg_end tag) b ->
      tag_means dit tit tag vs (TeNiche u first last ns) b None
  | tm_tagged u first last ns i : (first <= i <= last)%nat -> i <> u ->
      tag_means dit tit tag vs (TeNiche u first last ns) (niche_bits tit first ns i) (Some i)
  | tm_untagged_tag u first last ns : (first <= u <= last)%nat ->
      tag_means dit tit tag vs (TeNiche u first last ns) (niche_bits tit first ns u) None
  | tm_untagged u first last ns b : wrapping_range (tg_start tag) (tg_end tag) b ->
      (forall i, (first <= i <= last)%nat -> b <> niche_bits tit first ns i) ->
      tag_means dit tit tag vs (TeNiche u first last ns) b (Some u).
End Sane.

(** ** Translated types *)

(** The translation of a type, of a pointee: what the code returns; the model has fuel for its recursion. *)
Definition translates (L : RTypes) (r : RTy) (t : Ty) : Prop := exists n, forall m, (n <= m)%nat -> translate_ty L m r = Ret t.
Definition translates_pointee (L : RTypes) (r : RTy) (pi : PointeeInfo) : Prop :=
  exists n, forall m, (n <= m)%nat -> pointee_info_of L m r = Ret pi.

(** [fs] are the translations of the types [tys] at the offsets [offs]. *)
Definition translates_fields (L : RTypes) (offs : list Offset) (tys : list RTy) (fs : list (Offset * Ty)) : Prop :=
  length fs = length tys /\
  forall i ty, tys !! i = Some ty -> exists o t, offs !! i = Some o /\ translates L ty t /\ fs !! i = Some (o, t).

(** How many words of metadata a pointer to [p] has, and what they are. *)
Inductive meta_of (L : RTypes) (p : RTy) : MetaKind -> Prop :=
| mo_thin : lsized L p -> meta_of L p MKNone
| mo_slice e : ~ lsized L p -> ty_kind L p = RkSlice e -> meta_of L p MKElementCount
| mo_str : ~ lsized L p -> ty_kind L p = RkStr -> meta_of L p MKElementCount
| mo_dyn tn : ~ lsized L p -> ty_kind L p = RkDyn tn -> meta_of L p (MKVTablePointer tn).

(** What each type should become. The chunks of unions and the variants of enums are the subject of C55, C56 and C84. *)
Inductive becomes (L : RTypes) (r : RTy) : Ty -> Prop :=
| bc_bool : ty_kind L r = RkBool -> becomes L r TBool
| bc_int it : ty_kind L r = RkInt it -> becomes L r (TInt it)
| bc_char : ty_kind L r = RkChar -> becomes L r (TInt (mkIntTy Unsigned 4))
| bc_pat inner t : ty_kind L r = RkPat inner -> translates L inner t -> becomes L r t
| bc_fields tys fs : ty_kind L r = RkTuple tys \/ (exists b, ty_kind L r = RkStruct b tys) \/ ty_kind L r = RkClosure tys ->
    translates_fields L (rl_offsets (ty_layout L r)) tys fs -> becomes L r (TTuple fs (mkHead (lsize L r) (lalign L r) None) None)
| bc_union tys fs chunks : ty_kind L r = RkUnion tys -> translates_fields L (rl_offsets (ty_layout L r)) tys fs ->
    becomes L r (TUnion fs chunks (lsize L r) (lalign L r))
| bc_box p pi : ty_kind L r = RkBox p -> translates_pointee L p pi -> becomes L r (TPtr (PBox pi))
| bc_ref m p pi : ty_kind L r = RkRef m p -> translates_pointee L p pi -> becomes L r (TPtr (PRef m pi))
| bc_raw p mk : ty_kind L r = RkRawPtr p -> meta_of L p mk -> becomes L r (TPtr (PRaw mk))
| bc_array e n t : ty_kind L r = RkArray e n -> translates L e t -> becomes L r (TArray t (Z.of_N n))
| bc_fnptr : ty_kind L r = RkFnPtr -> becomes L r (TPtr PFnPtr)
| bc_fndef : ty_kind L r = RkFnDef -> becomes L r (TTuple [] (mkHead 0 align_one None) None)
| bc_never : ty_kind L r = RkNever -> becomes L r (TEnum [] (mkIntTy Unsigned 1) DInvalid 0 align_one)
| bc_slice e t : ty_kind L r = RkSlice e -> translates L e t -> becomes L r (TSlice t)
| bc_str : ty_kind L r = RkStr -> becomes L r (TSlice (TInt (mkIntTy Unsigned 1)))
| bc_dyn tn : ty_kind L r = RkDyn tn -> becomes L r (TTraitObject tn)
| bc_enum dty dit vs tv discr : ty_kind L r = RkEnum dty vs -> ty_kind L dty = RkInt dit ->
    becomes L r (TEnum tv dit discr (lsize L r) (lalign L r)).
