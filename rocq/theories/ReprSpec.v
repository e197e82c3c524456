(** Specification vocabulary for the value representation: the shape of values, the definedness
    order as plain relations, the bytes a type uses, and coherence of enums. These are independent
    of how [encode] and [decode] compute, except [coherent], which states how the discriminator and
    the taggers of an enum have to fit together. *)
From Verif Require Export Repr WfTypes.

Section Spec.
  Context {P : Type} `{EqDecision P}.
  Variable T : Target.

  Notation AB := (AByte P).
  Notation Val := (Value P).

  (** ** Definedness *)

  (** "b1 is at most as defined as b2": initialising a byte or adding provenance makes it more
      defined (representation.md:654-672). *)
  Inductive byte_le : AB -> AB -> Prop :=
  | bl_uninit b : byte_le Uninit b
  | bl_noprov d f : byte_le (Init d None) (Init d f)
  | bl_eq d f : byte_le (Init d f) (Init d f).

  Definition bytes_le : list AB -> list AB -> Prop := Forall2 byte_le.

  Inductive prov_le : option P -> option P -> Prop :=
  | pl_none p : prov_le None p
  | pl_eq p : prov_le p p.

  Definition thin_less (p q : ThinPtr P) : Prop :=
    tp_addr p = tp_addr q /\ prov_le (tp_prov p) (tp_prov q).

  Inductive meta_less : option (PtrMeta P) -> option (PtrMeta P) -> Prop :=
  | ml_none m : meta_less None m
  | ml_count c : meta_less (Some (MElementCount c)) (Some (MElementCount c))
  | ml_vtable p q : thin_less p q -> meta_less (Some (MVTablePointer p)) (Some (MVTablePointer q)).

  Inductive value_le : Val -> Val -> Prop :=
  | vl_int i : value_le (VInt i) (VInt i)
  | vl_bool b : value_le (VBool b) (VBool b)
  | vl_ptr p q : thin_less (p_thin p) (p_thin q) -> meta_less (p_meta p) (p_meta q) ->
      value_le (VPtr p) (VPtr q)
  | vl_tuple vs ws : Forall2 value_le vs ws -> value_le (VTuple vs) (VTuple ws)
  | vl_variant d v w : value_le v w -> value_le (VVariant d v) (VVariant d w)
  | vl_union c c' : Forall2 bytes_le c c' -> value_le (VUnion c) (VUnion c').

  (** None is the least element, as in representation.md:738-746. *)
  Inductive optval_le : option Val -> option Val -> Prop :=
  | ol_none o : optval_le None o
  | ol_some v w : value_le v w -> optval_le (Some v) (Some w).

  (** ** Shape of values *)

  Inductive meta_shape : MetaKind -> option (PtrMeta P) -> Prop :=
  | ms_none : meta_shape MKNone None
  | ms_count c : 0 <= c < 2 ^ (8 * Z.of_N (PTR_SIZE T)) ->
      meta_shape MKElementCount (Some (MElementCount c))
  | ms_vtable tn p : 0 <= tp_addr p < 2 ^ (8 * Z.of_N (PTR_SIZE T)) ->
      meta_shape (MKVTablePointer tn) (Some (MVTablePointer p)).

  (** [shape ty v]: the value [v] has the structure that type [ty] asks for. *)
  Inductive shape : Ty -> Val -> Prop :=
  | sh_int it i : in_bounds (it_signed it) (it_size it) i = true -> shape (TInt it) (VInt i)
  | sh_bool b : shape TBool (VBool b)
  | sh_ptr pt p : 0 <= tp_addr (p_thin p) < 2 ^ (8 * Z.of_N (PTR_SIZE T)) ->
      meta_shape (ptr_meta_kind pt) (p_meta p) -> shape (TPtr pt) (VPtr p)
  | sh_tuple fields head vals :
      Forall2 (fun f v => shape (snd f) v) fields vals ->
      shape (TTuple fields head None) (VTuple vals)
  | sh_array elem count vals :
      Z.of_nat (length vals) = count -> Forall (shape elem) vals ->
      shape (TArray elem count) (VTuple vals)
  | sh_union fields chunks size align data :
      Forall2 (fun c d => N.of_nat (length d) = snd c) chunks data ->
      shape (TUnion fields chunks size align) (VUnion data)
  | sh_enum variants dty discr size align d ty tg v :
      map_get variants d = Some (ty, tg) -> shape ty v ->
      shape (TEnum variants dty discr size align) (VVariant d v).

  (** [leaf ty v pt p]: the pointer [p] of pointer type [pt] occurs in the value [v] of type [ty]. *)
  Inductive leaf : Ty -> Val -> PtrType -> Pointer P -> Prop :=
  | lf_ptr pt p : leaf (TPtr pt) (VPtr p) pt p
  | lf_tuple fields head vals i o t v pt p :
      fields !! i = Some (o, t) -> vals !! i = Some v -> leaf t v pt p ->
      leaf (TTuple fields head None) (VTuple vals) pt p
  | lf_array elem count vals i v pt p :
      vals !! i = Some v -> leaf elem v pt p -> leaf (TArray elem count) (VTuple vals) pt p
  | lf_enum variants dty discr size align d ty tg v pt p :
      map_get variants d = Some (ty, tg) -> leaf ty v pt p ->
      leaf (TEnum variants dty discr size align) (VVariant d v) pt p.

  (** ** The bytes a type uses *)

  (** offsets that the discriminator may read *)
  Inductive discr_reads : Discriminator -> N -> Prop :=
  | dr_here off it fb ch i :
      (off <= i < off + it_size it)%N -> discr_reads (DBranch off it fb ch) i
  | dr_fallback off it fb ch i : discr_reads fb i -> discr_reads (DBranch off it fb ch) i
  | dr_child off it fb ch r c i :
      In (r, c) ch -> discr_reads c i -> discr_reads (DBranch off it fb ch) i.

  (** [uses ty i]: byte [i] of the representation of [ty] carries data (it is not padding). *)
  Inductive uses : Ty -> N -> Prop :=
  | us_int it i : (i < it_size it)%N -> uses (TInt it) i
  | us_bool : uses TBool 0
  | us_ptr pt s i : size_of T (TPtr pt) = Ret s -> (i < s)%N -> uses (TPtr pt) i
  | us_tuple fields head u o t i :
      In (o, t) fields -> uses t i -> uses (TTuple fields head u) (o + i)
  | us_array elem count s k i :
      size_of T elem = Ret s -> Z.of_N k < count -> uses elem i ->
      uses (TArray elem count) (k * s + i)
  | us_union fields chunks size align o s i :
      In (o, s) chunks -> (o <= i < o + s)%N -> uses (TUnion fields chunks size align) i
  | us_enum_data variants dty discr size align d t tg i :
      In (d, (t, tg)) variants -> uses t i -> uses (TEnum variants dty discr size align) i
  | us_enum_discr variants dty discr size align i :
      discr_reads discr i -> uses (TEnum variants dty discr size align) i.

  (** ** Coherent enums *)

  (** The tag of each variant lies outside the variant's data (types.md:104-108 demands it). *)
  Definition tags_outside_data (variants : list (Z * (Ty * Tagger))) : Prop :=
    forall d t tg, map_get variants d = Some (t, tg) ->
    forall off it val i, In (off, (it, val)) tg -> (off <= i < off + it_size it)%N -> ~ uses t i.

  (** The discriminator recognises every encoded value of each variant. *)
  Definition discr_recognises (env : ChkEnv P) (variants : list (Z * (Ty * Tagger)))
      (discr : Discriminator) : Prop :=
    forall d t tg, map_get variants d = Some (t, tg) ->
    forall v enc bytes, check_value T env t v = Ret tt -> encode T t v = Ret enc ->
      encode_discriminant T (fun b off e => write_subslice b off e) tg enc = Ret bytes ->
      decode_discriminant T (bytes_accessor bytes) discr tt = Ret (Some d, tt).

  (** When the discriminator says variant [d], the tag of [d] is present in the bytes. *)
  Definition discr_implies_tag (variants : list (Z * (Ty * Tagger))) (discr : Discriminator)
      (size : Size) : Prop :=
    forall (bytes : list AB) d, N.of_nat (length bytes) = size ->
      decode_discriminant T (bytes_accessor bytes) discr tt = Ret (Some d, tt) ->
    forall t tg, map_get variants d = Some (t, tg) ->
    forall off it val, In (off, (it, val)) tg ->
    exists b, subslice bytes off (it_size it) = Ret b /\ decode_int_opt T it b = Ret (Some val).

  (** All enums occurring in the type are coherent, in every machine state. *)
  Inductive coherent : Ty -> Prop :=
  | co_int it : coherent (TInt it)
  | co_bool : coherent TBool
  | co_ptr pt : coherent (TPtr pt)
  | co_tuple fields head u :
      Forall (fun f => coherent (snd f)) fields -> (forall t, u = Some t -> coherent t) ->
      coherent (TTuple fields head u)
  | co_array elem count : coherent elem -> coherent (TArray elem count)
  | co_slice elem : coherent elem -> coherent (TSlice elem)
  | co_union fields chunks size align :
      Forall (fun f => coherent (snd f)) fields -> coherent (TUnion fields chunks size align)
  | co_enum variants dty discr size align :
      Forall (fun v => coherent (fst (snd v))) variants ->
      tags_outside_data variants ->
      (forall env, discr_recognises env variants discr) ->
      discr_implies_tag variants discr size ->
      coherent (TEnum variants dty discr size align)
  | co_trait tn : coherent (TTraitObject tn).

  (** ** Machine states as seen by the validity check *)

  (** the outcome is a result or undefined behaviour, not a crash *)
  Definition ok_or_ub {A} (o : Outcome A) : Prop := (exists a, o = Ret a) \/ is_ub o.

  (** The memory and vtable queries do not crash, and the two vtable lookups agree. *)
  Definition env_sound (env : ChkEnv P) : Prop :=
    (forall p s, ok_or_ub (ce_deref env p s)) /\
    (forall p, ok_or_ub (ce_vtable_from_ptr env p)) /\
    (forall p vt, ce_vtable_from_ptr env p = Ret vt -> ce_vtable_lookup env p = Ret vt).
End Spec.
