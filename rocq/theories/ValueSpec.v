(** Specification of well-formed pointers and values (C59). *)
From Verif Require Export ReprSpec.

(** [r] is [n] rounded up to a multiple of [a] *)
Definition rounds_up (n a r : N) : Prop := (n <= r < n + a /\ r mod a = 0)%N.

Section ValueSpec.
  Context {P : Type} `{EqDecision P}.
  Variable T : Target.
  Variable env : ChkEnv P.

  (** [pointee_size l meta s a]: a value with layout [l] behind a pointer with metadata [meta] has [s] bytes and
      alignment [a]: sized types as declared, slices by the length, trait objects by the vtable, tuples with an
      unsized tail by rounding up the start of the tail and then the end *)
  Inductive pointee_size : LayoutStrategy -> option (PtrMeta P) -> N -> N -> Prop :=
  | ps_sized s a : pointee_size (LSized s a) None s (align_bytes a)
  | ps_slice s a n : pointee_size (LSlice s a) (Some (MElementCount (Z.of_N n))) (n * s) (align_bytes a)
  | ps_trait tn p vt : ce_vtable_lookup env p = Ret vt ->
      pointee_size (LTraitObject tn) (Some (MVTablePointer p)) (vt_size vt) (align_bytes (vt_align vt))
  | ps_tuple h tail meta ts ta cap al off s :
      meta <> None -> pointee_size tail meta ts ta ->
      cap = (match th_packed h with Some k => N.min ta (align_bytes k) | None => ta end) ->
      al = N.max cap (align_bytes (th_align h)) ->
      rounds_up (th_end h) cap off -> rounds_up (off + ts) al s ->
      pointee_size (LTuple h tail) meta s al.

  (** a pointer to a vtable for the trait *)
  Definition vtable_for (p : ThinPtr P) (tn : TraitName) : Prop :=
    exists vt, ce_vtable_from_ptr env p = Ret vt /\ vt_trait vt = tn.

  Definition address_ok (a : Z) : Prop := 0 <= a < 2 ^ (8 * Z.of_N (PTR_SIZE T)).

  Inductive valid_meta : MetaKind -> option (PtrMeta P) -> Prop :=
  | vm_none : valid_meta MKNone None
  | vm_count c : 0 <= c < 2 ^ (8 * Z.of_N (PTR_SIZE T)) -> valid_meta MKElementCount (Some (MElementCount c))
  | vm_vtable tn p : address_ok (tp_addr p) -> vtable_for p tn -> valid_meta (MKVTablePointer tn) (Some (MVTablePointer p)).

  (** what references and boxes point to: at most isize::MAX bytes, not at zero, aligned, of an inhabited type, in
      memory that can be accessed *)
  Definition points_to (p : Pointer P) (pi : PointeeInfo) : Prop :=
    exists s a, pointee_size (pi_layout pi) (p_meta p) s a /\ Z.of_N s < 2 ^ (8 * Z.of_N (PTR_SIZE T) - 1) /\
      tp_addr (p_thin p) <> 0 /\ tp_addr (p_thin p) mod Z.of_N a = 0 /\ pi_inhabited pi = true /\
      ce_deref env (p_thin p) s = Ret tt.

  (** [valid_ptr pt p]: raw and function pointers only need an address and metadata in range *)
  Inductive valid_ptr : PtrType -> Pointer P -> Prop :=
  | vp_raw mk p : address_ok (tp_addr (p_thin p)) -> valid_meta mk (p_meta p) -> valid_ptr (PRaw mk) p
  | vp_fn p : address_ok (tp_addr (p_thin p)) -> p_meta p = None -> valid_ptr PFnPtr p
  | vp_vtable tn p : address_ok (tp_addr (p_thin p)) -> p_meta p = None -> vtable_for (p_thin p) tn -> valid_ptr (PVTablePtr tn) p
  | vp_ref m pi p : address_ok (tp_addr (p_thin p)) -> valid_meta (layout_meta_kind (pi_layout pi)) (p_meta p) ->
      points_to p pi -> valid_ptr (PRef m pi) p
  | vp_box pi p : address_ok (tp_addr (p_thin p)) -> valid_meta (layout_meta_kind (pi_layout pi)) (p_meta p) ->
      points_to p pi -> valid_ptr (PBox pi) p.

  (** [valid_value ty v]: integers in range, valid pointers, the right number of parts, union data of the right
      lengths, an existing variant *)
  Inductive valid_value : Ty -> Value P -> Prop :=
  | vv_unsigned s i : 0 <= i < 2 ^ (8 * Z.of_N s) -> valid_value (TInt (mkIntTy Unsigned s)) (VInt i)
  | vv_signed s i : - 2 ^ (8 * Z.of_N s - 1) <= i < 2 ^ (8 * Z.of_N s - 1) -> valid_value (TInt (mkIntTy Signed s)) (VInt i)
  | vv_signed0 : valid_value (TInt (mkIntTy Signed 0)) (VInt 0)
  | vv_bool b : valid_value TBool (VBool b)
  | vv_ptr pt p : valid_ptr pt p -> valid_value (TPtr pt) (VPtr p)
  | vv_tuple fields head vs : Forall2 (fun f v => valid_value (snd f) v) fields vs ->
      valid_value (TTuple fields head None) (VTuple vs)
  | vv_array elem count vs : Z.of_nat (length vs) = count -> Forall (valid_value elem) vs ->
      valid_value (TArray elem count) (VTuple vs)
  | vv_union fields chunks size align data : Forall2 (fun c d => N.of_nat (length d) = snd c) chunks data ->
      valid_value (TUnion fields chunks size align) (VUnion data)
  | vv_enum variants dty discr size align d t tg v : map_get variants d = Some (t, tg) -> valid_value t v ->
      valid_value (TEnum variants dty discr size align) (VVariant d v).
End ValueSpec.
