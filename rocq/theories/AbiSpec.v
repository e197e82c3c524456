(** Specification of which types may stand for each other in calls, as a relation. *)
From Verif Require Export Types.

Inductive abi_same : Ty -> Ty -> Prop :=
(** the sign of an integer matters *)
| as_int it : abi_same (TInt it) (TInt it)
| as_bool : abi_same TBool TBool
(** for pointers only the metadata matters *)
| as_ptr p q : ptr_meta_kind p = ptr_meta_kind q -> abi_same (TPtr p) (TPtr q)
(** fields match one by one *)
| as_tuple f1 f2 h1 h2 :
    Forall2 (fun a b => fst a = fst b /\ abi_same (snd a) (snd b)) f1 f2 ->
    align_to (th_end h1) (th_align h1) = align_to (th_end h2) (th_align h2) -> th_align h1 = th_align h2 ->
    abi_same (TTuple f1 h1 None) (TTuple f2 h2 None)
| as_array e1 e2 c : abi_same e1 e2 -> abi_same (TArray e1 c) (TArray e2 c)
| as_union f1 f2 chunks s a :
    Forall2 (fun a b => fst a = fst b /\ abi_same (snd a) (snd b)) f1 f2 ->
    abi_same (TUnion f1 chunks s a) (TUnion f2 chunks s a)
(** the variants are the same, and match by discriminant *)
| as_enum v1 v2 t d s a :
    (forall x, In x (List.map fst v1) <-> In x (List.map fst v2)) ->
    (forall x t1 g1 t2 g2, In (x, (t1, g1)) v1 -> In (x, (t2, g2)) v2 -> g1 = g2) ->
    (forall x t1 g1 t2 g2, In (x, (t1, g1)) v1 -> In (x, (t2, g2)) v2 -> abi_same t1 t2) ->
    abi_same (TEnum v1 t d s a) (TEnum v2 t d s a).

(** types of arguments: sized, and so are their parts; the variants of an enum form a map. *)
Inductive arg_type : Ty -> Prop :=
| at_int it : arg_type (TInt it)
| at_bool : arg_type TBool
| at_ptr p : arg_type (TPtr p)
| at_tuple f h : Forall (fun x => arg_type (snd x)) f -> arg_type (TTuple f h None)
| at_array e c : arg_type e -> arg_type (TArray e c)
| at_union f chunks s a : Forall (fun x => arg_type (snd x)) f -> arg_type (TUnion f chunks s a)
| at_enum v t d s a : Forall (fun x => arg_type (fst (snd x))) v -> NoDup (List.map fst v) ->
    arg_type (TEnum v t d s a).

(** every enum in the type has its variants in a map, as the code's data structure ensures *)
Inductive maps_ok : Ty -> Prop :=
| mk_int it : maps_ok (TInt it)
| mk_bool : maps_ok TBool
| mk_ptr p : maps_ok (TPtr p)
| mk_tuple f h u : Forall (fun x => maps_ok (snd x)) f -> (forall t, u = Some t -> maps_ok t) -> maps_ok (TTuple f h u)
| mk_array e c : maps_ok e -> maps_ok (TArray e c)
| mk_slice e : maps_ok e -> maps_ok (TSlice e)
| mk_union f chunks s a : Forall (fun x => maps_ok (snd x)) f -> maps_ok (TUnion f chunks s a)
| mk_enum v t d s a : Forall (fun x => maps_ok (fst (snd x))) v -> NoDup (List.map fst v) ->
    maps_ok (TEnum v t d s a)
| mk_trait tn : maps_ok (TTraitObject tn).
