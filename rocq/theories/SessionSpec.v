(** Specification for C95: sessions with the program builder. A session is the list of the calls a Rust program makes to
    one ProgramBuilder. What was declared is read off this list; no state of the builder appears in that. *)
From stdpp Require Export base option list.
From Verif Require Export BuildSpec.

(** The calls. Handles are numbers: the i-th function, trait or vtable that is declared. *)
Inductive PbCall :=
| PbFn                                                  (* declare_function *)
| PbFnDone (i : nat) (h : Header) (c : Cmd)             (* write the body of the i-th function; finish_function *)
| PbGlobal (ty : Ty)                                    (* declare_global_zero_initialized *)
| PbTrait                                               (* declare_trait *)
| PbMethod (i : nat)                                    (* declare_method on the i-th trait *)
| PbTraitDone (i : nat)                                 (* finish_trait *)
| PbVTable (tn : TraitName) (size : Size) (align : Align) (cells : list (Offset * Size)) (* declare_vtable *)
| PbVTableFor (tn : TraitName) (ty : Ty)                (* declare_vtable_for_frozen_ty *)
| PbImpl (i : nat) (m : TraitMethodName) (f : FnName)   (* add_method on the i-th vtable *)
| PbVTableDone (i : nat).                               (* finish_vtable *)

(** ** Making the calls *)

(** The program builder and the other builders that were handed out. One that was given back is [None]. *)
Record Session := mkSession {
  se_pb : ProgBuilder;
  se_fns : list (option FnBuilder);
  se_traits : list (option TraitBuilder);
  se_vtables : list (option VTableBuilder);
}.

(** A builder that was never handed out, or was moved away: there is no such Rust program. *)
Definition held {A} (l : list (option A)) (i : nat) : Outcome A :=
  match l !! i with Some (Some b) => Ret b | _ => NoBehavior end.

Definition pb_call (T : Target) (s : Session) (c : PbCall) : Outcome Session :=
  match c with
  | PbFn =>
      let! '(b, p) := declare_function (se_pb s) in
      Ret (mkSession p (se_fns s ++ [Some b]) (se_traits s) (se_vtables s))
  | PbFnDone i h c =>
      let! b := held (se_fns s) i in
      let! b := emit_header h b in
      let! b := emit c b in
      let! '(_, p) := pb_finish_function (se_pb s) b in
      Ret (mkSession p (<[i := None]> (se_fns s)) (se_traits s) (se_vtables s))
  | PbGlobal ty =>
      let! '(_, p) := declare_global_zero T (se_pb s) ty in
      Ret (mkSession p (se_fns s) (se_traits s) (se_vtables s))
  | PbTrait =>
      let '(b, p) := declare_trait (se_pb s) in
      Ret (mkSession p (se_fns s) (se_traits s ++ [Some b]) (se_vtables s))
  | PbMethod i =>
      let! b := held (se_traits s) i in
      Ret (mkSession (se_pb s) (se_fns s) (<[i := Some (snd (declare_method b))]> (se_traits s)) (se_vtables s))
  | PbTraitDone i =>
      let! b := held (se_traits s) i in
      let! '(_, p) := finish_trait (se_pb s) b in
      Ret (mkSession p (se_fns s) (<[i := None]> (se_traits s)) (se_vtables s))
  | PbVTable tn size align cells =>
      let '(b, p) := declare_vtable (se_pb s) tn size align cells in
      Ret (mkSession p (se_fns s) (se_traits s) (se_vtables s ++ [Some b]))
  | PbVTableFor tn ty =>
      let! '(b, p) := declare_vtable_for_frozen_ty T (se_pb s) tn ty in
      Ret (mkSession p (se_fns s) (se_traits s) (se_vtables s ++ [Some b]))
  | PbImpl i m f =>
      let! b := held (se_vtables s) i in
      Ret (mkSession (se_pb s) (se_fns s) (se_traits s) (<[i := Some (add_method b m f)]> (se_vtables s)))
  | PbVTableDone i =>
      let! b := held (se_vtables s) i in
      let! '(_, p) := finish_vtable (se_pb s) b in
      Ret (mkSession p (se_fns s) (se_traits s) (<[i := None]> (se_vtables s)))
  end.

Fixpoint pb_calls (T : Target) (s : Session) (cs : list PbCall) : Outcome Session :=
  match cs with
  | [] => Ret s
  | c :: r => let! s := pb_call T s c in pb_calls T s r
  end.

(** all calls on a new program builder, and at last finish_program *)
Definition session (T : Target) (cs : list PbCall) : Outcome Session := pb_calls T (mkSession pb_new [] [] []) cs.
Definition session_program (T : Target) (cs : list PbCall) (start : FnName) : Outcome Program :=
  let! s := session T cs in finish_program (se_pb s) start.

(** ** What was declared *)

Definition is_fn (c : PbCall) : option unit := match c with PbFn => Some tt | _ => None end.
Definition is_trait (c : PbCall) : option unit := match c with PbTrait => Some tt | _ => None end.
Definition is_method (i : nat) (c : PbCall) : option unit :=
  match c with PbMethod j => if bool_decide (j = i) then Some tt else None | _ => None end.
Definition is_global (c : PbCall) : option Ty := match c with PbGlobal ty => Some ty | _ => None end.
Definition is_impl (i : nat) (m : TraitMethodName) (c : PbCall) : option FnName :=
  match c with PbImpl j m' f => if bool_decide (j = i /\ m' = m) then Some f else None | _ => None end.

(** what a vtable says about the type it is for *)
Inductive VHead := VhGiven (size : Size) (align : Align) (cells : list (Offset * Size)) | VhFor (ty : Ty).
Definition is_vtable (c : PbCall) : option (TraitName * VHead) :=
  match c with
  | PbVTable tn s a l => Some (tn, VhGiven s a l)
  | PbVTableFor tn ty => Some (tn, VhFor ty)
  | _ => None
  end.

Definition fns_of (cs : list PbCall) : nat := length (omap is_fn cs).
Definition traits_of (cs : list PbCall) : nat := length (omap is_trait cs).
Definition methods_of (cs : list PbCall) (i : nat) : nat := length (omap (is_method i) cs).
Definition globals_of (cs : list PbCall) : list Ty := omap is_global cs.
Definition vtables_of (cs : list PbCall) : list (TraitName * VHead) := omap is_vtable cs.
(** the function that was given last for a method *)
Definition impl_of (cs : list PbCall) (i : nat) (m : TraitMethodName) : option FnName := last (omap (is_impl i m) cs).

Definition upto (n : nat) : list N := List.map N.of_nat (seq 0 n).

(** a zeroed global of a type *)
Definition zeroed (T : Target) (ty : Ty) (g : Global) : Prop :=
  exists s a, size_of T ty = Ret s /\ align_of T ty = Ret a /\
    g_bytes g = repeat (Some Byte.x00) (N.to_nat s) /\ g_relocations g = [] /\ g_align g = a.

(** the vtable says what the i-th declaration and the methods added say *)
Definition head_is (T : Target) (h : VHead) (v : VTable) : Prop :=
  match h with
  | VhGiven s a l => vt_size v = s /\ vt_align v = a /\ vt_cells v = l
  | VhFor ty => size_of T ty = Ret (vt_size v) /\ align_of T ty = Ret (vt_align v) /\ vt_cells v = []
  end.
Definition vtable_is (T : Target) (cs : list PbCall) (i : nat) (v : VTable) : Prop :=
  exists h, vtables_of cs !! i = Some (vt_trait v, h) /\ head_is T h v /\ forall m, map_get (vt_methods v) m = impl_of cs i m.

(** the function as the start function: with the calling convention of C *)
Definition as_start (f : Function) : Function := mkFunction (fn_locals f) (fn_args f) (fn_ret f) CcC (fn_blocks f) (fn_start f).

(** ** Which calls do not panic *)

Definition sized_ty (T : Target) (ty : Ty) : Prop := (exists s, size_of T ty = Ret s) /\ (exists a, align_of T ty = Ret a).

(** [handles cs c]: after the calls [cs], the builder [c] is made on is there *)
Definition handles (cs : list PbCall) (c : PbCall) : Prop :=
  match c with
  | PbFnDone i _ _ => (i < fns_of cs)%nat /\ (forall h c, PbFnDone i h c ∉ cs)
  | PbMethod i | PbTraitDone i => (i < traits_of cs)%nat /\ PbTraitDone i ∉ cs
  | PbImpl i _ _ | PbVTableDone i => (i < length (vtables_of cs))%nat /\ PbVTableDone i ∉ cs
  | _ => True
  end.
(** [allowed T cs c]: after the calls [cs], [c] does not panic *)
Definition allowed (T : Target) (cs : list PbCall) (c : PbCall) : Prop :=
  match c with
  | PbFnDone i _ c => proper_cmd c = true /\ falls c = false
  | PbGlobal ty | PbVTableFor _ ty => sized_ty T ty
  | PbVTableDone i => exists tn h, vtables_of cs !! i = Some (tn, h) /\ PbTraitDone (N.to_nat tn) ∈ cs /\
      forall m, is_Some (impl_of cs i m) <-> (m < N.of_nat (methods_of cs (N.to_nat tn)))%N
  | _ => True
  end.
