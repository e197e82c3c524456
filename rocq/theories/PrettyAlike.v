(** What can be read off the text of a whole program (for C92). *)
From Verif Require Export PrettyOrder.

(** Of a basic block the text shows all that it shows of the statements and of the terminator; of a vtable all but the cells. *)
Definition forget_block (b : BasicBlock) : BasicBlock :=
  mkBlock (List.map forget_stmt (bb_statements b)) (forget_term (bb_terminator b)) (bb_kind b).
Definition forget_vtable (v : VTable) : TraitName * Size * Align * list (TraitMethodName * FnName) :=
  (vt_trait v, vt_size v, vt_align v, vt_methods v).

(** [alike R m m']: the same names are mapped, to things related by [R]. *)
Definition alike {V} (R : V -> V -> Prop) (m m' : list (N * V)) : Prop :=
  forall n, match map_get m n, map_get m' n with Some x, Some y => R x y | None, None => True | _, _ => False end.

(** The calling convention of a function is not printed, and the start block only if it exists. *)
Record alike_functions (f g : Function) : Prop := {
  af_args : fn_args f = fn_args g;
  af_ret : fn_ret f = fn_ret g;
  af_locals : alike (fun t u => forget_ty t = forget_ty u) (fn_locals f) (fn_locals g);
  af_blocks : alike (fun b c => forget_block b = forget_block c) (fn_blocks f) (fn_blocks g);
  af_start : forall b, map_contains (fn_blocks f) b = true -> (fn_start f = b <-> fn_start g = b);
}.
Record alike_programs (p q : Program) : Prop := {
  ap_start : pr_start p = pr_start q;
  ap_functions : alike alike_functions (pr_functions p) (pr_functions q);
  ap_globals : alike eq (pr_globals p) (pr_globals q);
  ap_vtables : alike (fun v w => forget_vtable v = forget_vtable w) (pr_vtables p) (pr_vtables q);
  ap_traits : alike (fun l l' : list TraitMethodName => forall m, In m l <-> In m l') (pr_traits p) (pr_traits q);
}.

(** No name is used twice. *)
Record unique_names (p : Program) : Prop := {
  un_functions : unique (pr_functions p);
  un_globals : unique (pr_globals p);
  un_vtables : unique (pr_vtables p);
  un_traits : unique (pr_traits p);
  un_locals : forall n f, In (n, f) (pr_functions p) -> unique (fn_locals f);
  un_blocks : forall n f, In (n, f) (pr_functions p) -> unique (fn_blocks f);
}.

(** [printed T p F text]: [text] is the text of [p], and [F] the list of the types that it declares. *)
Definition printed (T : Target) (p : Program) (F : list Ty) (text : string) : Prop :=
  exists fuel functions ct declarations,
    fmt_functions p [] = Ret (functions, ct) /\ fmt_comptypes T fuel 0 ct = Ret (declarations, F) /\ fmt_program T fuel p = Ret text.
