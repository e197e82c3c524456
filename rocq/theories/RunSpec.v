(** Specification of running programs: the values that an execution prints, how they are shown, and which arguments of the
    command line are its own. *)
From Coq Require Import Ascii String.
From Verif Require Export OutSpec OutProofs SimSpec BasicMem TreeBorrows.

Section Spec.
  Context {P F M : Type} `{EqDecision P}.
  Variable T : Target.
  Variable MO : MemOps P F M.
  Notation Mach := (Machine P F M).

  (** the program is not run at all *)
  Definition refused (prog : Program) (t : TermInfo) : Prop := exists cs, machine_new T MO prog cs = Stop t.
  (** the interpreter panics on the program *)
  Definition can_crash (prog : Program) : Prop :=
    (exists cs, machine_new T MO prog cs = Panic) \/
    exists m cs, reachable T MO prog m /\ step T MO cs m = Panic.

  (** an execution from one state to another and the values that it prints to the standard output, in order *)
  Inductive prints : Mach -> Mach -> list (Value P) -> Prop :=
  | prints_nil m : prints m m []
  | prints_other m m1 m2 vs :
      steps_to T MO m m1 -> ~ at_intrinsic m (m_active m1) InPrintStdout -> prints m1 m2 vs -> prints m m2 vs
  | prints_line m m1 m2 args ret nb us vs :
      steps_to T MO m m1 -> at_terminator m (m_active m1) (TmIntrinsic InPrintStdout args ret nb) ->
      operands T MO m (m_active m1) args ret us -> prints m1 m2 vs -> prints m m2 (List.map fst us ++ vs).
End Spec.

(** how a value is shown *)
Inductive shows {P} : Value P -> string -> Prop :=
| shows_int i s : decimal_int i s -> shows (VInt i) s
| shows_true : shows (VBool true) "true"
| shows_false : shows (VBool false) "false".

(** ** The command line *)

(** the arguments that are for the machine, and the only one that there is *)
Definition for_machine (arg : string) : Prop := exists r, arg = ("--minirust-" ++ r)%string.
Definition tree_borrows_arg : string := "--minirust-tree-borrows".

(** where the program is read from: the standard input, or the file that is named *)
Inductive source : list string -> option string -> Prop :=
| source_stdin : source [] None
| source_file f : source [f] (Some f).
(** the command line is in order and asks for a program *)
Definition asks (load : option string -> option Program) (args : list string) (prog : Program) : Prop :=
  Forall (fun a => for_machine a -> a = tree_borrows_arg) args /\
  exists src, source (List.filter (fun a => negb (a =? tree_borrows_arg)%string) args) src /\ load src = Some prog.
(** the ending is one of the program, in the machine with Tree Borrows exactly if that is asked for *)
Definition possible (T : Target) (args : list string) (prog : Program) (t : TermInfo) : Prop :=
  (tree_borrows_arg ∈ args /\ ((exists out err, can_end T (TreeOps T) prog out err t) \/ refused T (TreeOps T) prog t)) \/
  (tree_borrows_arg ∉ args /\ ((exists out err, can_end T (BasicOps T) prog out err t) \/ refused T (BasicOps T) prog t)).
(** the message for an ending that is not the normal one *)
Definition message (t : TermInfo) : string :=
  match t with
  | TUb msg => "UB: " ++ msg
  | TAbort => "program aborted"
  | TDeadlock => "program dead-locked"
  | TMemoryLeak => "program leaked memory"
  | TIllFormed msg => "program not well-formed (this is a bug in minimize):" ++ line_end ++ "    " ++ msg
  | TMachineStop => EmptyString
  end.
