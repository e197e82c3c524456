(** Model of how programs are run and tested: tooling/miniutil/src/{run,mock_write,cli}.rs,
    tooling/minirun/src/main.rs and the assertions of tooling/minitest/src/lib.rs. *)
From Coq Require Import Ascii String.
From Verif Require Export Step BasicMem TreeBorrows Build.

Global Instance TermInfo_eq_dec : EqDecision TermInfo.
Proof. intros t t'. unfold Decision. decide equality; apply string_dec. Defined.

(** ** Running *)

(** The nondeterminism of a run: what is chosen while the machine starts and what is chosen in each step.
    (In the code, the choices are made by libspecr's interpretation of NdResult, which is not part of the
    repository; run.rs:50 get_internal.) *)
Record Oracle (P : Type) : Type := mkOracle { or_start : list (Choice P); or_step : nat -> list (Choice P) }.
Arguments mkOracle {P}.
Arguments or_start {P}.
Arguments or_step {P}.

(** What a call of a function that runs a program can do. The loop of run.rs:41-46 need not end, so the
    model runs it for a given number of rounds; [Running] means that it is not over then. [Impossible]
    means that these choices do not exist. *)
Inductive Call (A : Type) : Type :=
| Running | Done (a : A) | Crashed | Impossible.
Arguments Running {A}.
Arguments Done {A}.
Arguments Crashed {A}.
Arguments Impossible {A}.
Definition after {A B} (c : Call A) (k : A -> Call B) : Call B :=
  match c with Running => Running | Done a => k a | Crashed => Crashed | Impossible => Impossible end.

Section Run.
  Context {P F M : Type} `{EqDecision P}.
  Variable T : Target.
  Variable MO : MemOps P F M.
  Notation Mach := (Machine P F M).

  (** run.rs:41-46, the loop, in round [k]; the result is the ending and what has been written to the two
      streams. (mark_and_sweep has no effect on the program. What the last step wrote before it stopped is
      not in the result, see the simplifications of Step.v.) *)
  Fixpoint run_loop (rounds k : nat) (o : Oracle P) (m : Mach) : Call (TermInfo * string * string) :=
    match rounds with
    | O => Running
    | S rounds =>
        match step T MO (or_step o k) m with
        | Ret m => run_loop rounds (S k) o m
        | Stop t => Done (t, m_stdout m, m_stderr m)
        | Panic => Crashed
        | NoBehavior => Impossible
        end
    end.

  (** run.rs:30-51 run *)
  Definition run_with (rounds : nat) (o : Oracle P) (prog : Program) : Call (TermInfo * string * string) :=
    match machine_new T MO prog (or_start o) with
    | Ret (m, _) => run_loop rounds 0 o m
    | Stop t => Done (t, EmptyString, EmptyString)
    | Panic => Crashed
    | NoBehavior => Impossible
    end.

  (** run.rs:5-14 run_program. (The streams of the host are not modelled.) *)
  Definition run_program (rounds : nat) (o : Oracle P) (prog : Program) : Call TermInfo :=
    after (run_with rounds o prog) (fun '(t, _, _) => Done t).
End Run.

(** std's [from_utf8], on the texts that consist of ASCII characters; other texts, of which some are valid, are
    refused here *)
Fixpoint from_utf8 (s : string) : option string :=
  match s with
  | EmptyString => Some EmptyString
  | String c r =>
      if (Ascii.N_of_ascii c <? 128)%N then
        match from_utf8 r with Some r => Some (String c r) | None => None end
      else None
  end.
(** std's [str::split_inclusive] at newlines *)
Definition is_newline (c : ascii) : bool := (Ascii.N_of_ascii c =? 10)%N.
Definition is_return (c : ascii) : bool := (Ascii.N_of_ascii c =? 13)%N.
Fixpoint split_inclusive (s : string) : list string :=
  match s with
  | EmptyString => []
  | String c r =>
      if is_newline c then String c EmptyString :: split_inclusive r
      else match split_inclusive r with
           | [] => [String c EmptyString]
           | l :: ls => String c l :: ls
           end
  end.
(** std's [str::strip_suffix] with a character *)
Fixpoint strip_suffix (p : ascii -> bool) (s : string) : option string :=
  match s with
  | EmptyString => None
  | String c EmptyString => if p c then Some EmptyString else None
  | String c r => match strip_suffix p r with Some r => Some (String c r) | None => None end
  end.
(** std's [str::lines]: every line without its newline, and without a carriage return before that *)
Definition str_lines (s : string) : list string :=
  List.map (fun line =>
    match strip_suffix is_newline line with
    | None => line
    | Some line =>
        match strip_suffix is_return line with
        | None => line
        | Some line => line
        end
    end) (split_inclusive s).

(** mock_write.rs:18-24 into_strings; [buffer] is what has been written, mock_write.rs:28-32 *)
Definition into_strings (buffer : string) : Outcome (list string) :=
  let! s := unwrap (from_utf8 buffer) in
  Ret (str_lines s).

Section Stdout.
  Context {P F M : Type} `{EqDecision P}.
  Variable T : Target.
  Variable MO : MemOps P F M.

  (** run.rs:18-28 get_stdout *)
  Definition get_stdout (rounds : nat) (o : Oracle P) (prog : Program) : Call (list string + TermInfo) :=
    after (run_with T MO rounds o prog) (fun '(t, out, _) =>
      match t with
      | TMachineStop => match into_strings out with Ret l => Done (inl l) | _ => Crashed end
      | _ => Done (inr t)
      end).
End Stdout.

(** ** The command line *)

(** How a command ends: it returns, or it prints an error message and exits with code 101
    (cli.rs:8-11 show_error). *)
Inductive Command (A : Type) : Type := Returns (a : A) | Fatal (msg : string).
Arguments Returns {A}.
Arguments Fatal {A}.

(** cli.rs:18-27 MinirustMachineConfig and its default *)
Record Config := mkConfig { cf_tree_borrows : bool }.
Definition config_default : Config := mkConfig false.

(** std's [str::strip_prefix] *)
Fixpoint strip_prefix (p s : string) : option string :=
  match p, s with
  | EmptyString, _ => Some s
  | String c p, String d s => if Ascii.eqb c d then strip_prefix p s else None
  | String _ _, EmptyString => None
  end.

(** cli.rs:30-39 consume_arg *)
Definition consume_arg (cf : Config) (arg : string) : Command (bool * Config) :=
  match strip_prefix "--minirust-" arg with
  | None => Returns (false, cf)
  | Some a =>
      if (a =? "tree-borrows")%string then Returns (true, mkConfig true)
      else Fatal ("Unknown argument --minirust-" ++ a ++ "!")
  end.

(** main.rs:6-10: take the arguments out that are consumed *)
Fixpoint consume_args (cf : Config) (args : list string) : Command (Config * list string) :=
  match args with
  | [] => Returns (cf, [])
  | a :: args =>
      match consume_arg cf a with
      | Fatal msg => Fatal msg
      | Returns (b, cf) =>
          match consume_args cf args with
          | Fatal msg => Fatal msg
          | Returns (cf, rest) => Returns (cf, if b then rest else a :: rest)
          end
      end
  end.

(** main.rs:12-17: where the program comes from, the standard input or a file *)
Definition program_source (args : list string) : Command (option string) :=
  match args with
  | [] => Returns None
  | [filename] => Returns (Some filename)
  | _ :: _ :: _ => Fatal "Can not load JSON from more than one file!"
  end.

Section Cli.
  Variable T : Target.

  (** cli.rs:42-48 run_prog. (The choices of the two machines are of different types, so there are two
      oracles.) *)
  Definition run_prog (cf : Config) (rounds : nat) (ob : Oracle (nat * unit)) (ot : Oracle (nat * list nat)) (prog : Program) : Call TermInfo :=
    if cf_tree_borrows cf then run_program T (TreeOps T) rounds ot prog
    else run_program T (BasicOps T) rounds ob prog.

  (** cli.rs:53-67 run_prog_and_print_errors *)
  Definition run_prog_and_print_errors (cf : Config) (rounds : nat) ob ot (prog : Program) : Call (Command unit) :=
    after (run_prog cf rounds ob ot prog) (fun t => Done
      match t with
      | TIllFormed err =>
          Fatal ("program not well-formed (this is a bug in minimize):" ++ String (Ascii.ascii_of_nat 10) ("    " ++ err))
      | TMachineStop => Returns tt
      | TAbort => Fatal "program aborted"
      | TUb err => Fatal ("UB: " ++ err)
      | TDeadlock => Fatal "program dead-locked"
      | TMemoryLeak => Fatal "program leaked memory"
      end).

  (** main.rs:5-19 main; [load] is json.rs:23-25 load_program on the standard input or a file, [None] is a
      panic there *)
  Definition minirun (load : option string -> option Program) (args : list string) (rounds : nat) ob ot : Call (Command unit) :=
    match consume_args config_default args with
    | Fatal msg => Done (Fatal msg)
    | Returns (cf, rest) =>
        match program_source rest with
        | Fatal msg => Done (Fatal msg)
        | Returns src =>
            match load src with
            | None => Crashed
            | Some prog => run_prog_and_print_errors cf rounds ob ot prog
            end
        end
    end.
End Cli.

(** ** The assertions of the tests *)

Section Assertions.
  Context {P F M : Type} `{EqDecision P}.
  Variable T : Target.
  Variable MO : MemOps P F M.

  (** an assertion passes, or fails with a panic *)
  Definition assert_eq (t t' : TermInfo) : Call unit := if bool_decide (t = t') then Done tt else Crashed.

  (** lib.rs:25-27 assert_stop *)
  Definition assert_stop rounds o prog : Call unit :=
    after (run_program T MO rounds o prog) (fun t => assert_eq t TMachineStop).
  (** lib.rs:30-34 assert_stop_always; [os] has an oracle for each attempt *)
  Fixpoint assert_stop_always rounds (os : list (Oracle P)) prog : Call unit :=
    match os with
    | [] => Done tt
    | o :: os => after (assert_stop rounds o prog) (fun _ => assert_stop_always rounds os prog)
    end.
  (** lib.rs:37-39 assert_abort *)
  Definition assert_abort rounds o prog : Call unit :=
    after (run_program T MO rounds o prog) (fun t => assert_eq t TAbort).
  (** lib.rs:42-47 assert_ub *)
  Definition assert_ub rounds o prog (msg : string) : Call unit :=
    after (run_program T MO rounds o prog) (fun t => assert_eq t (TUb msg)).
  (** lib.rs:50-65 assert_ub_eventually *)
  Fixpoint assert_ub_eventually rounds (os : list (Oracle P)) prog (msg : string) : Call unit :=
    match os with
    | [] => Crashed
    | o :: os =>
        after (run_program T MO rounds o prog) (fun t =>
          match t with
          | TMachineStop => assert_ub_eventually rounds os prog msg
          | TUb res => if (res =? msg)%string then Done tt else Crashed
          | _ => Crashed
          end)
    end.
  (** lib.rs:69-82 assert_ub_expr, with the type that [T] stands for; a panic of the builder is a panic *)
  Definition expr_program (ty : Ty) (e : ValueExpr) : Outcome Program :=
    let! '(f, p) := declare_function pb_new in
    let! '(local, f) := declare_local f ty in
    let! f := fb_storage_live local f in
    let! f := push_statement (SAssign local e) f in
    let! f := fb_exit f in
    let! '(f, p) := pb_finish_function p f in
    finish_program p f.
  Definition assert_ub_expr rounds o (ty : Ty) (e : ValueExpr) (msg : string) : Call unit :=
    match expr_program ty e with
    | Ret prog => assert_ub rounds o prog msg
    | _ => Crashed
    end.
  (** lib.rs:85-90 assert_ill_formed *)
  Definition assert_ill_formed rounds o prog (msg : string) : Call unit :=
    after (run_program T MO rounds o prog) (fun t =>
      match t with
      | TIllFormed info => if (info =? msg)%string then Done tt else Crashed
      | _ => Crashed
      end).
  (** lib.rs:93-95 assert_deadlock *)
  Definition assert_deadlock rounds o prog : Call unit :=
    after (run_program T MO rounds o prog) (fun t => assert_eq t TDeadlock).
  (** lib.rs:98-100 assert_memory_leak *)
  Definition assert_memory_leak rounds o prog : Call unit :=
    after (run_program T MO rounds o prog) (fun t => assert_eq t TMemoryLeak).
  (** lib.rs:105-121 has_data_race, with an oracle for each of the 32 runs *)
  Fixpoint has_data_race rounds (os : list (Oracle P)) prog : Call bool :=
    match os with
    | [] => Done false
    | o :: os =>
        after (run_program T MO rounds o prog) (fun t =>
          match t with
          | TMachineStop => has_data_race rounds os prog
          | TUb ub => if (ub =? "Data race")%string then Done true else Crashed
          | _ => Crashed
          end)
    end.
End Assertions.
