(** Model of the driver of minimize: tooling/minimize/src/{main,sysroot}.rs and tooling/miniutil/src/json.rs.
    The Rust compiler (rustc_driver), cargo, the file system and serde are outside: what they answer is a
    parameter. *)
From Coq Require Import Ascii String.
From Verif Require Export Run Pretty.
Local Open Scope string_scope.
Local Open Scope list_scope.

(** commands one after the other: a fatal error ends the process *)
Definition then_ {A B} (c : Call (Command A)) (k : A -> Call (Command B)) : Call (Command B) :=
  after c (fun r => match r with Returns a => k a | Fatal msg => Done (Fatal msg) end).
(** [expect] and [unwrap] of an Option or a Result *)
Definition expects {A} (o : option A) : Call (Command A) := match o with Some a => Done (Returns a) | None => Crashed end.
(** [array_windows::<2>().any(|[first, second]| first == a && second == b)] *)
Fixpoint has_pair (a b : string) (l : list string) : bool :=
  match l with
  | x :: ((y :: _) as r) => (x =? a)%string && (y =? b)%string || has_pair a b r
  | _ => false
  end.
(** [array_windows::<2>().find_map(|[first, second]| (first == a).then(|| second.clone()))] *)
Fixpoint find_after (a : string) (l : list string) : option string :=
  match l with
  | x :: ((y :: _) as r) => if (x =? a)%string then Some y else find_after a r
  | _ => None
  end.

(** comparison of an optional string with a given one *)
Definition is_str (o : option string) (s : string) : bool := match o with Some x => (x =? s)%string | None => false end.

(** ** Arguments *)

(** main.rs:185-192 MinimizeConfig *)
Record MinimizeConfig := mkMinimize { mc_dump : option string; mc_roundtrip : bool; mc_machine : Config }.

(** main.rs:202-220 the loop of parse_args, with what it has collected so far *)
Fixpoint parse_from (cf : MinimizeConfig) (rustc_args : list string) (args : list string) : Command (MinimizeConfig * list string) :=
  match args with
  | [] => Returns (cf, rustc_args)
  | arg :: args =>
      match Run.strip_prefix "--minimize-" arg with
      | Some arg =>
          match Run.strip_prefix "dump=" arg with
          | Some arg =>
              match mc_dump cf with
              | Some _ => Fatal "Argument --minimize-dump was given twice!"
              | None => parse_from (mkMinimize (Some arg) (mc_roundtrip cf) (mc_machine cf)) rustc_args args
              end
          | None =>
              if (arg =? "check-json-roundtrip")%string then parse_from (mkMinimize (mc_dump cf) true (mc_machine cf)) rustc_args args
              else Fatal ("Unknown minimize argument --minimize-" ++ arg ++ "!")%string
          end
      | None =>
          match consume_arg (mc_machine cf) arg with
          | Fatal msg => Fatal msg
          | Returns (true, mc) => parse_from (mkMinimize (mc_dump cf) (mc_roundtrip cf) mc) rustc_args args
          | Returns (false, mc) => parse_from (mkMinimize (mc_dump cf) (mc_roundtrip cf) mc) (rustc_args ++ [arg]) args
          end
      end
  end.
(** main.rs:195-222 parse_args *)
Definition parse_args (args : list string) : Command (MinimizeConfig * list string) :=
  parse_from (mkMinimize None false config_default) [] args.

(** ** The sysroot *)

(** the environment of sysroot.rs *)
Record SysEnv := mkSysEnv {
  (** the variable MINIRUST_SYSROOT *)
  se_var : option string;
  (** the cache directory of the user, if there is one *)
  se_cache : option string;
  (** the source directory: path, whether it exists, last component of the path (if it is a string) *)
  se_src : option (string * bool * option string);
  (** the host of rustc --version *)
  se_host : option string;
  (** whether the path of the running program is known *)
  se_exe : bool;
  (** whether the build into a directory for a target succeeds *)
  se_build : string -> string -> bool;
}.
(** sysroot.rs:9-17 get_sysroot_dir *)
Definition get_sysroot_dir (e : SysEnv) : Call (Command string) :=
  match se_var e with Some dir => Done (Returns dir) | None => expects (se_cache e) end.
(** sysroot.rs:45-49 the target to build for; [args] are the arguments of the process *)
Definition sysroot_target (e : SysEnv) (args : list string) : Call (Command string) :=
  match find_after "--target" args with Some t => Done (Returns t) | None => expects (se_host e) end.
(** sysroot.rs:20-75 setup_sysroot. The second check that the directory exists (34-36) is the same as the
    first, so it never fails. *)
Definition setup_sysroot (e : SysEnv) (args : list string) : Call (Command string) :=
  then_ (get_sysroot_dir e) (fun dir =>
  then_ (expects (se_src e)) (fun '(path, there, name) =>
  if negb there then Done (Fatal "`rust-src` not found")
  else if negb (is_str name "library") then
    Done (Fatal ("given Rust source directory `" ++ path ++ "` does not seem to be the `library` subdirectory of a Rust source checkout.")%string)
  else
    then_ (sysroot_target e args) (fun target =>
    if negb (se_exe e) then Crashed
    else if se_build e dir target then Done (Returns dir) else Crashed))).

(** ** The driver *)

(** main.rs:106-117 DEFAULT_ARGS *)
Definition default_args : list string :=
  ["--cfg=miri"; "-Zalways-encode-mir"; "-Zextra-const-ub-checks"; "-Zmir-emit-retag"; "-Zmir-opt-level=0";
   "-Zmir-enable-passes=-CheckAlignment"; "-Zmir-preserve-ub"; "-Zub-checks=false"]%string.

(** [Vec::insert(1, x)], which panics for an empty list *)
Definition insert_1 (x : list string) (l : list string) : option (list string) :=
  match l with a :: r => Some (a :: x ++ r) | [] => None end.

(** main.rs:123-129 the arguments with which be_rustc runs the compiler *)
Definition be_rustc_args (args : list string) : Call (Command (list string)) :=
  if has_pair "--crate-name" "panic_abort" args then expects (insert_1 ["-Cpanic=abort"%string] args) else Done (Returns args).

(** the environment of main: the variables MINIMIZE_BUILD_SYSROOT (if it is a string) and MINIMIZE_BE_RUSTC
    (whether it is set), and what sysroot.rs sees *)
Record Env := mkEnv { en_mode : option string; en_be_rustc : bool; en_sys : SysEnv }.

(** what main decides to do: only build the sysroot, be the compiler with some arguments, or translate with
    some arguments *)
Inductive Plan := PSysroot | PRustc (args : list string) | PTranslate (args : list string) (cf : MinimizeConfig).

(** main.rs:157: a probe for the version *)
Definition is_probe (a : string) : bool :=
  ((a =? "-vV")%string || match Run.strip_prefix "--print=" a with Some _ => true | None => false end).

(** main.rs:142-167 main, up to the call of the compiler *)
Definition plan (e : Env) (args : list string) : Call (Command Plan) :=
  then_ (expects (insert_1 default_args args)) (fun all =>
  then_ (if is_str (en_mode e) "only" then then_ (setup_sysroot (en_sys e) args) (fun _ => Done (Returns None))
         else if is_str (en_mode e) "off" then Done (Returns (Some all))
         else if existsb is_probe all then Done (Returns (Some all))
         else then_ (setup_sysroot (en_sys e) args) (fun dir =>
              then_ (expects (insert_1 [("--sysroot=" ++ dir)%string] all)) (fun all => Done (Returns (Some all))))) (fun o =>
  match o with
  | None => Done (Returns PSysroot)
  | Some all =>
      if en_be_rustc e then then_ (be_rustc_args all) (fun all => Done (Returns (PRustc all)))
      else match parse_args all with
           | Fatal msg => Done (Fatal msg)
           | Returns (cf, rustc_args) => Done (Returns (PTranslate rustc_args cf))
           end
  end)).

(** json.rs with serde's two functions and the equality of programs as parameters *)
Record Json := mkJson { js_to : Program -> option string; js_from : string -> option Program; js_eq : Program -> Program -> bool }.
(** json.rs:8-10 dump_program: what is written *)
Definition json_dump (j : Json) (prog : Program) : Call (Command string) := expects (js_to j prog).
(** json.rs:12-21 assert_roundtrip *)
Definition assert_roundtrip (j : Json) (prog : Program) : Call (Command unit) :=
  then_ (expects (js_to j prog)) (fun s => then_ (expects (js_from j s)) (fun p => if js_eq j prog p then Done (Returns tt) else Crashed)).
(** json.rs:23-25 load_program from what is read *)
Definition load_program (j : Json) (s : string) : Call (Command Program) := expects (js_from j s).

(** what the process has done when it ends without an error *)
Inductive Did := DidSysroot | DidRustc (args : list string) | DidDump (text : string) | DidRun.

Section Main.
  Variable T : Target.
  Variable j : Json.

  (** main.rs:169-182 the closure of main: what is done with a program. [rounds], [ob] and [ot] are as in
      Run.v; [rounds] is also the bound for the loop of the pretty printer. *)
  Definition with_program (cf : MinimizeConfig) (prog : Program) (rounds : nat) ob ot : Call (Command Did) :=
    match mc_dump cf with
    | Some kind =>
        if (kind =? "pretty")%string then
          match fmt_program T rounds prog with
          | Ret s => Done (Returns (DidDump (s ++ newline)%string))
          | NoBehavior => Running
          | Stop _ | Panic => Crashed
          end
        else if (kind =? "json")%string then then_ (json_dump j prog) (fun s => Done (Returns (DidDump s)))
        else Done (Fatal ("Unknown dump format " ++ kind)%string)
    | None =>
        then_ (if mc_roundtrip cf then assert_roundtrip j prog else Done (Returns tt)) (fun _ =>
        then_ (run_prog_and_print_errors T (mc_machine cf) rounds ob ot prog) (fun _ => Done (Returns DidRun)))
    end.

  (** main.rs:142-183 main. [compile] is the compiler with after_analysis (main.rs:224-244): the program, if
      the compiler gets so far. What be_rustc (main.rs:119-140) does after its arguments are known is the
      compiler's business. *)
  Definition minimize (compile : list string -> Call (Command Program)) (e : Env) (args : list string) (rounds : nat) ob ot : Call (Command Did) :=
    then_ (plan e args) (fun p =>
    match p with
    | PSysroot => Done (Returns DidSysroot)
    | PRustc all => Done (Returns (DidRustc all))
    | PTranslate all cf => then_ (compile all) (fun prog => with_program cf prog rounds ob ot)
    end).
End Main.
