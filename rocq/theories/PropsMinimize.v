(** Properties of the driver of minimize (tooling/minimize/src/{main,sysroot}.rs, tooling/miniutil/src/json.rs). *)
From Coq Require Import Ascii String.
From Verif Require Import MinimizeSpec MinimizeProofs RunProofs ExMach PropsCli.

(** ** C97: minimize hands each argument to the right place *)

(** The arguments are accepted exactly if those for minimize and those for the machine are known and a dump is
    asked for at most once. Then the configuration is what they say, and the compiler gets exactly all the other
    arguments in their order. *)
Theorem C97_arguments args cf rest :
  parse_args args = Returns (cf, rest) <-> arguments_ok args /\ passed args rest /\ config_of args cf.
Proof. apply parse_args_iff. Qed.
Print Assumptions C97_arguments.

(** Otherwise the process ends with an error. *)
Theorem C97_refused args : (exists msg, parse_args args = Fatal msg) <-> ~ arguments_ok args.
Proof. apply parse_args_fatal. Qed.
Print Assumptions C97_refused.

(** The program is translated exactly if the process is neither to be the compiler nor to build the sysroot only,
    the arguments of the user are good and there is a sysroot where one is needed. Then the compiler runs with
    the name of the program, the sysroot, the default arguments and then the arguments of the user, which
    thereby win over the default ones. *)
Theorem C97_compiler e a0 user l cf : ~ for_minimize a0 -> ~ for_machine a0 ->
  plan e (a0 :: user) = Done (Returns (PTranslate l cf)) <->
  en_be_rustc e = false /\ arguments_ok user /\ config_of user cf /\
  exists sys u, sysroot_args e (a0 :: user) sys /\ passed user u /\ l = a0 :: sys ++ default_args ++ u.
Proof. intros H1 H2. by apply plan_translate. Qed.
Print Assumptions C97_compiler.

(** As a compiler, minimize gives all arguments of the user to the compiler, also those for minimize, and
    panics abort exactly in the crate panic_abort. *)
Theorem C97_as_rustc e a0 user l : plan e (a0 :: user) = Done (Returns (PRustc l)) <->
  en_be_rustc e = true /\ exists sys, sysroot_args e (a0 :: user) sys /\
  (((exists l1 l2, user = l1 ++ "--crate-name"%string :: "panic_abort"%string :: l2) /\ l = a0 :: "-Cpanic=abort"%string :: sys ++ default_args ++ user) \/
   (~ (exists l1 l2, user = l1 ++ "--crate-name"%string :: "panic_abort"%string :: l2) /\ l = a0 :: sys ++ default_args ++ user)).
Proof. apply plan_rustc. Qed.
Print Assumptions C97_as_rustc.

(** Only the sysroot is built exactly if that is asked for and it can be built. *)
Theorem C97_only e a0 user : plan e (a0 :: user) = Done (Returns PSysroot) <->
  en_mode e = Some "only"%string /\ exists dir, sysroot_ok (en_sys e) (a0 :: user) dir.
Proof. apply plan_sysroot. Qed.
Print Assumptions C97_only.

(** The sysroot is in the directory of the variable or else in the cache; its target is the argument after the
    first --target or else the host. *)
Theorem C97_sysroot e args dir : setup_sysroot e args = Done (Returns dir) <-> sysroot_ok e args dir.
Proof. apply setup_iff. Qed.
Print Assumptions C97_sysroot.

(** A program that is not to be dumped is run with the memory model that the arguments name: the process can end
    for an ending of the program exactly if the program can end so, and if it is the same after JSON should that
    be checked. It ends silently exactly for a regular ending and with the message of every other one. *)
Theorem C97_runs T j compile e a0 user l cf prog t : ~ for_minimize a0 -> ~ for_machine a0 ->
  plan e (a0 :: user) = Done (Returns (PTranslate l cf)) -> compile l = Done (Returns prog) -> (forall kind, dump_arg kind ∉ user) ->
  (exists rounds ob ot, minimize T j compile e (a0 :: user) rounds ob ot = Done (ends_with t)) <->
  (roundtrip_arg ∈ user -> roundtrips j prog) /\ possible T user prog t.
Proof.
  intros H1 H2 Hp Hc Hd. pose proof Hp as (_ & _ & [D R M] & _)%plan_translate; [|done].
  assert (mc_dump cf = None) as Hn.
  { destruct (mc_dump cf) as [k|] eqn:E; [|done]. destruct (Hd k). by apply D. }
  unfold minimize. rewrite Hp. cbn. rewrite Hc. cbn. rewrite (run_iff T j cf prog t Hn), R, (run_prog_iff T _ _ prog t M). done.
Qed.
Print Assumptions C97_runs.

(** A dump is of the program in the format asked for, the process never runs the program then, and other formats are refused. *)
Theorem C97_dumps T j compile e a0 user l cf prog kind r : ~ for_minimize a0 -> ~ for_machine a0 ->
  plan e (a0 :: user) = Done (Returns (PTranslate l cf)) -> compile l = Done (Returns prog) -> dump_arg kind ∈ user ->
  (exists rounds ob ot, minimize T j compile e (a0 :: user) rounds ob ot = Done r) <->
  (kind = "pretty"%string /\ exists fuel s, fmt_program T fuel prog = Ret s /\ r = Returns (DidDump (s ++ newline))) \/
  (kind = "json"%string /\ exists s, js_to j prog = Some s /\ r = Returns (DidDump s)) \/
  (kind <> "pretty"%string /\ kind <> "json"%string /\ r = Fatal ("Unknown dump format " ++ kind)).
Proof.
  intros H1 H2 Hp Hc Hd. pose proof Hp as (_ & _ & [D R M] & _)%plan_translate; [|done]. apply D in Hd as Hk.
  unfold minimize. rewrite Hp. cbn. rewrite Hc. cbn. unfold with_program. rewrite Hk.
  destruct (String.eqb_spec kind "pretty") as [->|N1]; [|destruct (String.eqb_spec kind "json") as [->|N2]].
  - split.
    + intros (rounds & _ & _ & E). left. split; [done|]. exists rounds. destruct (fmt_program T rounds prog) as [s| | |]; try done. injection E as <-. eauto.
    + intros [(_ & fuel & s & E & ->)|[(? & _)|(? & _)]]; [|done|done]. exists fuel, (mkOracle [] (fun _ => [])), (mkOracle [] (fun _ => [])). by rewrite E.
  - split.
    + intros (_ & _ & _ & E). right. left. split; [done|]. unfold json_dump, then_ in E. destruct (js_to j prog) as [s|]; [|done]. injection E as <-. eauto.
    + intros [(? & _)|[(_ & s & E & ->)|(_ & ? & _)]]; [done| |done]. exists 0%nat, (mkOracle [] (fun _ => [])), (mkOracle [] (fun _ => [])).
      unfold json_dump. by rewrite E.
  - split.
    + intros (_ & _ & _ & E). right. right. injection E as <-. done.
    + intros [(? & _)|[(? & _)|(_ & _ & ->)]]; [done|done|]. by exists 0%nat, (mkOracle [] (fun _ => [])), (mkOracle [] (fun _ => [])).
Qed.
Print Assumptions C97_dumps.

(** A target that is given in the form --target=..., which the compiler understands, is ignored: the sysroot is
    one for the host. *)
Theorem C97_target_ignored e l1 t l2 dir : "--target"%string ∉ l1 -> "--target"%string ∉ l2 ->
  setup_sysroot e (l1 ++ ("--target=" ++ t)%string :: l2) = Done (Returns dir) -> exists host, se_host e = Some host /\ se_build e dir host = true.
Proof.
  intros H1 H2 [_ _ _ (target & Hb & [(k1 & k2 & E & _)|(_ & Hh)])]%setup_iff; [|by exists target]. exfalso.
  assert ("--target"%string ∈ l1 ++ ("--target=" ++ t)%string :: l2) as Hin by (rewrite E; apply elem_of_app; right; left).
  apply elem_of_app in Hin as [Hin|Hin]; [done|]. apply elem_of_cons in Hin as [Hin|Hin]; [discriminate Hin|done].
Qed.
Print Assumptions C97_target_ignored.

(** A run, a dump and a refused argument *)
Definition mm_sys : SysEnv := mkSysEnv None (Some "cache"%string) (Some ("src/library", true, Some "library")%string) (Some "x86_64-unknown-linux-gnu"%string) true (fun _ _ => true).
Definition mm_env : Env := mkEnv None false mm_sys.
Definition mm_json : Json := mkJson (fun _ => Some "{}"%string) (fun _ => Some ex_prog) (fun _ _ => true).
Definition mm_compile (l : list string) : Call (Command Program) := if existsb (String.eqb "a.rs") l then Done (Returns ex_prog) else Crashed.
Example C97_hyps :
  ~ for_minimize "minimize" /\ ~ for_machine "minimize" /\
  plan mm_env ["minimize"; "a.rs"; "--minimize-check-json-roundtrip"; "-O"]%string =
    Done (Returns (PTranslate ("minimize" :: "--sysroot=cache" :: default_args ++ ["a.rs"; "-O"])%string (mkMinimize None true (mkConfig false)))) /\
  mm_compile ("minimize" :: "--sysroot=cache" :: default_args ++ ["a.rs"; "-O"])%string = Done (Returns ex_prog) /\
  (exists rounds ob ot, minimize x86_64 mm_json mm_compile mm_env ["minimize"; "a.rs"; "--minimize-check-json-roundtrip"; "-O"]%string rounds ob ot = Done (Returns DidRun)) /\
  minimize x86_64 mm_json mm_compile mm_env ["minimize"; "a.rs"; "--minimize-dump=json"]%string 0 (mkOracle [] (fun _ => [])) (mkOracle [] (fun _ => [])) = Done (Returns (DidDump "{}")) /\
  setup_sysroot mm_sys ["minimize"; "--target=i686-unknown-linux-gnu"]%string = Done (Returns "cache"%string) /\
  (exists msg, parse_args ["--minimize-dump=json"; "--minimize-dump=pretty"]%string = Fatal msg) /\
  plan (mkEnv None true mm_sys) ["rustc"; "--crate-name"; "panic_abort"; "-vV"]%string =
    Done (Returns (PRustc ("rustc" :: "-Cpanic=abort" :: default_args ++ ["--crate-name"; "panic_abort"; "-vV"])%string)).
Proof.
  split; [intros (r & E); discriminate E|]. split; [intros (r & E); discriminate E|]. split; [reflexivity|]. split; [reflexivity|].
  split; [|split; [reflexivity|split; [reflexivity|split; [by eexists|reflexivity]]]].
  exists 20%nat, cli_oracle, (mkOracle [] (fun _ => [])). vm_compute. reflexivity.
Qed.
