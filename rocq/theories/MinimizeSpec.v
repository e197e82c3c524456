(** What the driver of minimize should do with its arguments and its environment. *)
From Coq Require Import Ascii String.
From Verif Require Export RunSpec Minimize.

Definition begins (p a : string) : Prop := exists r, a = (p ++ r)%string.

(** ** Arguments *)
Definition for_minimize (a : string) : Prop := begins "--minimize-" a.
Definition dump_arg (kind : string) : string := "--minimize-dump=" ++ kind.
Definition is_dump (a : string) : Prop := begins "--minimize-dump=" a.
Definition roundtrip_arg : string := "--minimize-check-json-roundtrip".
(** all arguments for minimize and for the machine are known, and a dump is asked for at most once *)
Record arguments_ok (args : list string) : Prop := {
  ao_minimize a : a ∈ args -> for_minimize a -> is_dump a \/ a = roundtrip_arg;
  ao_machine a : a ∈ args -> for_machine a -> a = tree_borrows_arg;
  ao_once l1 a l2 b l3 : args = l1 ++ a :: l2 ++ b :: l3 -> is_dump a -> ~ is_dump b;
}.
(** the second list is the first one without the arguments for minimize and for the machine *)
Inductive passed : list string -> list string -> Prop :=
| passed_nil : passed [] []
| passed_skip a l r : for_minimize a \/ for_machine a -> passed l r -> passed (a :: l) r
| passed_keep a l r : ~ for_minimize a -> ~ for_machine a -> passed l r -> passed (a :: l) (a :: r).
(** the configuration that the arguments ask for *)
Record config_of (args : list string) (cf : MinimizeConfig) : Prop := {
  co_dump kind : mc_dump cf = Some kind <-> dump_arg kind ∈ args;
  co_roundtrip : mc_roundtrip cf = true <-> roundtrip_arg ∈ args;
  co_machine : cf_tree_borrows (mc_machine cf) = true <-> tree_borrows_arg ∈ args;
}.

(** ** The sysroot *)

(** what follows the first option of that name *)
Definition option_value (name : string) (args : list string) (v : string) : Prop :=
  exists l1 l2, args = l1 ++ name :: v :: l2 /\ name ∉ l1.
(** the sysroot can be built: the sources are there, the target is the one of the arguments or else the host,
    and the build succeeds *)
Record sysroot_ok (e : SysEnv) (args : list string) (dir : string) : Prop := {
  so_dir : se_var e = Some dir \/ (se_var e = None /\ se_cache e = Some dir);
  so_src : exists path, se_src e = Some (path, true, Some "library"%string);
  so_exe : se_exe e = true;
  so_build : exists target, se_build e dir target = true /\
    (option_value "--target" args target \/ ((forall t, ~ option_value "--target" args t) /\ se_host e = Some target));
}.
(** an argument with which cargo asks a compiler for its version *)
Definition probe (a : string) : Prop := a = "-vV"%string \/ begins "--print=" a.
(** the argument for the sysroot *)
Inductive sysroot_args (e : Env) (args : list string) : list string -> Prop :=
| sa_off : en_mode e = Some "off"%string -> sysroot_args e args []
| sa_probe a : en_mode e <> Some "only"%string -> a ∈ args -> probe a -> sysroot_args e args []
| sa_dir dir : en_mode e <> Some "only"%string -> en_mode e <> Some "off"%string -> (forall a, a ∈ args -> ~ probe a) ->
    sysroot_ok (en_sys e) args dir -> sysroot_args e args [("--sysroot=" ++ dir)%string].

(** ** JSON *)
(** a program that is written and read again is the same *)
Definition roundtrips (j : Json) (prog : Program) : Prop :=
  exists s p, js_to j prog = Some s /\ js_from j s = Some p /\ js_eq j prog p = true.

(** the result of the process for an ending of the program *)
Definition ends_with (t : TermInfo) : Command Did := match t with TMachineStop => Returns DidRun | _ => Fatal (message t) end.
