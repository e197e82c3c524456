(** Properties of the translation of Rust programs (tooling/minimize): translated functions do what MIR does. *)
From Verif Require Import MirBodyProofs ExMini PropsMini.

Lemma ex_discr_ok : discr_ok ex_rustc.
Proof. done. Qed.

(** ** C81: translated functions do what their MIR does *)

(** Every function of a translated program, except for the start function, does what the body of the function with its name does.
    [function_is] (MirCode.v) says what this is: its places, operands and rvalues mean, in every state of every machine that runs it, what
    those of MIR mean (MirMeans.v), statements are done in their order, and control goes where MIR says. *)
Theorem C81_functions R fuel entry P :
  mir_ok x86_64 R -> mir_covered x86_64 R -> enough R fuel -> discr_ok R -> translated fuel R x86_64 entry P ->
  exists fn glob vtab, names x86_64 fuel R entry P fn glob vtab /\
    forall n F, map_get (pr_functions P) n = Some F -> n <> pr_start P ->
      exists i b, fn i = Some n /\ rc_body R i = Some b /\ function_is x86_64 R b F (mkNaming fn glob vtab N.of_nat N.of_nat).
Proof. intros. by eapply translated_code. Qed.
Print Assumptions C81_functions.

Example C81_hyps : mir_ok x86_64 ex_rustc /\ mir_covered x86_64 ex_rustc /\ enough ex_rustc 2 /\ discr_ok ex_rustc /\
  translated 2 ex_rustc x86_64 0 ex_program /\ length (pr_functions ex_program) = 7%nat /\
  exists F, map_get (pr_functions ex_program) 0%N = Some F /\ 0%N <> pr_start ex_program /\ length (fn_blocks F) = 17%nat.
Proof.
  split_and!; [apply ex_mir_ok|apply ex_mir_covered|apply ex_enough|apply ex_discr_ok|eapply mini_translated, ex_program_eq|vm_compute; reflexivity|].
  eexists. split; [vm_compute; reflexivity|]. split; [by vm_compute|vm_compute; reflexivity].
Qed.
