(** Properties of the translation of Rust programs (tooling/minimize). *)
From Verif Require Import MiniNames ExMiniBad.

(** the example program *)
Lemma ex_mir_ok : mir_ok x86_64 ex_rustc.
Proof. split; [apply ex_rustc_ok|apply ex_bodies_ok]. Qed.
Lemma ex_mir_covered : mir_covered x86_64 ex_rustc.
Proof. split; [apply ex_covered|apply ex_covered_vtables]. Qed.

(** ** C79: well-typed MIR becomes well-formed MiniRust *)

(** Whatever has been translated so far, and in whichever order the blocks are taken: translating a body either says that
    something is not supported or gives a function. It never panics, never runs out of steps and never overwrites a block. *)
Theorem C79_no_panic_partial R fuel entry c fns i b order :
  mir_ok x86_64 R -> mir_covered x86_64 R -> enough R fuel ->
  rtc (mono fuel R x86_64) (cx_init entry, []) (c, fns) ->
  rc_body R i = Some b -> order ≡ₚ seq 0 (length (ro_blocks b)) ->
  (exists msg, translate_body fuel R x86_64 c order b = Stop (TIllFormed msg)) \/
  (exists F c', translate_body fuel R x86_64 c order b = Ret (F, c')).
Proof.
  intros [HR HB] [HC Hvts] Hfuel Hrun Hb Ho.
  pose proof (run_pinv R HR fuel Hfuel (fun i b H => conj (HB i b H) (HC i b H)) _ _ Hrun) as [Hc _ _].
  pose proof (body_fine R HR fuel Hfuel b (HB _ _ Hb) (HC _ _ Hb) c order Hc Ho) as H.
  destruct (translate_body _ _ _ _ _ _) as [[F c']|[]| |]; try done; [right|left]; by eauto.
Qed.
Print Assumptions C79_no_panic_partial.

(** the finished program passes the check *)
Theorem C79_well_formed_partial R fuel entry P :
  mir_ok x86_64 R -> mir_covered x86_64 R -> enough R fuel ->
  translated fuel R x86_64 entry P -> program_check_wf x86_64 P = Ret tt.
Proof.
  intros [HR HB] [HC Hvts] Hfuel. exact (translated_wf R HR fuel Hfuel (fun i b H => conj (HB i b H) (HC i b H)) Hvts entry P).
Qed.
Print Assumptions C79_well_formed_partial.

Example C79_hyps : mir_ok x86_64 ex_rustc /\ mir_covered x86_64 ex_rustc /\ enough ex_rustc 2 /\ translated 2 ex_rustc x86_64 0 ex_program /\
  length (pr_functions ex_program) = 7%nat /\ length (pr_globals ex_program) = 2%nat /\ length (pr_vtables ex_program) = 1%nat.
Proof.
  split_and!; [apply ex_mir_ok|apply ex_mir_covered|apply ex_enough|eapply mini_translated, ex_program_eq|vm_compute; reflexivity..].
Qed.

(** Without [mir_covered] both are false. The entry function is well-typed, but:
    - it has an assertion in a cleanup block; *)
Theorem C79_assert_in_cleanup_refuted : exists R P, mir_ok x86_64 R /\ enough R 2 /\ translated 2 R x86_64 0 P /\
  program_check_wf x86_64 P = Stop (TIllFormed "Terminator::StartUnwind has to be called in a regular block").
Proof.
  exists (bad_rustc bad_assert). eexists. split_and!; [apply bad_assert_ok|apply bad_enough|apply bad_translated; vm_compute; reflexivity|vm_compute; reflexivity].
Qed.
Print Assumptions C79_assert_in_cleanup_refuted.
(** - it calls catch_unwind in a cleanup block; *)
Theorem C79_catch_in_cleanup_refuted : exists R P, mir_ok x86_64 R /\ enough R 2 /\ translated 2 R x86_64 0 P /\
  program_check_wf x86_64 P = Stop (TIllFormed "Terminator: next block has the wrong block kind").
Proof.
  exists (bad_rustc bad_catch). eexists. split_and!; [apply bad_catch_ok|apply bad_enough|apply bad_translated; vm_compute; reflexivity|vm_compute; reflexivity].
Qed.
Print Assumptions C79_catch_in_cleanup_refuted.
(** - it drops a slice; *)
Theorem C79_drop_slice_refuted : exists R P, mir_ok x86_64 R /\ enough R 2 /\ translated 2 R x86_64 0 P /\
  program_check_wf x86_64 P = Stop (TIllFormed "ValueExpr::AddrOf: mismatched metadata kind").
Proof.
  exists (bad_rustc (bad_drop rt_slice_ptr)). eexists.
  split_and!; [apply bad_drop_slice_ok|apply bad_enough|apply bad_translated; vm_compute; reflexivity|vm_compute; reflexivity].
Qed.
Print Assumptions C79_drop_slice_refuted.
(** - it drops a trait object that has only auto traits; *)
Theorem C79_drop_auto_trait_refuted : exists R P, mir_ok x86_64 R /\ enough R 2 /\ translated 2 R x86_64 0 P /\
  program_check_wf x86_64 P = Stop (TIllFormed "UnOp::VTableMethodLookup: invalid operand: method doesn't exist in trait").
Proof.
  exists (bad_rustc (bad_drop rt_send_ptr)). eexists.
  split_and!; [apply bad_drop_send_ok|apply bad_enough|apply bad_translated; vm_compute; reflexivity|vm_compute; reflexivity].
Qed.
Print Assumptions C79_drop_auto_trait_refuted.
(** - it makes a trait object of a trait with a supertrait; *)
Theorem C79_supertrait_vtable_refuted : exists R P, mir_ok x86_64 R /\ enough R 2 /\ translated 2 R x86_64 0 P /\
  program_check_wf x86_64 P = Stop (TIllFormed "Program: vtable has not the right set of methods").
Proof.
  exists (bad_rustc bad_unsize). eexists. split_and!; [apply bad_unsize_ok|apply bad_enough|apply bad_translated; vm_compute; reflexivity|vm_compute; reflexivity].
Qed.
Print Assumptions C79_supertrait_vtable_refuted.
(** - it calls a method of a supertrait; *)
Theorem C79_supertrait_method_refuted : exists R P, mir_ok x86_64 R /\ enough R 2 /\ translated 2 R x86_64 0 P /\
  program_check_wf x86_64 P = Stop (TIllFormed "UnOp::VTableMethodLookup: invalid operand: method doesn't exist in trait").
Proof.
  exists (bad_rustc bad_virtual). eexists. split_and!; [apply bad_virtual_ok|apply bad_enough|apply bad_translated; vm_compute; reflexivity|vm_compute; reflexivity].
Qed.
Print Assumptions C79_supertrait_method_refuted.
(** - it calls a closure with a constant as its tuple of arguments, at which the translation panics. *)
Theorem C79_constant_spread_refuted : exists R b, mir_ok x86_64 R /\ enough R 2 /\ rc_body R 0 = Some b /\
  translate_body 2 R x86_64 (cx_init 0) (seq 0 (length (ro_blocks b))) b = Panic.
Proof.
  exists (bad_rustc bad_spread), bad_spread. split_and!; [apply bad_spread_ok|apply bad_enough|reflexivity|vm_compute; reflexivity].
Qed.
Print Assumptions C79_constant_spread_refuted.

(** ** C80: everything in the program has a name of its own and is what it should be *)

Theorem C80_names R fuel entry P :
  mir_ok x86_64 R -> mir_covered x86_64 R -> enough R fuel -> translated fuel R x86_64 entry P ->
  exists fn glob vtab, names x86_64 fuel R entry P fn glob vtab.
Proof. intros Hmir Hcov Hfuel. exact (translated_names R fuel Hmir Hcov Hfuel entry P). Qed.
Print Assumptions C80_names.

Example C80_hyps : mir_ok x86_64 ex_rustc /\ mir_covered x86_64 ex_rustc /\ enough ex_rustc 2 /\ translated 2 ex_rustc x86_64 0 ex_program /\
  exists n g r, map_get (pr_globals ex_program) n = Some g /\ r ∈ g_relocations g.
Proof.
  split_and!; [apply ex_mir_ok|apply ex_mir_covered|apply ex_enough|eapply mini_translated, ex_program_eq|].
  exists 0%N. do 2 eexists. split; [vm_compute; reflexivity|]. cbn. left.
Qed.
