(** Well-formed values (C59). *)
From Verif Require Import ValueProofs Machine BasicMem ExRepr.

(** C59. [check_value] accepts a value at a type exactly if it is well-formed ([valid_value] of ValueSpec.v). *)
Theorem C59_check_value {P} `{EqDecision P} T env ty (v : Value P) :
  target_ok T -> check_value T env ty v = Ret tt <-> valid_value T env ty v.
Proof. intros Tok. exact (check_value_iff T Tok env ty v). Qed.
Print Assumptions C59_check_value.

(** Loads and transmutes only return well-formed values, stores are only done with well-formed values. *)
Theorem C59_typed_load {P F M} `{EqDecision P} T MO (m m' : Machine P F M) ptr ty align at_ v :
  target_ok T -> typed_load T MO m ptr ty align at_ = Ret (v, m') -> valid_value T (chk_env MO m') ty v.
Proof.
  intros Tok Hl. unfold typed_load in Hl. apply obind_ret in Hl as (s & _ & Hl). apply obind_ret in Hl as ([b mem] & _ & Hl).
  cbn zeta in Hl. apply obind_ret in Hl as ([w|] & _ & Hl); [|done]. apply obind_ret in Hl as ([] & Hc & [= -> <-]).
  by apply check_value_iff.
Qed.
Print Assumptions C59_typed_load.

Theorem C59_typed_store {P F M} `{EqDecision P} T MO (m m' : Machine P F M) ptr ty align at_ v :
  target_ok T -> typed_store T MO m ptr v ty align at_ = Ret m' -> valid_value T (chk_env MO m) ty v.
Proof.
  intros Tok Hl. unfold typed_store in Hl. apply obind_ret in Hl as (ok & Hok & Hl). apply obind_ret in Hl as (x & Ha & _).
  apply assert_ret in Ha. apply check_value_iff; [done|]. destruct (check_value T (chk_env MO m) ty v) as [[]| | |]; cbn in Hok; congruence.
Qed.
Print Assumptions C59_typed_store.

Theorem C59_transmute {P} `{EqDecision P} T env (v w : Value P) ty ty' :
  target_ok T -> transmute T env v ty ty' = Ret w -> valid_value T env ty' w.
Proof.
  intros Tok Hl. unfold transmute in Hl. do 4 (apply obind_ret in Hl as (? & ? & Hl)).
  apply obind_ret in Hl as ([raw|] & _ & Hl); [|done]. apply obind_ret in Hl as ([] & Hc & [= ->]). by apply check_value_iff.
Qed.
Print Assumptions C59_transmute.

(** a value with an integer, a reference and an enum is well-formed; a null reference, an unaligned reference and an
    integer out of range are not *)
Example C59_hyps : target_ok x86_64 /\ valid_value x86_64 env0 ex_ty ex_val /\
  ~ valid_value x86_64 env0 (TPtr (PRef Mutable pi4)) (VPtr (mkPtr (mkThin 0 None) None)) /\
  ~ valid_value x86_64 env0 (TPtr (PRef Mutable pi4)) (VPtr (mkPtr (mkThin 6 None) None)) /\
  valid_value x86_64 env0 (TPtr (PRef Mutable pi4)) (VPtr (mkPtr (mkThin 8 None) None)) /\
  ~ valid_value x86_64 env0 (TInt u8_t) (VInt 256).
Proof.
  split; [exact x86_64_ok|]. rewrite <- !(check_value_iff x86_64 x86_64_ok). split; [exact ex_val_ok|].
  split; [by vm_compute|]. split; [by vm_compute|]. split; by vm_compute.
Qed.
