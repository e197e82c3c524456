(** The check of well-formedness (well-formed.md:12-935) gives an answer (C89). *)
From Verif Require Import CheckSpec CheckProofs IllProofs ExMach ExSched ExRepr ExData.
Local Open Scope Z_scope.

(** ** The full statement

    Of every program the check says that it is well-formed, or that it is ill-formed. It does not: there are programs
    for which it crashes. The crashes come from asking for the layout of a type that has not been checked (of the
    elements of arrays and slices, of locals, of values that are transmuted or passed, of the result of an operation
    with overflow), from a field of a union with a negative number, and from a trait that does not exist. *)

Definition odd_int : IntType := mkIntTy Unsigned 3.
Definition one_fn (locals : list (LocalName * Ty)) (st : list Statement) (tm : Terminator) : Program :=
  mkProgram [(0%N, mkFunction ((0%N, unit_ty) :: locals) [] 0%N CcC [(0%N, blk st tm)] 0%N)] 0%N [] [] [].
Definition u8_e : ValueExpr := EConstant (KInt 1) (TInt u8_t).
Definition odd_e : ValueExpr := EUnOp (UCast (CIntToInt odd_int)) u8_e.

(** a local without a layout *)
Theorem C89_local_refuted : exists prog, program_check_wf x86_64 prog = Panic.
Proof. exists (one_fn [(1%N, TInt odd_int)] [] TmReturn). vm_compute. reflexivity. Qed.
Print Assumptions C89_local_refuted.

(** elements without a layout, in a type that has one *)
Theorem C89_elements_refuted : exists prog ty, program_check_wf x86_64 prog = Panic /\
  In (1%N, ty) (fn_locals (match pr_functions prog with (_, f) :: _ => f | [] => ex_inc end)) /\ layout x86_64 ty = Ret (LSized 8 align_one).
Proof.
  exists (one_fn [(1%N, TUnion [(0%N, TArray (TInt odd_int) 1)] [] 8 align_one)] [] TmReturn), (TUnion [(0%N, TArray (TInt odd_int) 1)] [] 8 align_one).
  split; [vm_compute; reflexivity|]. split; [|vm_compute; reflexivity]. right. by left.
Qed.
Print Assumptions C89_elements_refuted.

(** field number -1 of a union; all types are well-formed *)
Theorem C89_union_field_refuted : exists ty e,
  ty_check_wf x86_64 any_trait ty = Ret tt /\ program_check_wf x86_64 (one_fn [(1%N, ty)] [SAssign (PLocal 1) (EUnion (-1) e ty)] TmReturn) = Panic.
Proof.
  exists (TUnion [(0%N, TInt u8_t)] [(0%N, 1%N)] 1 align_one), u8_e. split; vm_compute; reflexivity.
Qed.
Print Assumptions C89_union_field_refuted.

(** a transmute to a type without a layout *)
Theorem C89_transmute_refuted : exists ty,
  program_check_wf x86_64 (one_fn [(1%N, TInt u8_t)] [SAssign (PLocal 1) (EUnOp (UCast (CTransmute ty)) u8_e)] TmReturn) = Panic.
Proof. exists (TSlice (TSlice (TInt u8_t))). vm_compute. reflexivity. Qed.
Print Assumptions C89_transmute_refuted.

(** the target of a cast is not checked, so arithmetic with overflow asks for the alignment of a 3-byte integer *)
Theorem C89_overflow_refuted : exists e,
  program_check_wf x86_64 (one_fn [(1%N, TInt u8_t)] [SAssign (PLocal 1) (EBinOp (BIntWithOverflow OvAdd) e e)] TmReturn) = Panic.
Proof. exists odd_e. vm_compute. reflexivity. Qed.
Print Assumptions C89_overflow_refuted.

(** looking up a method of a trait that does not exist *)
Theorem C89_lookup_refuted : exists e,
  program_check_wf x86_64 (one_fn [(1%N, TPtr PFnPtr)] [SAssign (PLocal 1) (EUnOp (UVTableMethodLookup 0) e)] TmReturn) = Panic.
Proof.
  exists (EUnOp (UCast (CTransmute (TPtr (PVTablePtr 7)))) (EConstant (KPointerWithoutProvenance 0) (TPtr (PRaw MKNone)))). vm_compute. reflexivity.
Qed.
Print Assumptions C89_lookup_refuted.

(** an argument whose type has no layout *)
Theorem C89_argument_refuted : exists e,
  program_check_wf x86_64 (one_fn [] [] (TmIntrinsic InPrintStdout [e] (PLocal 0) None)) = Panic.
Proof. exists odd_e. vm_compute. reflexivity. Qed.
Print Assumptions C89_argument_refuted.

(** ** What holds *)

(** Which types have no layout: integers whose size is not a power of two, and arrays and slices of a type that has no
    layout or no known size, arrays with a negative number of elements (that are not empty), and tuples that end in
    such a type. No other type does, and there is nothing else than a layout or none. *)
Theorem C89_layout T ty : (no_layout T ty <-> layout T ty = Panic) /\ (~ no_layout T ty -> exists l, layout T ty = Ret l).
Proof.
  split; [by rewrite <- (layout_panic T any_trait ty)|]. intros Hn. destruct (layout_cases T ty) as [?|Hp]; [done|]. by apply (layout_panic T any_trait) in Hp.
Qed.
Print Assumptions C89_layout.

(** The check of a type gives an answer, unless somewhere in it are elements without a layout; such a type is never
    accepted. (So the check asks for more than it can handle, but lets nothing slip through.) *)
Theorem C89_types_partial T ht ty :
  (~ bad_elements T ty -> ty_check_wf T ht ty = Ret tt \/ exists msg, ty_check_wf T ht ty = Stop (TIllFormed msg)) /\
  (ty_check_wf T ht ty = Panic -> bad_elements T ty) /\
  (bad_elements T ty -> ty_check_wf T ht ty <> Ret tt).
Proof.
  rewrite assoc; [|apply _]. split; [|intros Hb Hw; by apply (wf_good T ht ty)].
  pose proof (ca_ty T ht ty) as H. pose proof (il_ty T ht ty) as Hi. destruct (ty_check_wf T ht ty) as [[]|t| |].
  - split; [by left|done].
  - destruct Hi as [msg ->]. split; [right; by exists msg|done].
  - split; [intros Hb; by destruct (Hb (H eq_refl))|]. intros _. by apply H.
  - done.
Qed.
Print Assumptions C89_types_partial.

(** The check of a program gives an answer, unless the program contains one of the constructs of
    [program_no_answer]. *)
Theorem C89_decides_partial T prog :
  ~ program_no_answer T prog ->
  program_check_wf T prog = Ret tt \/ exists msg, program_check_wf T prog = Stop (TIllFormed msg).
Proof.
  intros Hn. pose proof (ca_program T prog) as H. pose proof (il_program T prog) as Hi. destruct (program_check_wf T prog) as [[]|t| |].
  - by left.
  - destruct Hi as [msg ->]. right. by exists msg.
  - by destruct (Hn (H eq_refl)).
  - done.
Qed.
Print Assumptions C89_decides_partial.

(** A program that contains such a construct, wherever it is, is not accepted: a crash of the check never hides behind
    an earlier answer "well-formed", and no accepted program has a local, an argument or elements without a layout. *)
Theorem C89_never_accepted T prog :
  program_no_answer T prog ->
  program_check_wf T prog = Panic \/ exists msg, program_check_wf T prog = Stop (TIllFormed msg).
Proof.
  intros Hn. pose proof (program_unchecked T prog Hn) as H. pose proof (il_program T prog) as Hi. destruct (program_check_wf T prog) as [[]|t| |].
  - done.
  - destruct Hi as [msg ->]. right. by exists msg.
  - by left.
  - done.
Qed.
Print Assumptions C89_never_accepted.

(** ** Cases *)

(** a program with structs, enums, loops and calls has none of the constructs *)
Example C89_hyps :
  ~ program_no_answer x86_64 da_prog /\ ~ program_no_answer x86_64 ex_prog /\
  program_no_answer x86_64 (one_fn [] [] (TmIntrinsic InPrintStdout [odd_e] (PLocal 0) None)) /\
  bad_elements x86_64 (TUnion [(0%N, TArray (TInt odd_int) 1)] [] 8 align_one).
Proof.
  assert (Ho : no_layout x86_64 (TInt odd_int)).
  { apply nl_int. intros k. cbn. destruct k as [|p]; [done|]. intros H. assert (N.odd (2 ^ N.pos p) = false); [|by rewrite <- H in *].
    rewrite N.odd_pow by done. done. }
  split; [intros H; apply (program_unchecked x86_64 da_prog H); apply da_prog_wf|].
  split; [intros H; apply (program_unchecked x86_64 ex_prog H); apply ex_prog_wf|]. split.
  - assert (Ht : has_type x86_64 (one_fn [] [] (TmIntrinsic InPrintStdout [odd_e] (PLocal 0) None)) [(0%N, unit_ty)] odd_e (TInt odd_int)) by (vm_compute; reflexivity).
    eexists 0%N, _. split; [left; reflexivity|]. refine (fa_argument _ _ _ 0%N _ odd_e (TInt odd_int) _ _ Ht Ho); [left; reflexivity|constructor; by left].
  - exists (TInt odd_int). split; [done|]. left. exists 1. eapply wi_part; [by eapply CheckSpec.co_union; left|constructor].
Qed.
(** ill-formed, and not a crash *)
Example C89_ill : exists msg, program_check_wf x86_64 (one_fn [(1%N, TInt u8_t)] [] (TmGoto 7)) = Stop (TIllFormed msg) /\
  ~ program_no_answer x86_64 (one_fn [(1%N, TInt u8_t)] [] (TmGoto 7)).
Proof.
  eexists. split; [vm_compute; reflexivity|]. intros (n & f & [[= <- <-]|[]] & Hf).
  destruct Hf as [l ty Hl Hn|b blk s e0 e Hb Hs He Ho Hn|b blk e0 e Hb He Ho Hn|b blk e ty Hb Ha Ht Hn].
  - destruct Hl as [[= <- <-]|[[= <- <-]|[]]].
    + destruct Hn as [Hn|(e & He & [(n & Hn)|Hn])]; [inversion Hn|..]; inversion Hn as [|? t1 ? Hc]; subst; inversion Hc; done.
    + destruct Hn as [Hn|(e & He & [(n & Hn)|Hn])]; [inversion Hn as [it Hi| | | | | |]; by destruct (Hi 0%N)|..]; inversion Hn as [|? t1 ? Hc]; subst; inversion Hc.
  - destruct Hb as [[= <- <-]|[]]. destruct Hs.
  - destruct Hb as [[= <- <-]|[]]. inversion He.
  - destruct Hb as [[= <- <-]|[]]. inversion Ha.
Qed.
