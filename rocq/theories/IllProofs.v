(** How checks of well-formedness stop: with an error that says that the program is ill-formed. *)
From Verif Require Export StopProofs.

(** [o] makes no choices and stops, if at all, because something is ill-formed *)
Definition only_ill {A} (o : Outcome A) : Prop :=
  match o with Stop t => exists msg, t = TIllFormed msg | NoBehavior => False | _ => True end.
#[global] Arguments only_ill : simpl never.

Section Comb.
  Context {A B X : Type}.
  Lemma il_ret (a : A) : only_ill (Ret a).
  Proof. done. Qed.
  Lemma il_panic : only_ill (@Panic A).
  Proof. done. Qed.
  Lemma il_throw s : only_ill (@throw_ill_formed A s).
  Proof. by exists s. Qed.
  Lemma il_bind (o : Outcome A) (f : A -> Outcome B) : only_ill o -> (forall a, only_ill (f a)) -> only_ill (obind o f).
  Proof. intros Ho Hf. destruct o; cbn [obind]; [apply Hf|done|done|done]. Qed.
  Lemma il_assert b : only_ill (assert_ b).
  Proof. by destruct b. Qed.
  Lemma il_unwrap (o : option A) : only_ill (unwrap o).
  Proof. by destruct o. Qed.
  Lemma il_ensure b msg : only_ill (ensure_wf b msg).
  Proof. destruct b; [done|]. by exists msg. Qed.
End Comb.
Create HintDb il discriminated.
#[global] Hint Resolve il_ret il_panic il_throw il_assert il_unwrap il_ensure : il.
Ltac il_go :=
  lazymatch goal with
  | |- only_ill (obind _ _) => apply il_bind; [il_go|intros ?; il_go]
  | |- only_ill (match ?x with _ => _ end) => destruct x; il_go
  | |- only_ill ((fun _ => _) _) => cbv beta; il_go
  | |- forall _, _ => intros ?; il_go
  | |- _ => auto 3 with il
  end.

Section Lists.
  Context {A B X : Type}.
  Lemma il_for_each (f : A -> Outcome unit) l : Forall (fun a => only_ill (f a)) l -> only_ill (for_each f l).
  Proof. induction 1; cbn; il_go. Qed.
  Lemma il_for_all (f : A -> Outcome unit) l : (forall a, only_ill (f a)) -> only_ill (for_each f l).
  Proof. intros H. apply il_for_each. by apply Forall_true. Qed.
  Lemma il_for_each_idx (f : nat -> A -> Outcome unit) l i : Forall (fun a => forall i, only_ill (f i a)) l -> only_ill (for_each_idx f i l).
  Proof. intros H. revert i. induction H; intros i; cbn; il_go. Qed.
  Lemma il_for_each2 (f : A -> B -> Outcome unit) l1 l2 : Forall (fun a => forall b, only_ill (f a b)) l1 -> only_ill (for_each2 f l1 l2).
  Proof. intros H. revert l2. induction H; intros l2; cbn; il_go. Qed.
  Lemma il_fold_m (f : X -> A -> Outcome X) l s : Forall (fun a => forall s, only_ill (f s a)) l -> only_ill (fold_m f l s).
  Proof. intros H. revert s. induction H; intros s; cbn; il_go. Qed.
  Lemma il_fold_all (f : X -> A -> Outcome X) l s : (forall s a, only_ill (f s a)) -> only_ill (fold_m f l s).
  Proof. intros H. apply il_fold_m. apply Forall_true. auto. Qed.
End Lists.

Section Checks.
  Variable T : Target.
  Variable ht : TraitName -> bool.
  Lemma il_layout ty : only_ill (layout T ty).
  Proof. induction ty using Ty_ind'; cbn; unfold int_align, expect_size, expect_align, size_mul; il_go. Qed.
  Lemma il_expect_size l : only_ill (expect_size l).
  Proof. unfold expect_size. il_go. Qed.
  Hint Resolve il_layout il_expect_size : il.
  Lemma il_cells c s : only_ill (check_cells c s).
  Proof. unfold check_cells. apply il_bind; [|il_go]. apply il_fold_all. il_go. Qed.
  Hint Resolve il_cells : il.
  Lemma il_head h : only_ill (head_check_wf T h).
  Proof. unfold head_check_wf. il_go. Qed.
  Hint Resolve il_head : il.
  Lemma il_lay l : only_ill (layout_check_wf T ht l).
  Proof. induction l; cbn; il_go. Qed.
  Lemma il_aligned l : only_ill (layout_check_aligned l).
  Proof. induction l; cbn; il_go. Qed.
  Lemma il_cell_strategy c : forall l, only_ill (cells_check_wf c l).
  Proof. induction c; intros []; cbn; il_go. Qed.
  Hint Resolve il_lay il_aligned il_cell_strategy : il.
  Lemma il_ptr pt : only_ill (ptrtype_check_wf T ht pt).
  Proof. destruct pt; cbn; unfold pointee_check_wf; il_go. Qed.
  Lemma il_int it : only_ill (inttype_check_wf it).
  Proof. unfold inttype_check_wf. il_go. Qed.
  Hint Resolve il_ptr il_int : il.
  Lemma il_discr s v d : only_ill (discr_check_wf s v d).
  Proof.
    induction d using Discriminator_ind'; cbn [discr_check_wf]; il_go. apply il_for_each_idx.
    eapply Forall_impl; [eassumption|]. intros x Hx i. cbn in Hx. il_go.
  Qed.
  Lemma il_tagger s tg : only_ill (tagger_check_wf s tg).
  Proof. unfold tagger_check_wf. apply il_for_all. il_go. Qed.
  Lemma il_chunks c s : only_ill (chunks_check_wf c s).
  Proof. unfold chunks_check_wf. apply il_bind; [|il_go]. apply il_fold_all. il_go. Qed.
  Lemma il_final ty : only_ill (final_check_wf T ht ty).
  Proof. unfold final_check_wf. il_go. Qed.
  Hint Resolve il_discr il_tagger il_chunks il_final : il.
  Lemma il_ty ty : only_ill (ty_check_wf T ht ty).
  Proof.
    induction ty using Ty_ind'; cbn [ty_check_wf]; try (by il_go).
    - apply il_bind; [|il_go]. apply il_bind.
      { apply il_fold_m. rewrite sort_by_key_perm. apply Forall_fmap. eapply Forall_impl; [eassumption|].
        intros [o t] Ht s. cbn in *. il_go. }
      intros e. apply il_bind; [|il_go]. match goal with |- only_ill match ?u with _ => _ end => destruct u as [u|] end; [|il_go]. cbn in *. il_go.
    - apply il_bind; [|il_go]. apply il_bind; [|il_go]. apply il_for_each. eapply Forall_impl; [eassumption|].
      intros [o t] Ht. cbn in *. il_go.
    - apply il_bind; [|il_go]. apply il_bind; [|il_go]. apply il_for_each. eapply Forall_impl; [eassumption|].
      intros [o [t tg]] Ht. cbn [fst snd] in *. il_go.
  Qed.
  Hint Resolve il_ty : il.
End Checks.
#[global] Hint Resolve il_layout il_expect_size il_cells il_head il_lay il_ptr il_int il_ty : il.

Section Programs.
  Variable T : Target.
  Variable prog : Program.
  Lemma il_reloc r : only_ill (reloc_check_wf prog r).
  Proof. unfold reloc_check_wf. il_go. Qed.
  Hint Resolve il_reloc : il.
  Lemma il_constant c ty : only_ill (constant_check_wf T prog c ty).
  Proof. unfold constant_check_wf. il_go. Qed.
  Lemma il_with_overflow it : only_ill (with_overflow T it).
  Proof. unfold with_overflow, int_align. il_go. Qed.
  Hint Resolve il_constant il_with_overflow : il.
  Lemma il_unop op ty : only_ill (unop_check_wf T prog op ty).
  Proof. unfold unop_check_wf. il_go. Qed.
  Lemma il_binop op t1 t2 : only_ill (binop_check_wf T op t1 t2).
  Proof. unfold binop_check_wf. il_go. Qed.
  Hint Resolve il_unop il_binop : il.
  Lemma il_exprs locals : (forall e, only_ill (value_check_wf T prog locals e)) /\ (forall p, only_ill (place_check_wf T prog locals p)).
  Proof.
    apply Expr_ind'; intros; cbn [value_check_wf place_check_wf]; try (by il_go).
    apply il_bind; [il_go|]. intros _. apply il_bind; [|il_go]. match goal with |- only_ill match ?t with _ => _ end => destruct t end; try (by il_go).
    - apply il_bind; [il_go|]. intros _. apply il_bind; [il_go|]. intros _. apply il_for_each2.
      eapply Forall_impl; [eassumption|]. intros x Hx y. cbn in *. il_go.
    - apply il_bind; [il_go|]. intros _. apply il_for_each.
      eapply Forall_impl; [eassumption|]. intros x Hx. cbn in *. il_go.
  Qed.
  Lemma il_value l e : only_ill (value_check_wf T prog l e).
  Proof. apply il_exprs. Qed.
  Lemma il_place l e : only_ill (place_check_wf T prog l e).
  Proof. apply il_exprs. Qed.
  Hint Resolve il_value il_place : il.
  Lemma il_statement f s : only_ill (statement_check_wf T prog f s).
  Proof. destruct s; cbn; unfold ensure_sized; il_go. Qed.
  Lemma il_next f k b : only_ill (check_next_block f k b).
  Proof. unfold check_next_block. il_go. Qed.
  Lemma il_unwind f k b : only_ill (check_unwind_block f k b).
  Proof. unfold check_unwind_block. il_go. Qed.
  Hint Resolve il_statement il_next il_unwind : il.
  Lemma il_terminator f k t : only_ill (terminator_check_wf T prog f k t).
  Proof.
    destruct t; cbn [terminator_check_wf]; unfold ensure_sized, check_opt; try (by il_go).
    - apply il_bind; [il_go|]. intros []; try (by il_go). apply il_bind; [|il_go]. apply il_for_all. il_go.
    - apply il_bind; [il_go|]. intros rt. apply il_bind; [il_go|]. intros _. apply il_bind; [apply il_for_all; il_go|]. il_go.
    - apply il_bind; [il_go|]. intros ft. apply il_bind; [il_go|]. intros _. apply il_bind; [il_go|]. intros rt. apply il_bind; [il_go|].
      intros _. apply il_bind; [apply il_for_all; unfold argument_check_wf; il_go|]. il_go.
  Qed.
  Hint Resolve il_terminator : il.
  Lemma il_function f : only_ill (function_check_wf T prog f).
  Proof.
    unfold function_check_wf, ensure_sized. apply il_bind; [apply il_for_all; il_go|]. intros _.
    apply il_bind; [apply il_fold_all; il_go|]. intros l. apply il_bind; [il_go|]. intros _. apply il_bind; [il_go|]. intros _.
    apply il_for_all. intros b. apply il_bind; [apply il_for_all; il_go|]. il_go.
  Qed.
  Lemma il_program : only_ill (program_check_wf T prog).
  Proof.
    unfold program_check_wf. apply il_bind; [apply il_for_all; intros v; unfold vtable_check_wf; il_go|]. intros _.
    apply il_bind; [apply il_for_all; intros f; apply il_function|]. intros _. destruct (map_get _ _) as [f|]; [|il_go].
    apply il_bind; [il_go|]. intros _. apply il_bind; [il_go|]. intros ty. apply il_bind; [il_go|]. intros l.
    apply il_bind; [il_go|]. intros _. apply il_bind; [il_go|]. intros _. apply il_for_all. intros g. apply il_for_all. il_go.
  Qed.
End Programs.

(** ** Starting the machine *)

Section New.
  Context {P F M : Type} `{EqDecision P}.
  Variable T : Target.
  Variable MO : MemOps P F M.
  Hypothesis Hub : ub_ops MO.
  Lemma ub_alloc_all {A} k (sa : A -> Size * Align) mem cs l : only_ub (alloc_all MO k sa mem cs l).
  Proof.
    unfold alloc_all. apply ub_fold_m. intros [[ps mem'] cs'] e. destruct (sa (snd e)) as [s a]. apply ub_bind; [apply ub_pick_addr|].
    intros [ad cs1]. apply ub_bind; [by apply ub_cm_allocate|]. intros [p m]. apply ub_ret.
  Qed.
  Lemma ub_fill ps gs mem : only_ub (fill_globals T MO ps gs mem).
  Proof.
    unfold fill_globals. apply ub_fold_m. intros m [n g]. apply ub_bind.
    { unfold global_bytes. apply ub_fold_m. intros b [i r]. ub_go. apply ub_encode_ptr. }
    ub_go.
  Qed.
  (** a program that is not run is either ill-formed or undefined behaviour *)
  Lemma new_stop prog cs t : machine_new T MO prog cs = Stop t ->
    (program_check_wf T prog = Stop t /\ exists msg, t = TIllFormed msg) \/
    (program_check_wf T prog = Ret tt /\ exists msg, t = TUb msg).
  Proof.
    unfold machine_new. destruct (program_check_wf T prog) as [[]|t'| |] eqn:E; cbn [obind]; try done.
    - intros H. right. split; [done|]. revert t H.
      match goal with |- forall t, ?o = Stop t -> _ => change (only_ub o) end.
      apply ub_bind; [apply ub_alloc_all|]. intros [[gs mem] cs1]. apply ub_bind; [apply ub_fill|]. intros mem1.
      apply ub_bind; [apply ub_alloc_all|]. intros [[fs mem2] cs2]. apply ub_bind; [apply ub_alloc_all|]. intros [[vs mem3] cs3].
      apply ub_bind; [apply ub_unwrap|]. intros f. apply ub_bind; [|ub_go]. unfold new_thread. apply ub_bind; [by apply ub_create_frame|]. ub_go.
    - intros [= <-]. left. split; [done|]. pose proof (il_program T prog) as Hi. by rewrite E in Hi.
  Qed.
End New.
