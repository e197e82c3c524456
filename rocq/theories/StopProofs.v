(** How computations stop: everything but the termination intrinsics and the scheduler stops only with
    undefined behaviour. *)
From Verif Require Export CtlStep TreeProofs.

(** [o] stops, if at all, with undefined behaviour *)
Definition only_ub {A} (o : Outcome A) : Prop := forall t, o = Stop t -> exists msg, t = TUb msg.

Section Comb.
  Context {A B : Type}.
  Lemma ub_ret (a : A) : only_ub (Ret a).
  Proof. by intros t H. Qed.
  Lemma ub_panic : only_ub (@Panic A).
  Proof. by intros t H. Qed.
  Lemma ub_nb : only_ub (@NoBehavior A).
  Proof. by intros t H. Qed.
  Lemma ub_throw s : only_ub (@throw_ub A s).
  Proof. intros t [= <-]. by eexists. Qed.
  Lemma ub_bind (o : Outcome A) (f : A -> Outcome B) :
    only_ub o -> (forall a, only_ub (f a)) -> only_ub (obind o f).
  Proof. intros Ho Hf t. destruct o; cbn; [apply Hf|intros [= <-]; by apply Ho|done|done]. Qed.
  Lemma ub_assert b : only_ub (assert_ b).
  Proof. by destruct b. Qed.
  Lemma ub_unwrap (o : option A) : only_ub (unwrap o).
  Proof. by destruct o. Qed.
  Lemma ub_is_ok (o : Outcome A) : only_ub (is_ok o).
  Proof. by destruct o. Qed.
  Lemma ub_expect (o : Outcome A) : only_ub (expect_ok o).
  Proof. by destruct o. Qed.
End Comb.
Create HintDb ub discriminated.
#[global] Hint Resolve ub_ret ub_panic ub_nb ub_throw ub_assert ub_unwrap ub_is_ok ub_expect : ub.

(** decomposes a computation into its parts *)
Ltac ub_go :=
  lazymatch goal with
  | |- only_ub (obind _ _) => apply ub_bind; [ub_go|intros ?; ub_go]
  | |- only_ub (match ?x with _ => _ end) => destruct x; ub_go
  | |- only_ub (let '(_, _) := ?x in _) => destruct x; ub_go
  | |- only_ub ((fun _ => _) _) => cbv beta; ub_go
  | |- forall _, _ => intros ?; ub_go
  | |- _ => auto 3 with ub
  end.

Section Lists.
  Context {A B C X : Type}.
  Lemma ub_for_each (f : A -> Outcome unit) l : (forall a, only_ub (f a)) -> only_ub (for_each f l).
  Proof. intros H. induction l; cbn; ub_go. Qed.
  Lemma ub_fold_m (f : X -> A -> Outcome X) l s : (forall s a, only_ub (f s a)) -> only_ub (fold_m f l s).
  Proof. intros H. revert s. induction l; intros s; cbn; ub_go. Qed.
  Lemma ub_fold_m2 (f : X -> A -> B -> Outcome X) l1 l2 s :
    (forall s a b, only_ub (f s a b)) -> only_ub (fold_m2 f l1 l2 s).
  Proof. intros H. revert l2 s. induction l1; intros l2 s; cbn; ub_go. Qed.
  Lemma ub_map_m (f : A -> Outcome B) l : (forall a, only_ub (f a)) -> only_ub (map_m f l).
  Proof. intros H. induction l; cbn; ub_go. Qed.
  Lemma ub_map_m' (f : A -> Outcome B) l : Forall (fun a => only_ub (f a)) l -> only_ub (map_m f l).
  Proof. intros H. induction H; cbn; ub_go. Qed.
  Lemma ub_try_map (f : A -> Outcome (option B)) l :
    (forall a, only_ub (f a)) -> only_ub (try_map f l).
  Proof. intros H. induction l; cbn; ub_go. Qed.
  Lemma ub_subslice (l : list A) o n : only_ub (subslice l o n).
  Proof. unfold subslice. ub_go. Qed.
  Lemma ub_write_subslice (l : list A) o n : only_ub (write_subslice l o n).
  Proof. unfold write_subslice. ub_go. Qed.
  Lemma ub_map_st (f : X -> A -> Outcome (B * X)) l s :
    Forall (fun a => forall s, only_ub (f s a)) l -> only_ub (map_st f l s).
  Proof. intros H. revert s. induction H; intros s; cbn; ub_go. Qed.
  Lemma ub_all_m (f : A -> Outcome bool) l : Forall (fun a => only_ub (f a)) l -> only_ub (all_m f l).
  Proof. intros H. induction H; cbn; ub_go. Qed.
  Lemma ub_all2_m (f : A -> B -> Outcome bool) l1 l2 :
    Forall (fun a => forall b, only_ub (f a b)) l1 -> only_ub (all2_m f l1 l2).
  Proof. intros H. revert l2. induction H; intros [|b l2]; cbn; ub_go. Qed.
  Lemma ub_mutate_at (l : list A) i (f : A -> Outcome (A * B)) :
    (forall a, only_ub (f a)) -> only_ub (mutate_at l i f).
  Proof. intros H. unfold mutate_at. ub_go. Qed.
End Lists.
#[global] Hint Resolve ub_subslice ub_write_subslice : ub.

(** ** Types and representation *)

Lemma ub_layout T ty : only_ub (layout T ty).
Proof.
  induction ty using Ty_ind'; cbn; unfold int_align, expect_size, expect_align, size_mul; ub_go.
Qed.
#[global] Hint Resolve ub_layout : ub.
Lemma ub_size_of T ty : only_ub (size_of T ty).
Proof. unfold size_of, expect_size. ub_go. Qed.
Lemma ub_align_of T ty : only_ub (align_of T ty).
Proof. unfold align_of, expect_align. ub_go. Qed.
Lemma ub_size_mul s i : only_ub (size_mul s i).
Proof. unfold size_mul. ub_go. Qed.
Lemma ub_with_overflow T it : only_ub (with_overflow T it).
Proof. unfold with_overflow, int_align. ub_go. Qed.
#[global] Hint Resolve ub_size_of ub_align_of ub_size_mul ub_with_overflow : ub.

Lemma ub_map_get_with {K A B} `{EqDecision K} (f : A -> Outcome B) (k : K) l r :
  Forall (fun a => only_ub (f (snd a))) l -> map_get_with f k l = Some r -> only_ub r.
Proof.
  induction 1 as [|[j x] l Hx Hl IH]; cbn; [done|]. case_decide; [by intros [= <-]|done].
Qed.

Section Repr.
  Context {P : Type} `{EqDecision P}.
  Variable T : Target.

  Lemma ub_decode_int_opt it (b : list (AByte P)) : only_ub (decode_int_opt T it b).
  Proof. unfold decode_int_opt. ub_go. Qed.
  Lemma ub_decode_int it (b : list (AByte P)) : only_ub (decode_int T it b).
  Proof. unfold decode_int. pose proof (ub_decode_int_opt it b). ub_go. Qed.
  Lemma ub_encode_int it i : only_ub (encode_int (P := P) T it i).
  Proof. unfold encode_int. ub_go. Qed.
  Lemma ub_decode_ptr (b : list (AByte P)) : only_ub (decode_ptr T b).
  Proof. unfold decode_ptr. ub_go. Qed.
  Lemma ub_encode_ptr (p : ThinPtr P) : only_ub (encode_ptr T p).
  Proof. unfold encode_ptr. ub_go. Qed.
  Lemma ub_meta_decode mk (v : Value P) : only_ub (meta_decode_value mk v).
  Proof. unfold meta_decode_value. ub_go. Qed.
  Lemma ub_meta_encode mk (v : option (PtrMeta P)) : only_ub (meta_encode_as_value mk v).
  Proof. unfold meta_encode_as_value. ub_go. Qed.
  Hint Resolve ub_decode_int_opt ub_decode_int ub_encode_int ub_decode_ptr ub_encode_ptr ub_meta_decode
    ub_meta_encode : ub.
  Lemma ub_as_wide_pair pt : only_ub (as_wide_pair T pt).
  Proof. unfold as_wide_pair. ub_go. Qed.
  Hint Resolve ub_as_wide_pair : ub.
  Lemma ub_decode_pointer pt (b : list (AByte P)) : only_ub (decode_pointer T pt b).
  Proof. unfold decode_pointer, decode_meta. ub_go. Qed.
  Lemma ub_encode_pointer pt (p : Pointer P) : only_ub (encode_pointer T pt p).
  Proof. unfold encode_pointer, encode_meta. ub_go. Qed.
  Hint Resolve ub_decode_pointer ub_encode_pointer : ub.

  Lemma ub_decode_discriminant {X} (acc : X -> N -> N -> Outcome (list (AByte P) * X)) d s :
    (forall s o n, only_ub (acc s o n)) -> only_ub (decode_discriminant T acc d s).
  Proof.
    intros Ha. revert s. induction d as [d| |o it fb ch IHf IHc] using Discriminator_ind'; intros s; cbn.
    1,2: ub_go.
    apply ub_bind; [apply Ha|]. intros [b s1]. apply ub_bind; [ub_go|]. intros [v|]; [|ub_go].
    assert (forall l, Forall (fun c => forall s, only_ub (decode_discriminant T acc (snd c) s)) l ->
      forall r, find_child (fun c => decode_discriminant T acc c s1) v l = Some r -> only_ub r) as Hl.
    { intros l Hf. induction Hf as [|[[a c] e] l Hc Hl IH]; cbn; [done|]. intros r.
      destruct (in_range v (a, c)); [intros [= <-]; apply Hc|apply IH]. }
    specialize (Hl ch IHc). destruct (find_child _ _ _) as [r|]; auto.
  Qed.
  Lemma ub_encode_discriminant {X} (acc : X -> N -> list (AByte P) -> Outcome X) tg s :
    (forall s o b, only_ub (acc s o b)) -> only_ub (encode_discriminant T acc tg s).
  Proof.
    intros Ha. unfold encode_discriminant. apply ub_fold_m. intros s1 [o [it v]]. ub_go.
  Qed.

  Lemma ub_try_map' {A B} (f : A -> Outcome (option B)) l :
    Forall (fun a => only_ub (f a)) l -> only_ub (try_map f l).
  Proof. induction 1; cbn; ub_go. Qed.

  Lemma ub_decode ty (b : list (AByte P)) : only_ub (decode T ty b).
  Proof.
    revert b. induction ty as [it| |pt|fields head u IHf IHu|elem count IHe|elem IHe|fields chunks size align IHf
      |variants dty discr size align IHv|tn] using Ty_ind'; intros b; cbn [decode]; try (by ub_go).
    - unfold decode_bool. ub_go.
    - destruct u; [ub_go|]. destruct (head_size_and_align head). destruct (_ =? _)%N; [|ub_go].
      apply ub_bind; [|ub_go]. apply ub_try_map'. eapply Forall_impl; [exact IHf|]. intros [o t] H. cbn. ub_go.
    - apply ub_bind; [ub_go|]. intros s. apply ub_bind; [ub_go|]. intros s1. destruct (_ =? _)%N; [|ub_go].
      apply ub_bind; [apply ub_map_m; ub_go|]. intros ch. apply ub_bind; [apply ub_try_map|]; ub_go.
    - destruct (_ =? _)%N; [|ub_go]. apply ub_bind; [|ub_go]. apply ub_map_m. ub_go.
    - destruct (_ =? _)%N; [|ub_go]. apply ub_bind.
      { apply ub_decode_discriminant. intros s o n. unfold bytes_accessor. ub_go. }
      intros [[d|] _]; [|ub_go].
      destruct (map_get_with _ _ _) as [r|] eqn:E; [|ub_go]. apply ub_bind; [|ub_go].
      eapply ub_map_get_with; [|exact E]. eapply Forall_impl; [exact IHv|]. intros [k v] Hv. apply Hv.
  Qed.
  Lemma ub_encode ty (v : Value P) : only_ub (encode T ty v).
  Proof.
    revert v. induction ty as [it| |pt|fields head u IHf IHu|elem count IHe|elem IHe|fields chunks size align IHf
      |variants dty discr size align IHv|tn] using Ty_ind'; intros v; cbn [encode]; try (by ub_go).
    - unfold encode_bool. ub_go.
    - destruct u; [ub_go|]. destruct (head_size_and_align head) as [sz al]. destruct v as [| | |vals| |]; try (by ub_go).
      apply ub_bind; [ub_go|]. intros _. generalize (list_repeat (@Uninit P) sz). revert vals.
      induction IHf as [|[o t] fs Hf Hfs IH]; intros [|v vs] bs; cbn; try (by ub_go).
    - destruct v as [| | |vals| |]; try (by ub_go). apply ub_bind; [ub_go|]. intros _.
      apply ub_bind; [apply ub_map_m|]; ub_go.
    - destruct v as [| | | | |data]; try (by ub_go). apply ub_bind; [ub_go|]. intros _.
      apply ub_fold_m2. ub_go.
    - destruct v as [| | | |d v|]; try (by ub_go).
      destruct (map_get_with _ _ _) as [r|] eqn:E; [|ub_go].
      eapply ub_map_get_with; [|exact E]. eapply Forall_impl; [exact IHv|]. intros [k [t tg]] Hv. cbn.
      apply ub_bind; [apply Hv|]. intros b. apply ub_encode_discriminant. ub_go.
  Qed.
  Hint Resolve ub_decode ub_encode : ub.

  Lemma ub_ensure b s : only_ub (ensure_else_ub b s).
  Proof. unfold ensure_else_ub. ub_go. Qed.
  Hint Resolve ub_ensure : ub.

  Variable env : ChkEnv P.
  Hypothesis Hv : forall p, only_ub (ce_vtable_from_ptr env p).
  Hypothesis Hl : forall p, only_ub (ce_vtable_lookup env p).

  Lemma ub_compute_size_and_align l (m : option (PtrMeta P)) lk :
    (forall p, only_ub (lk p)) -> only_ub (compute_size_and_align l m lk).
  Proof. intros H. revert m. induction l; intros m; cbn; ub_go. Qed.
  Lemma ub_compute_size l m : only_ub (compute_size env l m).
  Proof. unfold compute_size. apply ub_bind; [by apply ub_compute_size_and_align|ub_go]. Qed.
  Lemma ub_compute_align l m : only_ub (compute_align env l m).
  Proof. unfold compute_align. apply ub_bind; [by apply ub_compute_size_and_align|ub_go]. Qed.
  Hint Resolve ub_compute_size ub_compute_align : ub.
  Lemma ub_check_ptr p pt : only_ub (check_ptr T env p pt).
  Proof. unfold check_ptr, check_ptr_metadata, check_vtable_ptr. ub_go. Qed.
  Lemma ub_for_each2 {A B} (f : A -> B -> Outcome unit) l1 l2 :
    Forall (fun a => forall b, only_ub (f a b)) l1 -> only_ub (for_each2 f l1 l2).
  Proof. intros H. revert l2. induction H; intros [|b l2]; cbn; ub_go. Qed.
  Lemma ub_check_value ty v : only_ub (check_value T env ty v).
  Proof.
    revert v. induction ty as [it| |pt|fields head u IHf IHu|elem count IHe|elem IHe|fields chunks size align IHf
      |variants dty discr size align IHv|tn] using Ty_ind'; intros v; cbn [check_value]; try (by ub_go).
    - destruct v; try (by ub_go). apply ub_check_ptr.
    - destruct v as [| | |vals| |]; try (by ub_go). destruct u; [ub_go|].
      apply ub_bind; [ub_go|]. intros _. apply ub_for_each2. eapply Forall_impl; [exact IHf|]. auto.
    - destruct v as [| | |vals| |]; try (by ub_go). apply ub_bind; [ub_go|]. intros _. by apply ub_for_each.
    - destruct v as [| | | | |data]; try (by ub_go). apply ub_bind; [ub_go|]. intros _.
      apply ub_for_each2. apply Forall_true. ub_go.
    - destruct v as [| | | |d v|]; try (by ub_go).
      destruct (map_get_with _ _ _) as [r|] eqn:E; [|ub_go].
      eapply ub_map_get_with; [|exact E]. eapply Forall_impl; [exact IHv|]. intros [k [t tg]] Ht. apply Ht.
  Qed.
End Repr.
#[global] Hint Resolve ub_decode ub_encode ub_encode_int ub_meta_decode ub_meta_encode ub_ensure : ub.

(** ** Memory *)

Record ub_ops {P F M} (MO : MemOps P F M) : Prop := {
  uo_alloc : forall m k s a ad, only_ub (mo_allocate MO m k s a ad);
  uo_dealloc : forall m p k s a, only_ub (mo_deallocate MO m p k s a);
  uo_store : forall m p b a, only_ub (mo_store MO m p b a);
  uo_load : forall m p n a, only_ub (mo_load MO m p n a);
  uo_deref : forall m p n, only_ub (mo_deref MO m p n);
  uo_retag : forall m f p pt fe lk, (forall p, only_ub (lk p)) -> only_ub (mo_retag MO m f p pt fe lk);
  uo_end : forall m f, only_ub (mo_end_call MO m f);
}.

Section BM.
  Context {PE AE : Type}.
  Lemma ub_bm_check_ptr (m : BMem PE AE) p n : only_ub (bm_check_ptr m p n).
  Proof. unfold bm_check_ptr. ub_go. Qed.
  Hint Resolve ub_bm_check_ptr : ub.
  Lemma ub_bm_allocate T (m : BMem PE AE) k s a pe ae ad : only_ub (bm_allocate T m k s a pe ae ad).
  Proof. unfold bm_allocate. ub_go. Qed.
  Lemma ub_bm_deallocate (m : BMem PE AE) p k s a h :
    (forall x y, only_ub (h x y)) -> only_ub (bm_deallocate m p k s a h).
  Proof. intros H. unfold bm_deallocate. ub_go. Qed.
  Lemma ub_bm_store (m : BMem PE AE) p b a h :
    (forall x y z, only_ub (h x y z)) -> only_ub (bm_store m p b a h).
  Proof. intros H. unfold bm_store. ub_go. Qed.
  Lemma ub_bm_load (m : BMem PE AE) p n a h :
    (forall x y z, only_ub (h x y z)) -> only_ub (bm_load m p n a h).
  Proof. intros H. unfold bm_load. ub_go. Qed.
End BM.
#[global] Hint Resolve ub_bm_check_ptr ub_bm_allocate : ub.

Lemma basic_ub T : ub_ops (BasicOps T).
Proof.
  split; intros; cbn; try (by ub_go).
  - apply ub_bm_deallocate. ub_go.
  - apply ub_bm_store. ub_go.
  - apply ub_bm_load. ub_go.
Qed.

Lemma ub_perm_at ps o ak rel : only_ub (perm_at ps o ak rel).
Proof.
  unfold perm_at, perm_transition, u_transition, p_transition, u_local_read, u_local_write, u_foreign_read,
    u_foreign_write, p_local_read, p_local_write, p_foreign_read, p_foreign_write. ub_go.
Qed.
Lemma ub_map_idx_m {A B} (f : nat -> A -> Outcome B) i l :
  Forall (fun a => forall i, only_ub (f i a)) l -> only_ub (map_idx_m f i l).
Proof. intros H. revert i. induction H; intros i; cbn; ub_go. Qed.
Lemma ub_node_access n path ak o s : only_ub (node_access n path ak o s).
Proof.
  revert path. induction n as [cs ps prot IH] using Node_ind'; intros path. cbn.
  apply ub_bind; [unfold perms_transition; apply ub_fold_m; intros; apply ub_perm_at|]. intros ps'.
  apply ub_bind; [|ub_go]. apply ub_map_idx_m. eapply Forall_impl; [exact IH|]. auto.
Qed.
#[global] Hint Resolve ub_perm_at ub_node_access : ub.
Lemma ub_node_release n path acc : only_ub (node_release n path acc).
Proof.
  revert path. induction n as [cs ps prot IH] using Node_ind'; intros path. cbn.
  assert (only_ub (let! ps' := perms_release ps (relation_of path) acc in
    let! cs' := map_idx_m (fun i c => node_release c (sub_path path i) acc) 0 cs in
          Ret (mkNode cs' ps' prot))) as H.
  { apply ub_bind; [unfold perms_release; apply ub_fold_m; intros ? [? ?]; ub_go|]. intros ps'.
    apply ub_bind; [|ub_go]. apply ub_map_idx_m. eapply Forall_impl; [exact IH|]. auto. }
  destruct path as [[|]|]; [ub_go|exact H|exact H].
Qed.
Lemma ub_access_node {O} path (f : Node -> Outcome (Node * O)) n :
  (forall n, only_ub (f n)) -> only_ub (access_node path f n).
Proof. intros H. revert n. induction path as [|i path IH]; intros [cs ps prot]; cbn; ub_go. Qed.
Lemma ub_freeze_mask_loop cur cells size : only_ub (freeze_mask_loop cur cells size).
Proof. revert cur. induction cells; intros cur; cbn; ub_go. Qed.
Lemma ub_cells_mask cells size : only_ub (cells_to_freeze_mask cells size).
Proof. unfold cells_to_freeze_mask. pose proof ub_freeze_mask_loop. ub_go. Qed.
#[global] Hint Resolve ub_cells_mask : ub.

Lemma tree_ub T : ub_ops (TreeOps T).
Proof.
  split; intros; cbn; try (by ub_go).
  - apply ub_bm_deallocate. intros. unfold tb_dealloc. ub_go.
  - apply ub_bm_store. ub_go.
  - apply ub_bm_load. ub_go.
  - unfold tb_retag. apply ub_bind.
    + unfold settings_new. destruct (safe_pointee pt) as [pi|]; [|ub_go]. destruct pt as [[] ?| | | |];
        try destruct (negb _); try (by ub_go); apply ub_bind; try (by ub_go);
        clear - H; revert H; generalize (pi_cells pi), (pi_layout pi), (p_meta p); intros c; 
        induction c; intros l mt Hl; cbn; ub_go.
    + intros [s|]; [|ub_go]. apply ub_bind; [|ub_go]. unfold reborrow.
      apply ub_bind; [ub_go|]. intros _. destruct (tp_prov _) as [[id path]|]; [|ub_go].
      apply ub_bind; [|ub_go]. apply ub_mutate_at. intros a. unfold reborrow_alloc.
      apply ub_bind; [ub_go|]. intros off. apply ub_bind; [ub_go|]. intros perms. apply ub_bind; [ub_go|]. intros _.
      apply ub_bind.
      * unfold add_node. apply ub_bind; [apply ub_access_node; ub_go|ub_go].
      * intros [root cp]. apply ub_bind; [|ub_go]. unfold reborrow_accesses. apply ub_fold_m.
        intros r [i pm]. ub_go.
  - apply ub_fold_m. intros s [id path]. unfold mem_release_protector. apply ub_bind; [|ub_go].
    apply ub_mutate_at. intros a. unfold release_alloc. apply ub_bind.
    + apply ub_access_node. intros [cs ps prot]. apply ub_bind; [ub_go|]. intros _. apply ub_bind; [|ub_go].
      apply ub_map_m. intros pm. unfold perm_unprotect. ub_go.
    + intros [root acc]. pose proof ub_node_release. ub_go.
Qed.

(** ** The machine *)

Section Mach.
  Context {P F M : Type} `{EqDecision P}.
  Variable T : Target.
  Variable MO : MemOps P F M.
  Hypothesis UO : ub_ops MO.
  Notation Mach := (Machine P F M).

  Lemma ub_cm_allocate c k s a ad : only_ub (cm_allocate MO c k s a ad).
  Proof. unfold cm_allocate. pose proof (uo_alloc _ UO). ub_go. Qed.
  Lemma ub_cm_deallocate c p k s a : only_ub (cm_deallocate MO c p k s a).
  Proof. unfold cm_deallocate. pose proof (uo_dealloc _ UO). ub_go. Qed.
  Lemma ub_cm_store c p b a at_ : only_ub (cm_store MO c p b a at_).
  Proof. unfold cm_store. pose proof (uo_store _ UO). cbn. ub_go. Qed.
  Lemma ub_cm_load c p n a at_ : only_ub (cm_load MO c p n a at_).
  Proof. unfold cm_load. pose proof (uo_load _ UO). cbn. ub_go. Qed.
  Lemma ub_cm_deref c p n : only_ub (cm_deref MO c p n).
  Proof. apply (uo_deref _ UO). Qed.
  Lemma ub_cm_signed_deref c p n : only_ub (cm_signed_deref MO c p n).
  Proof. unfold cm_signed_deref, mo_signed_deref. pose proof (uo_deref _ UO). ub_go. Qed.
  Lemma ub_cm_end c f : only_ub (cm_end_call MO c f).
  Proof. unfold cm_end_call. pose proof (uo_end _ UO). ub_go. Qed.
  Hint Resolve ub_cm_allocate ub_cm_deallocate ub_cm_store ub_cm_load ub_cm_deref ub_cm_signed_deref
    ub_cm_end : ub.

  Lemma ub_vtable_from_ptr (m : Mach) p : only_ub (vtable_from_ptr m p).
  Proof. unfold vtable_from_ptr. ub_go. Qed.
  Lemma ub_vtable_lookup (m : Mach) p : only_ub (vtable_lookup m p).
  Proof. unfold vtable_lookup. ub_go. Qed.
  Lemma ub_fn_from_ptr (m : Mach) v : only_ub (fn_from_ptr m v).
  Proof. unfold fn_from_ptr. ub_go. Qed.
  Lemma ub_check (m : Mach) ty v : only_ub (check_value T (chk_env MO m) ty v).
  Proof. apply ub_check_value; [apply ub_vtable_from_ptr|apply ub_vtable_lookup]. Qed.
  Lemma ub_msize (m : Mach) l x : only_ub (compute_size (chk_env MO m) l x).
  Proof. apply ub_compute_size. apply ub_vtable_lookup. Qed.
  Lemma ub_malign (m : Mach) l x : only_ub (compute_align (chk_env MO m) l x).
  Proof. apply ub_compute_align. apply ub_vtable_lookup. Qed.
  Hint Resolve ub_vtable_from_ptr ub_vtable_lookup ub_fn_from_ptr ub_check ub_msize ub_malign : ub.

  Lemma ub_active (m : Mach) : only_ub (active_thread m).
  Proof. unfold active_thread. ub_go. Qed.
  Lemma ub_cur (m : Mach) : only_ub (cur_frame m).
  Proof. unfold cur_frame, active_thread. ub_go. Qed.
  Lemma ub_set_cur (m : Mach) f : only_ub (set_cur_frame m f).
  Proof. unfold set_cur_frame, active_thread. ub_go. Qed.
  Hint Resolve ub_active ub_cur ub_set_cur : ub.
  Lemma ub_jump (m : Mach) b : only_ub (jump_to_block m b).
  Proof. unfold jump_to_block. ub_go. Qed.
  Lemma ub_typed_store (m : Mach) p v ty a at_ : only_ub (typed_store T MO m p v ty a at_).
  Proof. unfold typed_store. ub_go. Qed.
  Lemma ub_typed_load (m : Mach) p ty a at_ : only_ub (typed_load T MO m p ty a at_).
  Proof. unfold typed_load. ub_go. Qed.
  Hint Resolve ub_jump ub_typed_store ub_typed_load : ub.
  Lemma ub_place_store (m : Mach) p v ty : only_ub (place_store T MO m p v ty).
  Proof. unfold place_store. ub_go. Qed.
  Lemma ub_place_load (m : Mach) p ty : only_ub (place_load T MO m p ty).
  Proof. unfold place_load. ub_go. Qed.
  Lemma ub_deinit (m : Mach) p n a : only_ub (deinit MO m p n a).
  Proof. unfold deinit. ub_go. Qed.
  Lemma ub_retag_ptr (m : Mach) p pt fe : only_ub (retag_ptr MO m p pt fe).
  Proof.
    unfold retag_ptr. apply ub_bind; [ub_go|]. intros f. apply ub_bind; [|ub_go]. unfold cm_retag.
    apply ub_bind; [apply (uo_retag _ UO); ub_go|ub_go].
  Qed.
  Lemma ub_offset_inbounds (m : Mach) p o : only_ub (ptr_offset_inbounds T MO m p o).
  Proof. unfold ptr_offset_inbounds. ub_go. Qed.
  Hint Resolve ub_place_store ub_place_load ub_deinit ub_retag_ptr ub_offset_inbounds : ub.

  Lemma ub_un_op (m : Mach) op v : only_ub (eval_un_op T MO m op v).
  Proof. destruct v as [v ty]. unfold eval_un_op, eval_int_un_op, transmute. ub_go. Qed.
  Lemma ub_int_bin_op op l r it : only_ub (eval_int_bin_op op l r it).
  Proof. unfold eval_int_bin_op. ub_go. Qed.
  Hint Resolve ub_int_bin_op : ub.
  Lemma ub_bin_op (m : Mach) op l r : only_ub (eval_bin_op T MO m op l r).
  Proof.
    destruct l as [l lt], r as [r rt]. unfold eval_bin_op, int_bin_op, rel_op, compare_values, compare_ptr. ub_go.
  Qed.
  Hint Resolve ub_un_op ub_bin_op : ub.

  Lemma ub_eval :
    (forall e (m : Mach), only_ub (eval_value T MO e m)) /\ (forall p (m : Mach), only_ub (eval_place T MO p m)).
  Proof.
    apply Expr_ind'; intros; cbn [eval_value eval_place]; try (by ub_go).
    - unfold eval_constant. ub_go.
    - apply ub_bind; [|ub_go]. apply ub_map_st. done.
    - apply ub_bind; [ub_go|]. intros [[pl t] m1]. destruct t; try (by ub_go). destruct (negb _); [ub_go|].
      apply ub_bind; [|ub_go]. apply ub_decode_discriminant. intros. unfold load_accessor. ub_go.
    - unfold field_of. ub_go.
  Qed.
  Lemma ub_eval_value e (m : Mach) : only_ub (eval_value T MO e m).
  Proof. apply ub_eval. Qed.
  Lemma ub_eval_place e (m : Mach) : only_ub (eval_place T MO e m).
  Proof. apply ub_eval. Qed.
  Hint Resolve ub_eval_value ub_eval_place : ub.

  Lemma ub_retag_val fe ty v (m : Mach) : only_ub (retag_val MO fe ty v m).
  Proof.
    revert v m. induction ty as [it| |pt|fields head u IHf IHu|elem count IHe|elem IHe|fields chunks size align IHf
      |variants dty discr size align IHv|tn] using Ty_ind'; intros v m; cbn [retag_val]; destruct v; try (by ub_go).
    - apply ub_bind; [|ub_go]. clear IHu. revert vals m. induction IHf as [|[o t] fs Hf Hfs IH]; intros [|v vs] m; cbn;
        try (by ub_go).
    - apply ub_bind; [|ub_go]. apply ub_map_st. apply Forall_true. auto.
    - destruct (map_get_with _ _ _) as [r|] eqn:E; [|ub_go]. apply ub_bind; [|ub_go].
      eapply ub_map_get_with; [|exact E]. eapply Forall_impl; [exact IHv|]. intros [k [t tg]] Ht. apply Ht.
  Qed.
  Lemma ub_storage_dead f mem l : only_ub (storage_dead T MO f mem l).
  Proof. unfold storage_dead. ub_go. Qed.
  Lemma ub_pick_addr (cs : list (Choice P)) : only_ub (pick_addr cs).
  Proof. unfold pick_addr. ub_go. Qed.
  Lemma ub_pick_prov (cs : list (Choice P)) : only_ub (pick_prov cs).
  Proof. unfold pick_prov. ub_go. Qed.
  Lemma ub_pick_thread ok (cs : list (Choice P)) : only_ub (pick_thread ok cs).
  Proof. unfold pick_thread. ub_go. Qed.
  Hint Resolve ub_retag_val ub_storage_dead ub_pick_addr ub_pick_prov ub_pick_thread : ub.
  Lemma ub_storage_live f mem l cs : only_ub (storage_live T MO f mem l cs).
  Proof. unfold storage_live. ub_go. Qed.
  Hint Resolve ub_storage_live : ub.
  Lemma ub_statement s (m : Mach) cs : only_ub (eval_statement T MO s m cs).
  Proof.
    destruct s; cbn [eval_statement]; try (by ub_go).
    apply ub_bind; [ub_go|]. intros [[pl t] m1]. destruct t; try (by ub_go). destruct (negb _); [ub_go|].
    apply ub_bind; [ub_go|]. intros var. apply ub_bind; [|ub_go].
    apply ub_encode_discriminant. intros. unfold store_accessor. ub_go.
  Qed.

  Lemma ub_abi t1 t2 : only_ub (check_abi_compatibility t1 t2).
  Proof.
    revert t2. induction t1 as [it| |pt|fields head u IHf IHu|elem count IHe|elem IHe|fields chunks size align IHf
      |variants dty discr size align IHv|tn] using Ty_ind'; intros t2; cbn [check_abi_compatibility]; destruct t2;
      try (by ub_go).
    - destruct (head_size_and_align _), (head_size_and_align _). apply ub_bind; [ub_go|]. intros _.
      apply ub_bind; [ub_go|]. intros _. destruct (negb _); [ub_go|]. apply ub_bind; [|ub_go].
      apply ub_all2_m. eapply Forall_impl; [exact IHf|]. intros [o t] Ht [o2 t2]. cbn. ub_go.
    - destruct (negb _); [ub_go|]. apply ub_bind; [|ub_go].
      apply ub_all2_m. eapply Forall_impl; [exact IHf|]. intros [o t] Ht [o2 t2]. cbn. ub_go.
    - destruct (negb _); [ub_go|]. apply ub_bind; [|ub_go].
      apply ub_all_m. eapply Forall_impl; [exact IHv|]. intros [k [t tg]] Ht. cbn in *. ub_go.
  Qed.
  Hint Resolve ub_abi : ub.
  Lemma ub_create_frame (m : Mach) func act cv rt args cs :
    only_ub (create_frame T MO m func act cv rt args cs).
  Proof.
    unfold create_frame. apply ub_bind.
    { apply ub_fold_m. intros [[f mem] cs1] l. ub_go. }
    intros [[f mem] cs1]. destruct (negb _); [ub_go|]. apply ub_bind; [ub_go|]. intros rty.
    apply ub_bind; [ub_go|]. intros ok. do 2 (destruct (negb _); [ub_go|]).
    apply ub_bind; [|ub_go]. apply ub_fold_m2. ub_go.
  Qed.
  Hint Resolve ub_create_frame : ub.
  Lemma ub_eval_argument (m : Mach) a : only_ub (eval_argument T MO m a).
  Proof. unfold eval_argument, prepare_for_inplace_passing. ub_go. Qed.
  Hint Resolve ub_eval_argument ub_statement : ub.

  Lemma ub_terminate (m : Mach) : only_ub (terminate_active_thread m).
  Proof. unfold terminate_active_thread. ub_go. Qed.
  Lemma ub_pop (m : Mach) : only_ub (pop_frame m).
  Proof. unfold pop_frame. ub_go. Qed.
  Lemma ub_dealloc_locals f mem : only_ub (dealloc_locals T MO f mem).
  Proof. unfold dealloc_locals. apply ub_fold_m. intros [g mem1] l. ub_go. Qed.
  Hint Resolve ub_terminate ub_pop ub_dealloc_locals : ub.
  Lemma ub_eval_call (m : Mach) callee conv args rp rt nb un cs :
    only_ub (eval_call T MO m callee conv args rp rt nb un cs).
  Proof. unfold eval_call. ub_go. Qed.
  Lemma ub_lock_acquire (m : Mach) i : only_ub (lock_acquire m i).
  Proof. unfold lock_acquire. ub_go. Qed.
  Lemma ub_lock_release (m : Mach) i cs : only_ub (lock_release m i cs).
  Proof. unfold lock_release. ub_go. Qed.
  Lemma ub_eval_print args : only_ub (eval_print (P:=P) args).
  Proof. unfold eval_print. apply ub_fold_m. intros s [v ty]. ub_go. Qed.
  Lemma ub_spawn (m : Mach) f d dt cs : only_ub (spawn T MO m f d dt cs).
  Proof. unfold spawn, new_thread. ub_go. Qed.
  Lemma ub_join (m : Mach) i : only_ub (Step.join m i).
  Proof. unfold Step.join. ub_go. Qed.
  Lemma ub_load_raw (m : Mach) p pt : only_ub (load_raw_data MO m p pt).
  Proof. unfold load_raw_data. ub_go. Qed.
  Lemma ub_ensure_unit ty s : only_ub (ensure_unit ty s).
  Proof. unfold ensure_unit. ub_go. Qed.
  Lemma ub_int2ptr (e : Exposed P) a pr : only_ub (ipc_int2ptr e a pr).
  Proof. unfold ipc_int2ptr. ub_go. Qed.
  Hint Resolve ub_eval_call ub_lock_acquire ub_lock_release ub_eval_print ub_spawn ub_join ub_load_raw
    ub_ensure_unit ub_int2ptr : ub.

  Lemma ub_intrinsic (m : Mach) op args rt cs :
    op <> InExit -> op <> InAbort -> only_ub (eval_intrinsic T MO m op args rt cs).
  Proof. intros H1 H2. destruct op as [| | | | | | | | | | | | | | | | |[]]; try done; cbn [eval_intrinsic]; ub_go. Qed.

  Lemma ub_races c a s l : only_ub (cm_check_data_races (M:=M) c a s l).
  Proof. unfold cm_check_data_races. destruct (bool_decide _); [done|]. apply ub_for_each. intros x. by destruct (existsb _ _); ub_go. Qed.

  (** the only stops of a terminator that are not UB come from an intrinsic *)
  Lemma terminator_stop tm (m : Mach) cs t : eval_terminator T MO tm m cs = Stop t ->
    (exists msg, t = TUb msg) \/
    exists op args ret nb pl rty m1 vs m2, tm = TmIntrinsic op args ret nb /\
      eval_place T MO ret m = Ret (pl, rty, m1) /\
      map_st (fun m e => eval_value T MO e m) args m1 = Ret (vs, m2) /\
      eval_intrinsic T MO m2 op vs rty cs = Stop t.
  Proof.
    assert (Hub : only_ub (eval_terminator T MO tm m cs) -> eval_terminator T MO tm m cs = Stop t ->
      exists msg, t = TUb msg) by (intros H; apply H).
    intros H.
    destruct tm as [b|v cases fb| |op args ret nb|callee conv args ret nb ub| |v b|b|];
      try (left; revert H; apply Hub; cbn [eval_terminator]; (done || ub_go); fail).
    - cbn [eval_terminator] in H. destruct (eval_place T MO ret m) as [[[pl ty] m1]|t1| |] eqn:E1; try done; cbn [obind] in H.
      2: { left. injection H as ->. by eapply (ub_eval_place ret m). }
      destruct (map_st _ args m1) as [[vs m2]|t1| |] eqn:E2; try done; cbn [obind] in H.
      2: { left. injection H as ->. revert E2. apply ub_map_st. apply Forall_true. ub_go. }
      destruct (eval_intrinsic _ _ _ _ _ _ _) as [[[v m3] cs1]|t1| |] eqn:E3; try done; cbn [obind] in H.
      2: { right. injection H as ->. by exists op, args, ret, nb, pl, ty, m1, vs, m2. }
      left. enough (only_ub (let! m4 := place_store T MO m3 pl v ty in
        match nb with Some b => let! m := jump_to_block m4 b in Ret (m, cs1)
        | None => throw_ub "return from an intrinsic where caller did not specify next block" end)) as Hx by exact (Hx _ H). ub_go.
    - left. revert H. apply Hub. cbn [eval_terminator]. apply ub_bind; [ub_go|]. intros [[pl ty] m1].
      apply ub_bind; [unfold prepare_for_inplace_passing; ub_go|]. intros m2. apply ub_bind; [ub_go|].
      intros [[fv ft] m3]. apply ub_bind; [ub_go|]. intros func. apply ub_bind; [|ub_go].
      apply ub_map_st. apply Forall_true. ub_go.
  Qed.
End Mach.
