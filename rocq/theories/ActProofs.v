(** Which computations have a behaviour whatever is chosen: all but those that choose. *)
From Verif Require Export StopProofs.

(** [o] is not without behaviour *)
Definition acts {A} (o : Outcome A) : Prop := o <> NoBehavior.

Section Comb.
  Context {A B : Type}.
  Lemma ac_ret (a : A) : acts (Ret a).
  Proof. done. Qed.
  Lemma ac_panic : acts (@Panic A).
  Proof. done. Qed.
  Lemma ac_throw s : acts (@throw_ub A s).
  Proof. done. Qed.
  Lemma ac_bind (o : Outcome A) (f : A -> Outcome B) :
    acts o -> (forall a, acts (f a)) -> acts (obind o f).
  Proof. intros Ho Hf. destruct o; cbn; [apply Hf|done|done|done]. Qed.
  Lemma ac_assert b : acts (assert_ b).
  Proof. by destruct b. Qed.
  Lemma ac_unwrap (o : option A) : acts (unwrap o).
  Proof. by destruct o. Qed.
  Lemma ac_is_ok (o : Outcome A) : acts o -> acts (is_ok o).
  Proof. by destruct o. Qed.
  Lemma ac_expect (o : Outcome A) : acts o -> acts (expect_ok o).
  Proof. by destruct o. Qed.
End Comb.
Create HintDb act discriminated.
#[global] Hint Resolve ac_ret ac_panic ac_throw ac_assert ac_unwrap ac_is_ok ac_expect : act.

(** decomposes a computation into its parts *)
Ltac ac_go :=
  lazymatch goal with
  | |- acts (obind _ _) => apply ac_bind; [ac_go|intros ?; ac_go]
  | |- acts (match ?x with _ => _ end) => destruct x; ac_go
  | |- acts (let '(_, _) := ?x in _) => destruct x; ac_go
  | |- acts ((fun _ => _) _) => cbv beta; ac_go
  | |- forall _, _ => intros ?; ac_go
  | |- _ => auto 3 with act
  end.

Section Lists.
  Context {A B C X : Type}.
  Lemma ac_for_each (f : A -> Outcome unit) l : (forall a, acts (f a)) -> acts (for_each f l).
  Proof. intros H. induction l; cbn; ac_go. Qed.
  Lemma ac_fold_m (f : X -> A -> Outcome X) l s : (forall s a, acts (f s a)) -> acts (fold_m f l s).
  Proof. intros H. revert s. induction l; intros s; cbn; ac_go. Qed.
  Lemma ac_fold_m2 (f : X -> A -> B -> Outcome X) l1 l2 s :
    (forall s a b, acts (f s a b)) -> acts (fold_m2 f l1 l2 s).
  Proof. intros H. revert l2 s. induction l1; intros l2 s; cbn; ac_go. Qed.
  Lemma ac_map_m (f : A -> Outcome B) l : (forall a, acts (f a)) -> acts (map_m f l).
  Proof. intros H. induction l; cbn; ac_go. Qed.
  Lemma ac_map_m' (f : A -> Outcome B) l : Forall (fun a => acts (f a)) l -> acts (map_m f l).
  Proof. intros H. induction H; cbn; ac_go. Qed.
  Lemma ac_try_map (f : A -> Outcome (option B)) l :
    (forall a, acts (f a)) -> acts (try_map f l).
  Proof. intros H. induction l; cbn; ac_go. Qed.
  Lemma ac_subslice (l : list A) o n : acts (subslice l o n).
  Proof. unfold subslice. ac_go. Qed.
  Lemma ac_write_subslice (l : list A) o n : acts (write_subslice l o n).
  Proof. unfold write_subslice. ac_go. Qed.
  Lemma ac_map_st (f : X -> A -> Outcome (B * X)) l s :
    Forall (fun a => forall s, acts (f s a)) l -> acts (map_st f l s).
  Proof. intros H. revert s. induction H; intros s; cbn; ac_go. Qed.
  Lemma ac_all_m (f : A -> Outcome bool) l : Forall (fun a => acts (f a)) l -> acts (all_m f l).
  Proof. intros H. induction H; cbn; ac_go. Qed.
  Lemma ac_all2_m (f : A -> B -> Outcome bool) l1 l2 :
    Forall (fun a => forall b, acts (f a b)) l1 -> acts (all2_m f l1 l2).
  Proof. intros H. revert l2. induction H; intros [|b l2]; cbn; ac_go. Qed.
  Lemma ac_mutate_at (l : list A) i (f : A -> Outcome (A * B)) :
    (forall a, acts (f a)) -> acts (mutate_at l i f).
  Proof. intros H. unfold mutate_at. ac_go. Qed.
End Lists.
#[global] Hint Resolve ac_subslice ac_write_subslice : act.

(** ** Types and representation *)

Lemma ac_layout T ty : acts (layout T ty).
Proof.
  induction ty using Ty_ind'; cbn; unfold int_align, expect_size, expect_align, size_mul; ac_go.
Qed.
#[global] Hint Resolve ac_layout : act.
Lemma ac_size_of T ty : acts (size_of T ty).
Proof. unfold size_of, expect_size. ac_go. Qed.
Lemma ac_align_of T ty : acts (align_of T ty).
Proof. unfold align_of, expect_align. ac_go. Qed.
Lemma ac_size_mul s i : acts (size_mul s i).
Proof. unfold size_mul. ac_go. Qed.
Lemma ac_with_overflow T it : acts (with_overflow T it).
Proof. unfold with_overflow, int_align. ac_go. Qed.
#[global] Hint Resolve ac_size_of ac_align_of ac_size_mul ac_with_overflow : act.

Lemma ac_map_get_with {K A B} `{EqDecision K} (f : A -> Outcome B) (k : K) l r :
  Forall (fun a => acts (f (snd a))) l -> map_get_with f k l = Some r -> acts r.
Proof.
  induction 1 as [|[j x] l Hx Hl IH]; cbn; [done|]. case_decide; [by intros [= <-]|done].
Qed.

Section Repr.
  Context {P : Type} `{EqDecision P}.
  Variable T : Target.

  Lemma ac_decode_int_opt it (b : list (AByte P)) : acts (decode_int_opt T it b).
  Proof. unfold decode_int_opt. ac_go. Qed.
  Lemma ac_decode_int it (b : list (AByte P)) : acts (decode_int T it b).
  Proof. unfold decode_int. pose proof (ac_decode_int_opt it b). ac_go. Qed.
  Lemma ac_encode_int it i : acts (encode_int (P := P) T it i).
  Proof. unfold encode_int. ac_go. Qed.
  Lemma ac_decode_ptr (b : list (AByte P)) : acts (decode_ptr T b).
  Proof. unfold decode_ptr. ac_go. Qed.
  Lemma ac_encode_ptr (p : ThinPtr P) : acts (encode_ptr T p).
  Proof. unfold encode_ptr. ac_go. Qed.
  Lemma ac_meta_decode mk (v : Value P) : acts (meta_decode_value mk v).
  Proof. unfold meta_decode_value. ac_go. Qed.
  Lemma ac_meta_encode mk (v : option (PtrMeta P)) : acts (meta_encode_as_value mk v).
  Proof. unfold meta_encode_as_value. ac_go. Qed.
  Hint Resolve ac_decode_int_opt ac_decode_int ac_encode_int ac_decode_ptr ac_encode_ptr ac_meta_decode
    ac_meta_encode : act.
  Lemma ac_as_wide_pair pt : acts (as_wide_pair T pt).
  Proof. unfold as_wide_pair. ac_go. Qed.
  Hint Resolve ac_as_wide_pair : act.
  Lemma ac_decode_pointer pt (b : list (AByte P)) : acts (decode_pointer T pt b).
  Proof. unfold decode_pointer, decode_meta. ac_go. Qed.
  Lemma ac_encode_pointer pt (p : Pointer P) : acts (encode_pointer T pt p).
  Proof. unfold encode_pointer, encode_meta. ac_go. Qed.
  Hint Resolve ac_decode_pointer ac_encode_pointer : act.

  Lemma ac_decode_discriminant {X} (acc : X -> N -> N -> Outcome (list (AByte P) * X)) d s :
    (forall s o n, acts (acc s o n)) -> acts (decode_discriminant T acc d s).
  Proof.
    intros Ha. revert s. induction d as [d| |o it fb ch IHf IHc] using Discriminator_ind'; intros s; cbn.
    1,2: ac_go.
    apply ac_bind; [apply Ha|]. intros [b s1]. apply ac_bind; [ac_go|]. intros [v|]; [|ac_go].
    assert (forall l, Forall (fun c => forall s, acts (decode_discriminant T acc (snd c) s)) l ->
      forall r, find_child (fun c => decode_discriminant T acc c s1) v l = Some r -> acts r) as Hl.
    { intros l Hf. induction Hf as [|[[a c] e] l Hc Hl IH]; cbn; [done|]. intros r.
      destruct (in_range v (a, c)); [intros [= <-]; apply Hc|apply IH]. }
    specialize (Hl ch IHc). destruct (find_child _ _ _) as [r|]; auto.
  Qed.
  Lemma ac_encode_discriminant {X} (acc : X -> N -> list (AByte P) -> Outcome X) tg s :
    (forall s o b, acts (acc s o b)) -> acts (encode_discriminant T acc tg s).
  Proof.
    intros Ha. unfold encode_discriminant. apply ac_fold_m. intros s1 [o [it v]]. ac_go.
  Qed.

  Lemma ac_try_map' {A B} (f : A -> Outcome (option B)) l :
    Forall (fun a => acts (f a)) l -> acts (try_map f l).
  Proof. induction 1; cbn; ac_go. Qed.

  Lemma ac_decode ty (b : list (AByte P)) : acts (decode T ty b).
  Proof.
    revert b. induction ty as [it| |pt|fields head u IHf IHu|elem count IHe|elem IHe|fields chunks size align IHf
      |variants dty discr size align IHv|tn] using Ty_ind'; intros b; cbn [decode]; try (by ac_go).
    - unfold decode_bool. ac_go.
    - destruct u; [ac_go|]. destruct (head_size_and_align head). destruct (_ =? _)%N; [|ac_go].
      apply ac_bind; [|ac_go]. apply ac_try_map'. eapply Forall_impl; [exact IHf|]. intros [o t] H. cbn. ac_go.
    - apply ac_bind; [ac_go|]. intros s. apply ac_bind; [ac_go|]. intros s1. destruct (_ =? _)%N; [|ac_go].
      apply ac_bind; [apply ac_map_m; ac_go|]. intros ch. apply ac_bind; [apply ac_try_map|]; ac_go.
    - destruct (_ =? _)%N; [|ac_go]. apply ac_bind; [|ac_go]. apply ac_map_m. ac_go.
    - destruct (_ =? _)%N; [|ac_go]. apply ac_bind.
      { apply ac_decode_discriminant. intros s o n. unfold bytes_accessor. ac_go. }
      intros [[d|] _]; [|ac_go].
      destruct (map_get_with _ _ _) as [r|] eqn:E; [|ac_go]. apply ac_bind; [|ac_go].
      eapply ac_map_get_with; [|exact E]. eapply Forall_impl; [exact IHv|]. intros [k v] Hv. apply Hv.
  Qed.
  Lemma ac_encode ty (v : Value P) : acts (encode T ty v).
  Proof.
    revert v. induction ty as [it| |pt|fields head u IHf IHu|elem count IHe|elem IHe|fields chunks size align IHf
      |variants dty discr size align IHv|tn] using Ty_ind'; intros v; cbn [encode]; try (by ac_go).
    - unfold encode_bool. ac_go.
    - destruct u; [ac_go|]. destruct (head_size_and_align head) as [sz al]. destruct v as [| | |vals| |]; try (by ac_go).
      apply ac_bind; [ac_go|]. intros _. generalize (list_repeat (@Uninit P) sz). revert vals.
      induction IHf as [|[o t] fs Hf Hfs IH]; intros [|v vs] bs; cbn; try (by ac_go).
    - destruct v as [| | |vals| |]; try (by ac_go). apply ac_bind; [ac_go|]. intros _.
      apply ac_bind; [apply ac_map_m|]; ac_go.
    - destruct v as [| | | | |data]; try (by ac_go). apply ac_bind; [ac_go|]. intros _.
      apply ac_fold_m2. ac_go.
    - destruct v as [| | | |d v|]; try (by ac_go).
      destruct (map_get_with _ _ _) as [r|] eqn:E; [|ac_go].
      eapply ac_map_get_with; [|exact E]. eapply Forall_impl; [exact IHv|]. intros [k [t tg]] Hv. cbn.
      apply ac_bind; [apply Hv|]. intros b. apply ac_encode_discriminant. ac_go.
  Qed.
  Hint Resolve ac_decode ac_encode : act.

  Lemma ac_ensure b s : acts (ensure_else_ub b s).
  Proof. unfold ensure_else_ub. ac_go. Qed.
  Hint Resolve ac_ensure : act.

  Variable env : ChkEnv P.
  Hypothesis Hv : forall p, acts (ce_vtable_from_ptr env p).
  Hypothesis Hl : forall p, acts (ce_vtable_lookup env p).
  Hypothesis Hd : forall p n, acts (ce_deref env p n).

  Lemma ac_compute_size_and_align l (m : option (PtrMeta P)) lk :
    (forall p, acts (lk p)) -> acts (compute_size_and_align l m lk).
  Proof. intros H. revert m. induction l; intros m; cbn; ac_go. Qed.
  Lemma ac_compute_size l m : acts (compute_size env l m).
  Proof. unfold compute_size. apply ac_bind; [by apply ac_compute_size_and_align|ac_go]. Qed.
  Lemma ac_compute_align l m : acts (compute_align env l m).
  Proof. unfold compute_align. apply ac_bind; [by apply ac_compute_size_and_align|ac_go]. Qed.
  Hint Resolve ac_compute_size ac_compute_align : act.
  Lemma ac_check_ptr p pt : acts (check_ptr T env p pt).
  Proof. unfold check_ptr, check_ptr_metadata, check_vtable_ptr. ac_go. Qed.
  Lemma ac_for_each2 {A B} (f : A -> B -> Outcome unit) l1 l2 :
    Forall (fun a => forall b, acts (f a b)) l1 -> acts (for_each2 f l1 l2).
  Proof. intros H. revert l2. induction H; intros [|b l2]; cbn; ac_go. Qed.
  Lemma ac_check_value ty v : acts (check_value T env ty v).
  Proof.
    revert v. induction ty as [it| |pt|fields head u IHf IHu|elem count IHe|elem IHe|fields chunks size align IHf
      |variants dty discr size align IHv|tn] using Ty_ind'; intros v; cbn [check_value]; try (by ac_go).
    - destruct v; try (by ac_go). apply ac_check_ptr.
    - destruct v as [| | |vals| |]; try (by ac_go). destruct u; [ac_go|].
      apply ac_bind; [ac_go|]. intros _. apply ac_for_each2. eapply Forall_impl; [exact IHf|]. auto.
    - destruct v as [| | |vals| |]; try (by ac_go). apply ac_bind; [ac_go|]. intros _. by apply ac_for_each.
    - destruct v as [| | | | |data]; try (by ac_go). apply ac_bind; [ac_go|]. intros _.
      apply ac_for_each2. apply Forall_true. ac_go.
    - destruct v as [| | | |d v|]; try (by ac_go).
      destruct (map_get_with _ _ _) as [r|] eqn:E; [|ac_go].
      eapply ac_map_get_with; [|exact E]. eapply Forall_impl; [exact IHv|]. intros [k [t tg]] Ht. apply Ht.
  Qed.
End Repr.
#[global] Hint Resolve ac_decode ac_encode ac_encode_int ac_meta_decode ac_meta_encode ac_ensure : act.

(** ** Memory *)

Record act_ops {P F M} (MO : MemOps P F M) : Prop := {
  ao_dealloc : forall m p k s a, acts (mo_deallocate MO m p k s a);
  ao_store : forall m p b a, acts (mo_store MO m p b a);
  ao_load : forall m p n a, acts (mo_load MO m p n a);
  ao_deref : forall m p n, acts (mo_deref MO m p n);
  ao_retag : forall m f p pt fe lk, (forall p, acts (lk p)) -> acts (mo_retag MO m f p pt fe lk);
  ao_end : forall m f, acts (mo_end_call MO m f);
}.

Section BM.
  Context {PE AE : Type}.
  Lemma ac_bm_check_ptr (m : BMem PE AE) p n : acts (bm_check_ptr m p n).
  Proof. unfold bm_check_ptr. ac_go. Qed.
  Hint Resolve ac_bm_check_ptr : act.
  Lemma ac_bm_deallocate (m : BMem PE AE) p k s a h :
    (forall x y, acts (h x y)) -> acts (bm_deallocate m p k s a h).
  Proof. intros H. unfold bm_deallocate. ac_go. Qed.
  Lemma ac_bm_store (m : BMem PE AE) p b a h :
    (forall x y z, acts (h x y z)) -> acts (bm_store m p b a h).
  Proof. intros H. unfold bm_store. ac_go. Qed.
  Lemma ac_bm_load (m : BMem PE AE) p n a h :
    (forall x y z, acts (h x y z)) -> acts (bm_load m p n a h).
  Proof. intros H. unfold bm_load. ac_go. Qed.
End BM.
#[global] Hint Resolve ac_bm_check_ptr : act.

Lemma basic_acts T : act_ops (BasicOps T).
Proof.
  split; intros; cbn; try (by ac_go).
  - apply ac_bm_deallocate. ac_go.
  - apply ac_bm_store. ac_go.
  - apply ac_bm_load. ac_go.
Qed.

Lemma ac_perm_at ps o ak rel : acts (perm_at ps o ak rel).
Proof.
  unfold perm_at, perm_transition, u_transition, p_transition, u_local_read, u_local_write, u_foreign_read,
    u_foreign_write, p_local_read, p_local_write, p_foreign_read, p_foreign_write. ac_go.
Qed.
Lemma ac_map_idx_m {A B} (f : nat -> A -> Outcome B) i l :
  Forall (fun a => forall i, acts (f i a)) l -> acts (map_idx_m f i l).
Proof. intros H. revert i. induction H; intros i; cbn; ac_go. Qed.
Lemma ac_node_access n path ak o s : acts (node_access n path ak o s).
Proof.
  revert path. induction n as [cs ps prot IH] using Node_ind'; intros path. cbn.
  apply ac_bind; [unfold perms_transition; apply ac_fold_m; intros; apply ac_perm_at|]. intros ps'.
  apply ac_bind; [|ac_go]. apply ac_map_idx_m. eapply Forall_impl; [exact IH|]. auto.
Qed.
#[global] Hint Resolve ac_perm_at ac_node_access : act.
Lemma ac_node_release n path acc : acts (node_release n path acc).
Proof.
  revert path. induction n as [cs ps prot IH] using Node_ind'; intros path. cbn.
  assert (acts (let! ps' := perms_release ps (relation_of path) acc in
    let! cs' := map_idx_m (fun i c => node_release c (sub_path path i) acc) 0 cs in
          Ret (mkNode cs' ps' prot))) as H.
  { apply ac_bind; [unfold perms_release; apply ac_fold_m; intros ? [? ?]; ac_go|]. intros ps'.
    apply ac_bind; [|ac_go]. apply ac_map_idx_m. eapply Forall_impl; [exact IH|]. auto. }
  destruct path as [[|]|]; [ac_go|exact H|exact H].
Qed.
Lemma ac_access_node {O} path (f : Node -> Outcome (Node * O)) n :
  (forall n, acts (f n)) -> acts (access_node path f n).
Proof. intros H. revert n. induction path as [|i path IH]; intros [cs ps prot]; cbn; ac_go. Qed.
Lemma ac_freeze_mask_loop cur cells size : acts (freeze_mask_loop cur cells size).
Proof. revert cur. induction cells; intros cur; cbn; ac_go. Qed.
Lemma ac_cells_mask cells size : acts (cells_to_freeze_mask cells size).
Proof. unfold cells_to_freeze_mask. pose proof ac_freeze_mask_loop. ac_go. Qed.
#[global] Hint Resolve ac_cells_mask : act.

Lemma tree_acts T : act_ops (TreeOps T).
Proof.
  split; intros; cbn; try (by ac_go).
  - apply ac_bm_deallocate. intros. unfold tb_dealloc. ac_go.
  - apply ac_bm_store. ac_go.
  - apply ac_bm_load. ac_go.
  - unfold tb_retag. apply ac_bind.
    + unfold settings_new. destruct (safe_pointee pt) as [pi|]; [|ac_go]. destruct pt as [[] ?| | | |];
        try destruct (negb _); try (by ac_go); apply ac_bind; try (by ac_go);
        clear - H; revert H; generalize (pi_cells pi), (pi_layout pi), (p_meta p); intros c; 
        induction c; intros l mt Hl; cbn; ac_go.
    + intros [s|]; [|ac_go]. apply ac_bind; [|ac_go]. unfold reborrow.
      apply ac_bind; [ac_go|]. intros _. destruct (tp_prov _) as [[id path]|]; [|ac_go].
      apply ac_bind; [|ac_go]. apply ac_mutate_at. intros a. unfold reborrow_alloc.
      apply ac_bind; [ac_go|]. intros off. apply ac_bind; [ac_go|]. intros perms. apply ac_bind; [ac_go|]. intros _.
      apply ac_bind.
      * unfold add_node. apply ac_bind; [apply ac_access_node; ac_go|ac_go].
      * intros [root cp]. apply ac_bind; [|ac_go]. unfold reborrow_accesses. apply ac_fold_m.
        intros r [i pm]. ac_go.
  - apply ac_fold_m. intros s [id path]. unfold mem_release_protector. apply ac_bind; [|ac_go].
    apply ac_mutate_at. intros a. unfold release_alloc. apply ac_bind.
    + apply ac_access_node. intros [cs ps prot]. apply ac_bind; [ac_go|]. intros _. apply ac_bind; [|ac_go].
      apply ac_map_m. intros pm. unfold perm_unprotect. ac_go.
    + intros [root acc]. pose proof ac_node_release. ac_go.
Qed.

(** ** The machine *)

Section Mach.
  Context {P F M : Type} `{EqDecision P}.
  Variable T : Target.
  Variable MO : MemOps P F M.
  Hypothesis AO : act_ops MO.
  Notation Mach := (Machine P F M).

  Lemma ac_cm_deallocate c p k s a : acts (cm_deallocate MO c p k s a).
  Proof. unfold cm_deallocate. pose proof (ao_dealloc _ AO). ac_go. Qed.
  Lemma ac_cm_store c p b a at_ : acts (cm_store MO c p b a at_).
  Proof. unfold cm_store. pose proof (ao_store _ AO). cbn. ac_go. Qed.
  Lemma ac_cm_load c p n a at_ : acts (cm_load MO c p n a at_).
  Proof. unfold cm_load. pose proof (ao_load _ AO). cbn. ac_go. Qed.
  Lemma ac_cm_deref c p n : acts (cm_deref MO c p n).
  Proof. apply (ao_deref _ AO). Qed.
  Lemma ac_cm_signed_deref c p n : acts (cm_signed_deref MO c p n).
  Proof. unfold cm_signed_deref, mo_signed_deref. pose proof (ao_deref _ AO). ac_go. Qed.
  Lemma ac_cm_end c f : acts (cm_end_call MO c f).
  Proof. unfold cm_end_call. pose proof (ao_end _ AO). ac_go. Qed.
  Hint Resolve ac_cm_deallocate ac_cm_store ac_cm_load ac_cm_deref ac_cm_signed_deref
    ac_cm_end : act.

  Lemma ac_vtable_from_ptr (m : Mach) p : acts (vtable_from_ptr m p).
  Proof. unfold vtable_from_ptr. ac_go. Qed.
  Lemma ac_vtable_lookup (m : Mach) p : acts (vtable_lookup m p).
  Proof. unfold vtable_lookup. ac_go. Qed.
  Lemma ac_fn_from_ptr (m : Mach) v : acts (fn_from_ptr m v).
  Proof. unfold fn_from_ptr. ac_go. Qed.
  Lemma ac_check (m : Mach) ty v : acts (check_value T (chk_env MO m) ty v).
  Proof. apply ac_check_value; [apply ac_vtable_from_ptr|apply ac_vtable_lookup|apply ac_cm_deref]. Qed.
  Lemma ac_msize (m : Mach) l x : acts (compute_size (chk_env MO m) l x).
  Proof. apply ac_compute_size. apply ac_vtable_lookup. Qed.
  Lemma ac_malign (m : Mach) l x : acts (compute_align (chk_env MO m) l x).
  Proof. apply ac_compute_align. apply ac_vtable_lookup. Qed.
  Hint Resolve ac_vtable_from_ptr ac_vtable_lookup ac_fn_from_ptr ac_check ac_msize ac_malign : act.

  Lemma ac_active (m : Mach) : acts (active_thread m).
  Proof. unfold active_thread. ac_go. Qed.
  Lemma ac_cur (m : Mach) : acts (cur_frame m).
  Proof. unfold cur_frame, active_thread. ac_go. Qed.
  Lemma ac_set_cur (m : Mach) f : acts (set_cur_frame m f).
  Proof. unfold set_cur_frame, active_thread. ac_go. Qed.
  Hint Resolve ac_active ac_cur ac_set_cur : act.
  Lemma ac_jump (m : Mach) b : acts (jump_to_block m b).
  Proof. unfold jump_to_block. ac_go. Qed.
  Lemma ac_typed_store (m : Mach) p v ty a at_ : acts (typed_store T MO m p v ty a at_).
  Proof. unfold typed_store. ac_go. Qed.
  Lemma ac_typed_load (m : Mach) p ty a at_ : acts (typed_load T MO m p ty a at_).
  Proof. unfold typed_load. ac_go. Qed.
  Hint Resolve ac_jump ac_typed_store ac_typed_load : act.
  Lemma ac_place_store (m : Mach) p v ty : acts (place_store T MO m p v ty).
  Proof. unfold place_store. ac_go. Qed.
  Lemma ac_place_load (m : Mach) p ty : acts (place_load T MO m p ty).
  Proof. unfold place_load. ac_go. Qed.
  Lemma ac_deinit (m : Mach) p n a : acts (deinit MO m p n a).
  Proof. unfold deinit. ac_go. Qed.
  Lemma ac_retag_ptr (m : Mach) p pt fe : acts (retag_ptr MO m p pt fe).
  Proof.
    unfold retag_ptr. apply ac_bind; [ac_go|]. intros f. apply ac_bind; [|ac_go]. unfold cm_retag.
    apply ac_bind; [apply (ao_retag _ AO); ac_go|ac_go].
  Qed.
  Lemma ac_offset_inbounds (m : Mach) p o : acts (ptr_offset_inbounds T MO m p o).
  Proof. unfold ptr_offset_inbounds. ac_go. Qed.
  Hint Resolve ac_place_store ac_place_load ac_deinit ac_retag_ptr ac_offset_inbounds : act.

  Lemma ac_un_op (m : Mach) op v : acts (eval_un_op T MO m op v).
  Proof. destruct v as [v ty]. unfold eval_un_op, eval_int_un_op, transmute. ac_go. Qed.
  Lemma ac_int_bin_op op l r it : acts (eval_int_bin_op op l r it).
  Proof. unfold eval_int_bin_op. ac_go. Qed.
  Hint Resolve ac_int_bin_op : act.
  Lemma ac_bin_op (m : Mach) op l r : acts (eval_bin_op T MO m op l r).
  Proof.
    destruct l as [l lt], r as [r rt]. unfold eval_bin_op, int_bin_op, rel_op, compare_values, compare_ptr. ac_go.
  Qed.
  Hint Resolve ac_un_op ac_bin_op : act.

  Lemma ac_eval :
    (forall e (m : Mach), acts (eval_value T MO e m)) /\ (forall p (m : Mach), acts (eval_place T MO p m)).
  Proof.
    apply Expr_ind'; intros; cbn [eval_value eval_place]; try (by ac_go).
    - unfold eval_constant. ac_go.
    - apply ac_bind; [|ac_go]. apply ac_map_st. done.
    - apply ac_bind; [ac_go|]. intros [[pl t] m1]. destruct t; try (by ac_go). destruct (negb _); [ac_go|].
      apply ac_bind; [|ac_go]. apply ac_decode_discriminant. intros. unfold load_accessor. ac_go.
    - unfold field_of. ac_go.
  Qed.
  Lemma ac_eval_value e (m : Mach) : acts (eval_value T MO e m).
  Proof. apply ac_eval. Qed.
  Lemma ac_eval_place e (m : Mach) : acts (eval_place T MO e m).
  Proof. apply ac_eval. Qed.
  Hint Resolve ac_eval_value ac_eval_place : act.

  Lemma ac_retag_val fe ty v (m : Mach) : acts (retag_val MO fe ty v m).
  Proof.
    revert v m. induction ty as [it| |pt|fields head u IHf IHu|elem count IHe|elem IHe|fields chunks size align IHf
      |variants dty discr size align IHv|tn] using Ty_ind'; intros v m; cbn [retag_val]; destruct v; try (by ac_go).
    - apply ac_bind; [|ac_go]. clear IHu. revert vals m. induction IHf as [|[o t] fs Hf Hfs IH]; intros [|v vs] m; cbn;
        try (by ac_go).
    - apply ac_bind; [|ac_go]. apply ac_map_st. apply Forall_true. auto.
    - destruct (map_get_with _ _ _) as [r|] eqn:E; [|ac_go]. apply ac_bind; [|ac_go].
      eapply ac_map_get_with; [|exact E]. eapply Forall_impl; [exact IHv|]. intros [k [t tg]] Ht. apply Ht.
  Qed.
  Lemma ac_storage_dead f mem l : acts (storage_dead T MO f mem l).
  Proof. unfold storage_dead. ac_go. Qed.
End Mach.
