(** Well-typed MIR that the translation does not handle. *)
From Verif Require Export ExMini.

Definition rt_slice : RTy := 10%N.       (* [u32] *)
Definition rt_slice_ptr : RTy := 11%N.   (* *mut [u32] *)
Definition rt_send : RTy := 12%N.        (* dyn Send *)
Definition rt_send_ptr : RTy := 13%N.    (* *mut dyn Send *)
Definition rt_sub : RTy := 14%N.         (* dyn Sub, where trait Sub : Trait *)
Definition rt_sub_ptr : RTy := 15%N.     (* *mut dyn Sub *)
Definition rt_one : RTy := 16%N.         (* (u32,) *)

(** a compiler with the body [b] as entry function, which may call functions that just return *)
Definition bad_rustc (b : RBody) : Rustc := {|
  rc_ty r := match r with
             | 10 => Some (TSlice (TInt (mkIntTy Unsigned 4))) | 11 => Some (TPtr (PRaw MKElementCount))
             | 12 => Some (TTraitObject 1) | 13 => Some (TPtr (PRaw (MKVTablePointer 1)))
             | 14 => Some (TTraitObject 2) | 15 => Some (TPtr (PRaw (MKVTablePointer 2)))
             | 16 => Some (b_tuple_ty [(0, TInt (mkIntTy Unsigned 4))] 4 (mkAlign 2))
             | _ => rc_ty ex_rustc r
             end%N;
  rc_deref r := match r with 11 => Some 10 | 13 => Some 12 | 15 => Some 14 | _ => rc_deref ex_rustc r end%N;
  rc_elem r := match r with 10 => Some 1 | _ => None end%N;
  rc_fields r := match r with 16 => Some [1] | _ => rc_fields ex_rustc r end%N;
  rc_size := rc_size ex_rustc;
  rc_pointee := rc_pointee ex_rustc;
  rc_dyn r := match r with 12 => Some 1 | 14 => Some 2 | _ => rc_dyn ex_rustc r end%N;
  rc_discr := rc_discr ex_rustc;
  rc_unsize a b := match a, b with 1, 14 => UsDyn | _, _ => rc_unsize ex_rustc a b end%N;
  rc_alloc := rc_alloc ex_rustc;
  rc_vtable r tn := match r, tn with
                    | 1, 2 => Some (4, mkAlign 2, [], [VeDrop 2; VeOther; VeOther; VeMethod 4; VeMethod 4])
                    | _, _ => rc_vtable ex_rustc r tn
                    end%N;
  rc_bool := rc_bool ex_rustc;
  rc_ordering := None;
  rc_unwinds := true;
  rc_checks _ := true;
  rc_body i := match i with 0 => Some b | 2 => Some ex_drop | 4 => Some ex_method | _ => None end%N;
  rc_traits := [(0%N, Some (3%N, 1%nat)); (1%N, None); (2%N, Some (4%N, 1%nat))];
|}.
Lemma bad_enough b : enough (bad_rustc b) 2.
Proof. apply ex_enough. Qed.
Ltac cases5 r H := destruct r as [|r]; [|do 5 (try (destruct r as [r|r|]))]; cbn in H; first [discriminate H|injection H as <-].
Lemma bad_rustc_ok b : rustc_ok x86_64 (bad_rustc b).
Proof.
  split.
  - intros r t H. cases5 r H; vm_compute; reflexivity.
  - done.
  - done.
  - done.
  - intros r tn t H. cases5 r H; (split; [reflexivity|]; by intros [= <-]).
  - intros r tn size al cells es H. destruct r as [|[r|r|]]; try done; destruct tn as [|[[?|?|]|[?|?|]|]]; try done; injection H as <- <- <- <-;
    (split_and!; [done..|]); intros [|[|[|[|[|i]]]]] f Hf; by try discriminate Hf.
  - apply (ro_alloc _ _ ex_rustc_ok).
Qed.
Lemma bad_small_ok b i b' : body_ok x86_64 (bad_rustc b) b -> rc_body (bad_rustc b) i = Some b' -> body_ok x86_64 (bad_rustc b) b'.
Proof.
  intros Hb H. destruct i as [|i]; [by injection H as <-|]. do 3 (try (destruct i as [i|i|])); cbn in H; try discriminate H; injection H as <-;
  mir_small; try (by repeat constructor).
  repeat (apply Forall_cons; split); [|constructor]. eapply so_assign; [mir_spl|]. apply rk_use.
  exists rt_bool. apply (oo_const _ _ _ (CvBool rt_bool true)); [|mir_sized]. by constructor.
Qed.
Lemma bad_ok b : body_ok x86_64 (bad_rustc b) b -> mir_ok x86_64 (bad_rustc b).
Proof. intros H. split; [apply bad_rustc_ok|]. intros i b' Hb. by eapply bad_small_ok. Qed.

Ltac bad_blocks := 
  split;
  [let l := fresh in intros l ? ? ? ?; do 5 (destruct l as [|l]; [repeat match goal with H : _ = Some _ |- _ => first [discriminate H|injection H as <-] end; mir_sized|]; try done)
  |cbn; lia
  |try done
  |let l := fresh in let H := fresh in intros l H; cbn; repeat (apply elem_of_cons in H as [->|H]; [lia|]); by apply elem_of_nil in H
  |by eexists
  |let b := fresh in let H := fresh in intros b H; repeat (apply elem_of_cons in H as [->|H]); try (by apply elem_of_nil in H); cbn [rb_stmts rb_cleanup rb_term]; (split; [try apply Forall_nil_2|try (by constructor)])].

(** an assertion in a cleanup block *)
Definition bad_assert : RBody := mkRBody [rt_unit; rt_ptr; rt_bool] 0 None [0; 1; 2]%nat
  [ mkRBlock [] (MtCall (CeFn (Some CcRust) false 2%N) [OpCopy (loc 1)] (loc 0) (Some 1%nat) (UwCleanup 2)) false;
    mkRBlock [] MtReturn false;
    mkRBlock [] (MtAssert (OpCopy (loc 2)) true 3 UwTerminate) true;
    mkRBlock [] MtResume true ] (Some CcRust).
Lemma bad_assert_ok : mir_ok x86_64 (bad_rustc bad_assert).
Proof.
  apply bad_ok. bad_blocks.
  - constructor. eapply ko_fn; [|mir_spl|by eexists|split; [done|by eexists]]. split; [|done]. repeat constructor. do 2 eexists. eapply oo_copy. mir_spl.
  - eapply to_assert; [|by eexists|done]. eexists. eapply oo_copy. mir_spl.
Qed.
(** catch_unwind in a cleanup block *)
Definition bad_catch : RBody := mkRBody [rt_unit; rt_ptr; rt_fn; rt_i32] 0 None [0; 1; 2; 3]%nat
  [ mkRBlock [] (MtCall (CeFn (Some CcRust) false 2%N) [OpCopy (loc 1)] (loc 0) (Some 1%nat) (UwCleanup 2)) false;
    mkRBlock [] MtReturn false;
    mkRBlock [] (MtCall (CeIntrinsic RiCatchUnwind) [OpCopy (loc 2); OpCopy (loc 1); OpCopy (loc 2)] (loc 3) (Some 3%nat) UwTerminate) true;
    mkRBlock [] MtResume true ] (Some CcRust).
Lemma bad_catch_ok : mir_ok x86_64 (bad_rustc bad_catch).
Proof.
  apply bad_ok. bad_blocks.
  - constructor. eapply ko_fn; [|mir_spl|by eexists|split; [done|by eexists]]. split; [|done]. repeat constructor. do 2 eexists. eapply oo_copy. mir_spl.
  - constructor. constructor. eapply io_catch; [| | |mir_spl|by eexists]; (eexists; eapply oo_copy; mir_spl).
Qed.
(** dropping a slice; a trait object of an auto trait *)
Definition bad_drop (ptr : RTy) : RBody := mkRBody [rt_unit; ptr] 0 None [0; 1]%nat
  [ mkRBlock [] (MtDrop (deref 1) 2%N 1 UwContinue) false; mkRBlock [] MtReturn false ] (Some CcRust).
Lemma bad_drop_slice_ok : mir_ok x86_64 (bad_rustc (bad_drop rt_slice_ptr)).
Proof. apply bad_ok. bad_blocks. eapply to_drop; [mir_place|by eexists|done]. Qed.
Lemma bad_drop_send_ok : mir_ok x86_64 (bad_rustc (bad_drop rt_send_ptr)).
Proof. apply bad_ok. bad_blocks. eapply to_drop; [mir_place|by eexists|done]. Qed.
(** making a trait object of a trait with a supertrait *)
Definition bad_unsize : RBody := mkRBody [rt_unit; rt_ptr; rt_sub_ptr] 0 None [0; 1; 2]%nat
  [ mkRBlock [MsAssign (loc 2) (RvCast CkUnsize (OpCopy (loc 1)) rt_sub_ptr)] MtReturn false ] (Some CcRust).
Lemma bad_unsize_ok : mir_ok x86_64 (bad_rustc bad_unsize).
Proof.
  apply bad_ok. bad_blocks. apply Forall_singleton. eapply so_assign; [mir_spl|]. eapply rk_unsize; [eapply oo_copy; mir_spl|reflexivity..|]. by eapply us_dyn.
Qed.
(** calling a method of the supertrait *)
Definition bad_virtual : RBody := mkRBody [rt_unit; rt_sub_ptr; rt_bool] 0 None [0; 1; 2]%nat
  [ mkRBlock [] (MtCall (CeVirtual (Some CcRust) false 3%N) [OpCopy (loc 1)] (loc 2) (Some 1%nat) UwContinue) false; mkRBlock [] MtReturn false ] (Some CcRust).
Lemma bad_virtual_ok : mir_ok x86_64 (bad_rustc bad_virtual).
Proof.
  apply bad_ok. bad_blocks. constructor. eapply ko_virtual; [eexists; eapply oo_copy; mir_spl|reflexivity| |done|mir_spl|by eexists|done].
  split; [|done]. repeat constructor. do 2 eexists. eapply oo_copy. mir_spl.
Qed.
(** calling a closure with a constant tuple *)
Definition bad_spread : RBody := mkRBody [rt_unit; rt_bool] 0 None [0; 1]%nat
  [ mkRBlock [] (MtCall (CeFn (Some CcRust) true 2%N) [OpConst (CvFields rt_one [CvScalar rt_u32 7])] (loc 1) (Some 1%nat) UwContinue) false; mkRBlock [] MtReturn false ] (Some CcRust).
Lemma bad_spread_ok : mir_ok x86_64 (bad_rustc bad_spread).
Proof.
  apply bad_ok. bad_blocks. constructor.
  assert (Ho : operand_ok x86_64 (bad_rustc bad_spread) bad_spread (OpConst (CvFields rt_one [CvScalar rt_u32 7])) rt_one (b_tuple_ty [(0%N, TInt (mkIntTy Unsigned 4))] 4 (mkAlign 2))).
  { apply (oo_const _ _ _ (CvFields rt_one [CvScalar rt_u32 7])); [|mir_sized]. apply MirSpec.co_tuple; [reflexivity|]. repeat constructor. }
  eapply ko_fn; [|mir_spl|by eexists|done]. split.
  - repeat constructor. eexists. by eexists.
  - intros _ o [= <-]. do 3 eexists. split; [exact Ho|]. split; [reflexivity|].
    intros [|i] r' Hr; [injection Hr as <-|done]. eexists. split_and!; [reflexivity|reflexivity|mir_sized].
Qed.

Definition bad_result (b : RBody) : option Program := match mini_program 10 2 (bad_rustc b) 0 with Ret P => Some P | _ => None end.
Definition bad_prog (b : RBody) : Program := default ex_program (bad_result b).
Lemma bad_translated b P : bad_result b = Some P -> translated 2 (bad_rustc b) x86_64 0 P.
Proof. unfold bad_result. destruct (mini_program _ _ _ _) as [Q| | |] eqn:E; try done. intros [= <-]. by eapply mini_translated. Qed.
