(** A program in MIR, with constants, a vtable, an assertion, a drop, a virtual call and catch_unwind, and its translation. *)
From Verif Require Export MiniProg.

(** ** The translation, as a function: functions in the order of their names, blocks in order *)
Fixpoint mono_run (rounds fuel : nat) (R : Rustc) (c : Cx) (fns : list (FnName * Function)) : Outcome (Cx * list (FnName * Function)) :=
  match rounds with
  | O => NoBehavior
  | S rounds =>
      match List.find (fun x => bool_decide (map_get (cx_fns c) (fst x) = Some (snd x)) && negb (map_contains fns (snd x))) (cx_fns c) with
      | None => Ret (c, fns)
      | Some (i, n) =>
          let! b := ask (rc_body R i) in
          let! ' (f, c') := translate_body fuel R x86_64 c (seq 0 (length (ro_blocks b))) b in
          mono_run rounds fuel R c' (map_insert fns n f)
      end
  end.
Definition mini_program (rounds fuel : nat) (R : Rustc) (entry : Inst) : Outcome Program :=
  let! ' (c, fns) := mono_run rounds fuel R (cx_init entry) [] in
  let start := N.of_nat (length (cx_fns c)) in
  Ret (mkProgram (map_insert fns start (mk_start_fn 0)) start (cx_globals c) (traits_of R) (cx_vtables c)).

Lemma mono_run_rtc rounds fuel R c fns c' fns' : mono_run rounds fuel R c fns = Ret (c', fns') ->
  rtc (mono fuel R x86_64) (c, fns) (c', fns') /\ forall i n, map_get (cx_fns c') i = Some n -> is_Some (map_get fns' n).
Proof.
  revert c fns. induction rounds as [|rounds IH]; intros c fns H; [done|]. cbn [mono_run] in H.
  destruct (List.find _ (cx_fns c)) as [[i n]|] eqn:E.
  - apply obind_ret in H as (b & Hb & H). apply obind_ret in H as ([f c1] & Ht & H).
    apply find_some in E as [Hin E]. apply andb_true_iff in E as [Ei E]. apply bool_decide_eq_true in Ei. apply negb_true_iff in E.
    unfold map_contains in E. cbn [fst snd] in *.
    destruct (map_get fns n) eqn:En; [done|]. destruct (rc_body R i) as [b'|] eqn:Eb; [|done]. injection Hb as ->.
    destruct (IH c1 (map_insert fns n f) H) as [H1 H2]. split; [|done]. by eapply rtc_l; [|done]; econstructor.
  - injection H as <- <-. split; [done|]. intros i n Hi. pose proof (map_get_in _ _ _ Hi) as Hin. apply (find_none _ _ E) in Hin. cbn [fst snd] in Hin.
    rewrite bool_decide_eq_true_2 in Hin by done. apply negb_false_iff in Hin. unfold map_contains in Hin. by destruct (map_get fns n).
Qed.
Lemma mini_translated rounds fuel R entry P : mini_program rounds fuel R entry = Ret P -> translated fuel R x86_64 entry P.
Proof.
  unfold mini_program. intros H. apply obind_ret in H as ([c fns] & H & HP). injection HP as <-. apply mono_run_rtc in H as [H1 H2]. exists c, fns. by split_and!.
Qed.

(** ** The program *)
Definition rt_unit : RTy := 0%N.
Definition rt_u32 : RTy := 1%N.
Definition rt_bool : RTy := 2%N.
Definition rt_ptr : RTy := 3%N.       (* *mut u32 *)
Definition rt_i32 : RTy := 4%N.
Definition rt_fn : RTy := 5%N.
Definition rt_dyn : RTy := 6%N.       (* dyn Trait *)
Definition rt_dyn_ptr : RTy := 7%N.   (* *mut dyn Trait *)
Definition rt_ptr_ptr : RTy := 8%N.   (* *mut *mut u32 *)
Definition rt_pair : RTy := 9%N.      (* (u32, *mut u32) *)

Definition loc (l : RLocal) : RPlace := mkRPlace l [].
Definition deref (l : RLocal) : RPlace := mkRPlace l [PjDeref].

Definition ex_main : RBody := mkRBody
  [rt_unit; rt_u32; rt_bool; rt_ptr; rt_i32; rt_dyn_ptr; rt_ptr_ptr; rt_fn; rt_fn; rt_pair] 0 None [0; 1; 2; 3; 4; 5; 7; 8; 9]%nat
  [ mkRBlock [ MsStorageLive 6;
               MsAssign (loc 6) (RvUse (OpConst (CvPtr rt_ptr_ptr (Some 0%N) 0 None)));
               MsAssign (loc 3) (RvUse (OpCopy (deref 6)));
               MsAssign (loc 5) (RvCast CkUnsize (OpCopy (loc 3)) rt_dyn_ptr);
               MsAssign (loc 9) (RvAggregate (mkAgg None None) rt_pair [OpConst (CvScalar rt_u32 7); OpCopy (loc 3)]) ]
      (MtCall (CeFn (Some CcRust) true 1%N) [OpMove (loc 9)] (loc 2) (Some 1%nat) (UwCleanup 4)) false;
    mkRBlock [] (MtAssert (OpCopy (loc 2)) true 2 UwContinue) false;
    mkRBlock [ MsAssign (loc 7) (RvCast (CkFnPtr 3%N) (OpCopy (loc 7)) rt_fn);
               MsAssign (loc 8) (RvCast (CkFnPtr 5%N) (OpCopy (loc 8)) rt_fn) ]
      (MtCall (CeIntrinsic RiCatchUnwind) [OpCopy (loc 7); OpCopy (loc 3); OpCopy (loc 8)] (loc 4) (Some 3%nat) UwContinue) false;
    mkRBlock [] (MtCall (CeVirtual (Some CcRust) false 3%N) [OpCopy (loc 5)] (loc 2) (Some 5%nat) UwContinue) false;
    mkRBlock [] MtResume true;
    mkRBlock [] (MtSwitch (OpCopy (loc 4)) [(1, 6%nat)] 7) false;
    mkRBlock [] (MtDrop (deref 5) 2%N 7 UwContinue) false;
    mkRBlock [ MsStorageDead 6 ] MtReturn false ] (Some CcRust).
(** a closure: its arguments come one by one *)
Definition ex_eq : RBody := mkRBody [rt_bool; rt_pair] 1 (Some 1%nat) [0%nat]
  [ mkRBlock [ MsAssign (loc 0) (RvBinary RoEq (OpCopy (mkRPlace 1 [PjField 0 rt_u32])) (OpCopy (mkRPlace 1 [PjField 1 rt_ptr; PjDeref]))) ] MtReturn false ] (Some CcRust).
Definition ex_drop : RBody := mkRBody [rt_unit; rt_ptr] 1 None [0; 1]%nat [mkRBlock [] MtReturn false] (Some CcRust).
Definition ex_try : RBody := mkRBody [rt_unit; rt_ptr] 1 None [0; 1]%nat
  [mkRBlock [] (MtCall CePanic [] (loc 0) None UwContinue) false] (Some CcRust).
Definition ex_method : RBody := mkRBody [rt_bool; rt_ptr] 1 None [0; 1]%nat
  [mkRBlock [MsAssign (loc 0) (RvUse (OpConst (CvBool rt_bool true)))] MtReturn false] (Some CcRust).
Definition ex_catch : RBody := mkRBody [rt_unit; rt_ptr; rt_ptr] 2 None [0; 1; 2]%nat [mkRBlock [] MtReturn false] (Some CcRust).

Definition zero_byte : option byte := Some "000"%byte.
Definition ex_rustc : Rustc := {|
  rc_ty r := match r with
             | 0 => Some unit_ty | 1 => Some (TInt (mkIntTy Unsigned 4)) | 2 => Some TBool | 3 | 8 => Some (TPtr (PRaw MKNone))
             | 4 => Some (TInt (mkIntTy Signed 4)) | 5 => Some (TPtr PFnPtr) | 6 => Some (TTraitObject 0) | 7 => Some (TPtr (PRaw (MKVTablePointer 0)))
             | 9 => Some (b_tuple_ty [(0, TInt (mkIntTy Unsigned 4)); (8, TPtr (PRaw MKNone))] 16 (mkAlign 3))
             | _ => None
             end%N;
  rc_deref r := match r with 3 => Some 1 | 7 => Some 6 | 8 => Some 3 | _ => None end%N;
  rc_elem _ := None;
  rc_fields r := match r with 9 => Some [1; 3] | _ => None end%N;
  rc_size _ := None;
  rc_pointee _ := None;
  rc_dyn r := match r with 6 => Some 0 | _ => None end%N;
  rc_discr _ _ := None;
  rc_unsize a b := match a, b with 1, 6 => UsDyn | _, _ => UsNo end%N;
  rc_alloc a := match a with
                | 0 => Some (mkRAlloc (repeat zero_byte 8) [(0, 1)] (mkAlign 3))
                | 1 => Some (mkRAlloc [Some "007"%byte; zero_byte; zero_byte; zero_byte] [] (mkAlign 2))
                | _ => None
                end%N;
  rc_vtable r tn := match r, tn with 1, 0 => Some (4, mkAlign 2, [], [VeDrop 2; VeOther; VeOther; VeMethod 4]) | _, _ => None end%N;
  rc_bool := 2%N;
  rc_ordering := None;
  rc_unwinds := true;
  rc_checks _ := true;
  rc_body i := match i with 0 => Some ex_main | 1 => Some ex_eq | 2 => Some ex_drop | 3 => Some ex_try | 4 => Some ex_method | 5 => Some ex_catch | _ => None end%N;
  rc_traits := [(0%N, Some (3%N, 1%nat))];
|}.

Definition ex_program : Program := match mini_program 10 2 ex_rustc 0 with Ret P => P | _ => mkProgram [] 0 [] [] [] end.
Lemma ex_program_eq : mini_program 10 2 ex_rustc 0 = Ret ex_program.
Proof. vm_compute. reflexivity. Qed.

(** ** It satisfies what is assumed of MIR *)
Lemma ex_enough : enough ex_rustc 2.
Proof. exists [0%N; 1%N]. split; [|done]. intros a d H. destruct a as [|[a|a|]]; try done; set_solver. Qed.
Ltac cases r H := destruct r as [|r]; [|do 4 (try (destruct r as [r|r|]))]; cbn in H; first [discriminate H|injection H as <-].
Lemma ex_rustc_ok : rustc_ok x86_64 ex_rustc.
Proof.
  split.
  - intros r t H. cases r H; vm_compute; reflexivity.
  - done.
  - done.
  - done.
  - intros r tn t H. cases r H. split; [reflexivity|]. by intros [= <-].
  - intros r tn size al cells es H. destruct r as [|[r|r|]]; try done; destruct tn; try done. injection H as <- <- <- <-.
    split_and!; [done..|]. intros [|[|[|[|i]]]] f Hf; by try discriminate Hf.
  - intros a d off a' H Hin. destruct a as [|[a|a|]]; try done; injection H as <-; cbn in Hin; [|by apply elem_of_nil in Hin].
    apply elem_of_list_singleton in Hin. injection Hin as -> ->. split; [done|]. exists (repeat "000"%byte 8). split; [done|].
    eexists. split; [reflexivity|]. vm_compute. discriminate.
Qed.
Ltac mir_sized := eexists; split; [vm_compute; reflexivity|reflexivity].
Ltac mir_place := split; cycle 1;
  [do 2 eexists; split_and!; [reflexivity|reflexivity|]; cbn;
   repeat (first [apply po_nil|eapply po_cons; [first [eapply po_deref; reflexivity|eapply po_field; reflexivity]|]])
  |reflexivity].
Ltac mir_spl := split; [mir_place|mir_sized].
Lemma ex_main_ok : body_ok x86_64 ex_rustc ex_main.
Proof.
  split.
  - intros l r t H Ht. do 10 (destruct l as [|l]; [injection H as <-; injection Ht as <-; mir_sized|]). done.
  - cbn. lia.
  - done.
  - intros l H. cbn. repeat (apply elem_of_cons in H as [->|H]; [lia|]). by apply elem_of_nil in H.
  - by eexists.
  - intros b H. repeat (apply elem_of_cons in H as [->|H]); [..|by apply elem_of_nil in H]; cbn [rb_stmts rb_cleanup rb_term].
    + split; [repeat (apply Forall_cons; split)|]; [| | | | |constructor|].
      * apply so_live. cbn. lia.
      * eapply so_assign; [mir_spl|]. apply rk_use. exists rt_ptr_ptr. apply (oo_const _ _ _ (CvPtr rt_ptr_ptr (Some 0%N) 0 None)); [|mir_sized].
        eapply co_alloc; [reflexivity..|done|done].
      * eapply so_assign; [mir_spl|]. apply rk_use. eexists. eapply oo_copy. mir_spl.
      * eapply so_assign; [mir_spl|]. eapply rk_unsize; [eapply oo_copy; mir_spl|reflexivity..|]. by eapply us_dyn.
      * eapply so_assign; [mir_spl|]. eapply rk_tuple; [reflexivity|]. cbn [List.map snd]. repeat constructor.
        -- exists rt_u32. apply (oo_const _ _ _ (CvScalar rt_u32 7)); [|mir_sized]. by constructor.
        -- eexists. eapply oo_copy. mir_spl.
      * constructor. eapply ko_fn; [|mir_spl|by eexists|split; [done|by eexists]]. split.
        -- repeat constructor. do 2 eexists. eapply oo_move. mir_spl.
        -- intros _ o [= <-]. do 3 eexists. split; [eapply oo_move; mir_spl|]. split; [reflexivity|].
           intros [|[|i]] r' Hr; [injection Hr as <-..|done]; (eexists; split_and!; [reflexivity|reflexivity|mir_sized]).
    + split; [constructor|]. eapply to_assert; [|by eexists|done]. eexists. eapply oo_copy. mir_spl.
    + split; [repeat (apply Forall_cons; split)|]; [| |constructor|].
      * eapply so_assign; [mir_spl|]. eapply rk_fn.
      * eapply so_assign; [mir_spl|]. eapply rk_fn.
      * constructor. constructor. eapply io_catch; [| | |mir_spl|by eexists]; (eexists; eapply oo_copy; mir_spl).
    + split; [constructor|]. constructor. eapply ko_virtual; [eexists; eapply oo_copy; mir_spl|reflexivity| |done|mir_spl|by eexists|done].
      split; [|done]. repeat constructor. do 2 eexists. eapply oo_copy. mir_spl.
    + split; [constructor|]. by constructor.
    + split; [constructor|]. eapply to_switch; [eexists; eapply oo_copy; mir_spl| |by eexists]. repeat constructor. by eexists.
    + split; [constructor|]. eapply to_drop; [mir_place|by eexists|done].
    + split; [|by constructor]. repeat constructor; cbn; lia.
Qed.
Ltac mir_small :=
  split;
  [let l := fresh in intros l ? ? ? ?; do 3 (destruct l as [|l]; [repeat match goal with H : _ = Some _ |- _ => first [discriminate H|injection H as <-] end; mir_sized|]; try done)
  |cbn; lia
  |try done
  |let l := fresh in let H := fresh in intros l H; cbn; repeat (apply elem_of_cons in H as [->|H]; [lia|]); by apply elem_of_nil in H
  |by eexists
  |let b := fresh in let H := fresh in intros b H; apply elem_of_list_singleton in H as ->; cbn [rb_stmts rb_cleanup rb_term]; split].
Lemma ex_bodies_ok i b : rc_body ex_rustc i = Some b -> body_ok x86_64 ex_rustc b.
Proof.
  intros H. cases i H; [apply ex_main_ok|..]; mir_small; try (by repeat constructor).
  - repeat (apply Forall_cons; split); [|constructor]. eapply so_assign; [mir_spl|]. apply rk_use.
    exists rt_bool. apply (oo_const _ _ _ (CvBool rt_bool true)); [|mir_sized]. by constructor.
  - intros l [= <-]. cbn. split; [lia|]. do 2 eexists. split_and!; [reflexivity|reflexivity|].
    intros t i r' t' [= <-] Hi Ht. destruct i as [|[|i]]; [injection Hi as <-; injection Ht as <-..|done]; (split; [reflexivity|mir_sized]).
  - repeat (apply Forall_cons; split); [|constructor]. eapply so_assign; [mir_spl|].
    eapply rk_rel; [reflexivity|..]; [|eexists; eapply oo_copy; mir_spl..]. reflexivity.
Qed.
(** the only trait object types and pointers to them *)
Lemma ex_dyn r t tn : rc_ty ex_rustc r = Some (TPtr t) -> ptr_meta_kind t = MKVTablePointer tn -> tn = 0%N.
Proof. intros H Hm. assert (exists u, rc_ty ex_rustc r = Some u /\ u = TPtr t) as (u & Hu & He) by eauto. clear H. cases r Hu; first [discriminate He|injection He as <-; cbn in Hm; congruence]. Qed.
Lemma ex_covered i b : rc_body ex_rustc i = Some b -> covered x86_64 ex_rustc b.
Proof.
  intros H. cases i H; intros k Hk; repeat (apply elem_of_cons in Hk as [->|Hk]); try (by apply elem_of_nil in Hk); cbn [rb_term rb_cleanup]; try done.
  - split; [|done]. intros _ o [= <-]. eauto.
  - split; [done|]. intros pt tn [r Ho] Hm. inversion Ho as [|p r' t Hp| |]; subst. destruct Hp as [[Hr _] _]. apply (ex_dyn _ _ _ Hr) in Hm as ->.
    eexists. split; [reflexivity|]. set_solver.
  - intros r t (Hr & r0 & t0 & H0 & Ht0 & Hps). injection H0 as <-. injection Ht0 as <-.
    inversion Hps as [|x p y ps z Hp Hps']; subst. inversion Hps'; subst. inversion Hp as [|r1 pt r' t' Hd Hr' Hm| | | |]; subst. injection Hd as <-.
    injection Hr' as <-. cbn. eexists. split; [reflexivity|]. set_solver.
Qed.
Lemma ex_covered_vtables : covered_vtables ex_rustc.
Proof.
  intros r tn size al cells es H. destruct r as [|[r|r|]]; try done; destruct tn; try done. injection H as <- <- <- <-. eexists. split; [reflexivity|]. cbn. intros m. set_solver.
Qed.
