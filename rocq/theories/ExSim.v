(** Examples for the theorems about related machines. *)
From Verif Require Export ExSafe ExMach ExData SimSpec.
Local Open Scope Z_scope.

(** a mutable reference to a local is used after the local itself has been written *)
Definition al_ref : PtrType := PRef Mutable (mkPointee (LSized 4 (mkAlign 2)) true (CSized []) true true).
Definition al_prog : Program :=
  mkProgram
    [(0%N, main [(0%N, unit_ty); (1%N, TInt u32_t); (2%N, TPtr al_ref)]
       [(0%N, blk [SStorageLive 1; SStorageLive 2; SAssign (PLocal 1) (u32_e 5);
                   SAssign (PLocal 2) (EAddrOf (PLocal 1) al_ref); SAssign (PLocal 1) (u32_e 6);
                   SAssign (PDeref (ELoad (PLocal 2)) (TInt u32_t)) (u32_e 7)]
                (TmIntrinsic InExit [] (PLocal 0) None))])]
    0%N [] [] [].
Definition al_new {P} : list (Choice P) := [ChAddr 1; ChAddr 8].
Definition al_cs {P} : list (list (Choice P)) := [[ChThread 0; ChAddr 16]; [ChThread 0; ChAddr 32]; [ChThread 0]; [ChThread 0]; [ChThread 0]].
Definition al_t0 : MachT := Eval vm_compute in fst (out (m_dummyT, []) (machine_new x86_64 (TreeOps x86_64) al_prog al_new)).
Definition al_t : MachT := Eval vm_compute in out m_dummyT (run x86_64 (TreeOps x86_64) al_cs al_t0).
Definition al_b : MachB := Eval vm_compute in runB al_cs (newB al_prog al_new).
Lemma al_t_reach : reachable x86_64 (TreeOps x86_64) al_prog al_t.
Proof.
  eapply run_reachable; [constructor; exists al_new, []; instantiate (1 := al_t0); vm_compute; reflexivity|].
  instantiate (1 := al_cs). vm_compute. reflexivity.
Qed.

(** every uninitialised byte set to zero *)
Definition fill_byte (b : AByte (nat * unit)) : AByte (nat * unit) := match b with Uninit => Init x00 None | _ => b end.
Definition fill (mem : BMem unit unit) : BMem unit unit :=
  List.map (fun a => mkAlloc (List.map fill_byte (al_data a)) (al_addr a) (al_align a) (al_kind a) (al_live a) tt) mem.
Lemma fill_init mem : more_init mem (fill mem).
Proof.
  apply Forall2_fmap_r, Forall_Forall2_diag, Forall_true. intros a. simpl. do 4 (split; [done|]). split; [by rewrite map_length|].
  intros i x y Hx Hy. change (List.map fill_byte (al_data a)) with (fill_byte <$> al_data a) in Hy.
  rewrite list_lookup_fmap, Hx in Hy. simpl in Hy. injection Hy as <-. destruct x; auto.
Qed.
Lemma run_runs {P F M} `{EqDecision P} T (MO : MemOps P F M) css m m' : run T MO css m = Ret m' -> runs T MO m css m'.
Proof.
  unfold run. revert m. induction css as [|cs css IH]; intros m H; cbn in H; [injection H as <-; constructor|].
  apply obind_ret in H as (m1 & H1 & H). econstructor; [done|]. by apply IH.
Qed.
