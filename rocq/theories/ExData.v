(** A concrete program with assignments, enum tags, calls and atomic accesses, and its states. *)
From Verif Require Export ExSched OwnSpec.

Definition da_arr : Ty := TArray (TInt u32_t) 2.
(** fn second(a: u32, b: [u32; 2]) -> u32 { b[a - 6] } *)
Definition da_second : Function :=
  mkFunction [(0%N, TInt u32_t); (1%N, TInt u32_t); (2%N, da_arr)] [1%N; 2%N] 0%N CcC
    [(0%N, blk [SAssign (PLocal 0) (ELoad (PIndex (PLocal 2) (EBinOp (BInt ISub) (ELoad (PLocal 1)) (u32_e 6))))] TmReturn)] 0%N.
Definition da_x : ValueExpr := EAddrOf (PLocal 1) (PRaw MKNone).
Definition da_start : Function :=
  mkFunction [(0%N, unit_ty); (1%N, TInt u32_t); (2%N, TInt u32_t); (3%N, TBool); (4%N, da_arr); (5%N, ex_enum)] [] 0%N CcC
    [(0%N, blk [SStorageLive 1; SStorageLive 2; SStorageLive 3; SStorageLive 4; SStorageLive 5;
                SAssign (PLocal 1) (u32_e 7); SAssign (PIndex (PLocal 4) (u32_e 1)) (u32_e 5);
                SAssign (PIndex (PLocal 4) (u32_e 0)) (EBinOp (BInt IAdd) (ELoad (PIndex (PLocal 4) (u32_e 1))) (u32_e 4));
                SSetDiscriminant (PLocal 5) 1; SValidate (PLocal 1) false; SDeinit (PLocal 2); SPlaceMention (PLocal 1)]
               (TmSwitch (ELoad (PLocal 1)) [(6, 2%N); (7, 1%N)] 2));
     (1%N, blk [] (TmCall (fn_e 1) CcC [ByValue (ELoad (PLocal 1)); InPlace (PLocal 4)] (PLocal 2) (Some 2%N) None));
     (2%N, blk [] (intr InAtomicCompareExchange [da_x; u32_e 7; u32_e 8] 2 3));
     (3%N, blk [] (intr (InAtomicFetchAndOp ISub) [da_x; u32_e 1] 2 4));
     (4%N, blk [] (intr InAtomicLoad [da_x] 2 5));
     (5%N, blk [] (intr InAtomicStore [da_x; u32_e 3] 0 6));
     (6%N, blk [] (intr InRawEq [EAddrOf (PLocal 1) (PRef Immutable pi4); EAddrOf (PLocal 2) (PRef Immutable pi4)] 3 7));
     (7%N, blk [SStorageDead 5] (TmGoto 8));
     (8%N, blk [] (TmIntrinsic InExit [] (PLocal 0) None))] 0%N.
Definition da_prog : Program := mkProgram [(0%N, da_start); (1%N, da_second)] 0%N [] [] [].
Lemma da_prog_wf : program_check_wf x86_64 da_prog = Ret tt.
Proof. vm_compute. reflexivity. Qed.

Definition da_m0 : MachB := Eval vm_compute in newB da_prog [ChAddr 1; ChAddr 2; ChAddr 5].
Lemma da_m0_new : machine_new x86_64 B64 da_prog [ChAddr 1; ChAddr 2; ChAddr 5] = Ret (da_m0, []).
Proof. vm_compute. reflexivity. Qed.
Definition da_cs : list (list (Choice (nat * unit))) :=
  [[ChThread 0; ChAddr 8192]; [ChThread 0; ChAddr 8196]; [ChThread 0; ChAddr 8200]; [ChThread 0; ChAddr 8204];
   [ChThread 0; ChAddr 8212]] ++ repeat [ChThread 0] 8 ++ [[ChThread 0; ChAddr 8220; ChAddr 8224; ChAddr 8228]] ++ repeat [ChThread 0] 9.
(** the state after [k] steps *)
Definition da_at (k : nat) : MachB := runB (take k da_cs) da_m0.
Example da_end : match run x86_64 B64 da_cs da_m0 with Ret m => m_stdout m = ""%string | _ => False end.
Proof. vm_compute. reflexivity. Qed.

(** ** Checking where a thread is *)

(** what a thread does next *)
Definition next_of (m : MachB) (a : nat) : option (Statement + Terminator) :=
  match m_threads m !! a with
  | Some t => match t_stack t with
    | f :: _ => match map_get (fn_blocks (f_func f)) (f_block f) with
      | Some b => match bb_statements b !! f_stmt f with
        | Some s => Some (inl s)
        | None => if (f_stmt f =? length (bb_statements b))%nat then Some (inr (bb_terminator b)) else None
        end
      | None => None end
    | [] => None end
  | None => None end.
Lemma next_stmt m a s : next_of m a = Some (inl s) -> at_statement m a s.
Proof.
  unfold next_of. destruct (m_threads m !! a) as [t|] eqn:Et; [|done]. destruct (t_stack t) as [|f r] eqn:Es; [done|].
  destruct (map_get _ _) as [b|] eqn:Eb; [|done]. destruct (_ !! f_stmt f) as [s'|] eqn:E.
  - intros [= <-]. exists f, b. split; [by exists t, r|done].
  - by destruct (f_stmt f =? _)%nat.
Qed.
Lemma next_term m a tm : next_of m a = Some (inr tm) -> at_terminator m a tm.
Proof.
  unfold next_of. destruct (m_threads m !! a) as [t|] eqn:Et; [|done]. destruct (t_stack t) as [|f r] eqn:Es; [done|].
  destruct (map_get _ _) as [b|] eqn:Eb; [|done]. destruct (_ !! f_stmt f) as [s'|] eqn:E; [done|].
  destruct (f_stmt f =? _)%nat eqn:El; [|done]. intros [= <-]. exists f, b. split; [by exists t, r|]. by apply Nat.eqb_eq in El.
Qed.

Lemma da_go k : (k < 23)%nat -> reachable x86_64 B64 da_prog (da_at k) /\ steps_to x86_64 B64 (da_at k) (da_at (S k)).
Proof.
  intros Hk. split.
  - apply (reachB da_prog _ (take k da_cs) _ _ _ da_m0_new). do 23 (destruct k as [|k]; [vm_compute; reflexivity|]). lia.
  - exists (List.nth k da_cs []). do 23 (destruct k as [|k]; [vm_compute; reflexivity|]). lia.
Qed.
Lemma da_stmt k s : (k < 23)%nat -> next_of (da_at k) (m_active (da_at (S k))) = Some (inl s) ->
  reachable x86_64 B64 da_prog (da_at k) /\ steps_to x86_64 B64 (da_at k) (da_at (S k)) /\
  at_statement (da_at k) (m_active (da_at (S k))) s.
Proof. intros Hk Hn. destruct (da_go k Hk) as [H1 H2]. split; [done|]. split; [done|]. by apply next_stmt. Qed.
Lemma da_term k tm : (k < 23)%nat -> next_of (da_at k) (m_active (da_at (S k))) = Some (inr tm) ->
  reachable x86_64 B64 da_prog (da_at k) /\ steps_to x86_64 B64 (da_at k) (da_at (S k)) /\
  at_terminator (da_at k) (m_active (da_at (S k))) tm.
Proof. intros Hk Hn. destruct (da_go k Hk) as [H1 H2]. split; [done|]. split; [done|]. by apply next_term. Qed.

(** ** The unwinding program: state after [k] steps *)
Definition uw_cs : list (list (Choice (nat * unit))) := uw_cs1 ++ [[ChThread 0]; [ChThread 0]].
Definition uw_at (k : nat) : MachB := runB (take k uw_cs) uw_m0.
Lemma uw_term k tm : (k < 4)%nat -> next_of (uw_at k) (m_active (uw_at (S k))) = Some (inr tm) ->
  reachable x86_64 B64 uw_prog (uw_at k) /\ steps_to x86_64 B64 (uw_at k) (uw_at (S k)) /\
  at_terminator (uw_at k) (m_active (uw_at (S k))) tm.
Proof.
  intros Hk Hn. split; [|split; [|by apply next_term]].
  - apply (reachB uw_prog _ (take k uw_cs) _ _ _ uw_m0_new). do 4 (destruct k as [|k]; [vm_compute; reflexivity|]). lia.
  - exists (List.nth k uw_cs []). do 4 (destruct k as [|k]; [vm_compute; reflexivity|]). lia.
Qed.
