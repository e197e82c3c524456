(** Statements and terminators: a reader for their printed text, and that it gets them back. *)
From Coq Require Import Ascii String DecimalString.
From Verif Require Export PrettyBack.
Local Open Scope string_scope.

(** ** The reader *)

Definition read_flag : Reader bool := alt [("true", fun r => Some (true, r)); ("false", fun r => Some (false, r))] (fun _ => None).
Definition read_next : Reader (option BbName * option BbName) :=
  alt [(" -> [return: bb", fun r => let* a, r := read_nat r in expect ", unwind: bb" r (fun r => let* b, r := read_nat r in
          expect "]" r (fun r => Some ((Some a, Some b), r))));
       (" -> return: bb", fun r => let* a, r := read_nat r in Some ((Some a, None), r));
       (" -> unwind: bb", fun r => let* a, r := read_nat r in Some ((None, Some a), r))] (fun r => Some ((None, None), r)).
Definition case_end : string := "," ++ newline ++ "      ".
Fixpoint read_cases (k : nat) : Reader (list (Z * BbName) * BbName) := fun s =>
  match k with
  | O => None
  | S k => alt [("otherwise: bb", fun r => let* b, r := read_nat r in Some (([], b), r))]
             (fun s => let* i, r := read_int s in expect ": bb" r (fun r => let* b, r := read_nat r in
                expect case_end r (fun r => let* l, r := read_cases k r in Some (((i, b) :: fst l, snd l), r)))) s
  end.
Definition intrinsics : list IntrinsicOp :=
  [InAbort; InAssume; InExit; InPrintStdout; InPrintStderr; InAllocate; InDeallocate; InSpawn; InJoin; InRawEq; InAtomicStore; InAtomicLoad;
   InAtomicCompareExchange; InAtomicFetchAndOp IAdd; InAtomicFetchAndOp ISub; InLock LkAcquire; InLock LkCreate; InLock LkRelease;
   InPointerExposeProvenance; InPointerWithExposedProvenance; InGetUnwindPayload].

Section Read.
  Variable F : list Ty.
  Definition read_stmt (n : nat) : Reader Statement :=
    alt [("    _ = ", fun r => let* p, r := read_place F n r in expect ";" r (fun r => Some (SPlaceMention p, r)));
         ("    discriminant(", fun r => let* p, r := read_place F n r in expect ") = " r (fun r => let* d, r := read_int r in
            expect ";" r (fun r => Some (SSetDiscriminant p d, r))));
         ("    validate(", fun r => let* p, r := read_place F n r in expect ", " r (fun r => let* b, r := read_flag r in
            expect ");" r (fun r => Some (SValidate p b, r))));
         ("    deinit(", fun r => let* p, r := read_place F n r in expect ");" r (fun r => Some (SDeinit p, r)));
         ("    storage_live(_", fun r => let* l, r := read_nat r in expect ");" r (fun r => Some (SStorageLive l, r)));
         ("    storage_dead(_", fun r => let* l, r := read_nat r in expect ");" r (fun r => Some (SStorageDead l, r)));
         ("    ", fun r => let* p, r := read_place F n r in expect " = " r (fun r => let* e, r := read_value F n r in
            expect ";" r (fun r => Some (SAssign p e, r))))] (fun _ => None).
  Definition read_arg (n : nat) : Reader ArgumentExpr :=
    alt [("by-value(", fun r => let* e, r := read_value F n r in expect ")" r (fun r => Some (ByValue e, r)));
         ("in-place(", fun r => let* p, r := read_place F n r in expect ")" r (fun r => Some (InPlace p, r)))] (fun _ => None).
  Definition read_call (n : nat) (conv : CallingConvention) (p : PlaceExpr) : Reader Terminator := fun r =>
    let* c, r := read_atom F n r in
    expect "(" r (fun r => let* l, r := read_list (read_arg n) n ")" r in let* b, r := read_next r in
      expect ";" r (fun r => Some (TmCall c conv l p (fst b) (snd b), r))).
  Definition read_intrinsic (n : nat) (p : PlaceExpr) (op : IntrinsicOp) : Reader Terminator := fun r =>
    let* l, r := read_list (read_value F n) n ")" r in let* b, r := read_next r in
      expect ";" r (fun r => Some (TmIntrinsic op l p (fst b), r)).
  Definition read_term (n : nat) : Reader Terminator :=
    alt [("    goto -> bb", fun r => let* b, r := read_nat r in expect ";" r (fun r => Some (TmGoto b, r)));
         ("    switch(", fun r => let* e, r := read_value F n r in expect (") -> [" ++ newline ++ "      ") r (fun r => let* c, r := read_cases n r in
            expect (newline ++ "    ];") r (fun r => Some (TmSwitch e (fst c) (snd c), r))));
         ("    unreachable;", fun r => Some (TmUnreachable, r));
         ("    return;", fun r => Some (TmReturn, r));
         ("    start unwind(", fun r => let* e, r := read_value F n r in expect ") -> unwind: bb" r (fun r => let* b, r := read_nat r in
            expect " " r (fun r => Some (TmStartUnwind e b, r))));
         ("    start unwind -> unwind: bb", fun r => let* b, r := read_nat r in expect " " r (fun r => Some (TmStopUnwind b, r)));
         ("    resume", fun r => Some (TmResumeUnwind, r));
         ("    ", fun r => let* p, r := read_place F n r in expect " = " r (fun r =>
            alt ((fmt_conv CcC, read_call n CcC p) :: List.map (fun op => (fmt_intrinsic op ++ "(", read_intrinsic n p op)) intrinsics)
              (read_call n CcRust p) r))] (fun _ => None).
End Read.

(** ** What it needs *)

Definition ok_stmt (s : Statement) : Prop :=
  match s with
  | SAssign p e => ok_place p /\ ok_value e
  | SPlaceMention p | SSetDiscriminant p _ | SValidate p _ | SDeinit p => ok_place p
  | _ => True
  end.
Definition ok_arg (a : ArgumentExpr) : Prop := match a with ByValue e => ok_value e | InPlace p => ok_place p end.
Definition ok_term (t : Terminator) : Prop :=
  match t with
  | TmSwitch e _ _ | TmStartUnwind e _ => ok_value e
  | TmIntrinsic op es p _ => Forall ok_value es /\ ok_place p /\ In op intrinsics
  | TmCall c _ l p _ _ => ok_value c /\ no_tuple c /\ Forall ok_arg l /\ ok_place p
  | _ => True
  end.

(** ** It gets them back *)

Section Backwards.
  Variable F : list Ty.
  Opaque read_value read_atom read_place read_patom.

  Ltac rx := repeat first [rewrite str_assoc | rewrite expect_app | rewrite read_nat_ok by nd | rewrite read_int_ok by nd | progress cbn [then_]].

  Lemma place_back p ct f ct' : fmt_place_expr p ct = Ret (f, ct') -> ct' `prefix_of` F -> ok_place p ->
    exists n0, forall n r, (n0 <= n)%nat -> pends r -> read_place F n (to_string f ++ r) = Some (forget_place p, r).
  Proof. intros H HF Hok. destruct (proj2 (back F) _ _ _ _ H HF Hok) as [n0 [Hp _]]. exists n0. intros n r Hn Hr. by apply Hp. Qed.
  Lemma value_back e ct f ct' : fmt_value_expr e ct = Ret (f, ct') -> ct' `prefix_of` F -> ok_value e ->
    exists n0, forall n r, (n0 <= n)%nat -> ends r -> read_value F n (to_string f ++ r) = Some (forget_value e, r).
  Proof. intros H HF Hok. destruct (proj1 (back F) _ _ _ _ H HF Hok) as [n0 He]. exists (S n0). intros n r Hn Hr. by apply (text_value _ _ _ _ He). Qed.
  Lemma place_head p ct f ct' r : fmt_place_expr p ct = Ret (f, ct') -> exists c s, to_string f ++ r = String c s /\
    (c = "("%char \/ (c = "d"%char /\ exists s', s = "eref<" ++ s') \/ (c = "_"%char /\ exists c' s', s = String c' s' /\ In c' ["0"; "1"; "2"; "3"; "4"; "5"; "6"; "7"; "8"; "9"]%char)).
  Proof.
    assert (Ha : forall p ct f ct' r, fmt_place_expr p ct = Ret (f, ct') -> exists c s, to_atomic_string f ++ r = String c s /\
    (c = "("%char \/ (c = "d"%char /\ exists s', s = "eref<" ++ s') \/ (c = "_"%char /\ exists c' s', s = String c' s' /\ In c' ["0"; "1"; "2"; "3"; "4"; "5"; "6"; "7"; "8"; "9"]%char))).
    { clear. induction p as [l|e ty|p IH i|p IH e|p IH d]; intros ct f ct' r H; cbn [fmt_place_expr] in H.
      - injection H as <- <-. destruct (nat_head l r) as (c & s & E & Hc). cbn [to_atomic_string append]. do 2 eexists. split; [reflexivity|].
        right; right. split; [done|]. exists c, s. done.
      - destruct (fmt_type ty ct). apply obind_ret in H as ([? ?] & _ & H). apply ret_inv in H as [<- <-]. do 2 eexists. split; [reflexivity|]. right; left. split; [done|]. eexists. reflexivity.
      - apply obind_ret in H as ([g c1] & E & H). apply ret_inv in H as [<- <-]. cbn [to_atomic_string]. rewrite str_assoc. by eapply IH.
      - apply obind_ret in H as ([g c1] & E & H). apply obind_ret in H as ([? ?] & _ & H). apply ret_inv in H as [<- <-]. cbn [to_atomic_string]. rewrite str_assoc. by eapply IH.
      - apply obind_ret in H as ([g c1] & E & H). apply ret_inv in H as [<- <-]. do 2 eexists. split; [reflexivity|]. by left. }
    intros H. destruct f as [s|s]; [|exact (Ha _ _ _ _ r H)]. destruct p as [l|e ty|p i|p e|p d]; cbn [fmt_place_expr] in H.
    - done.
    - destruct (fmt_type ty ct). apply obind_ret in H as ([? ?] & _ & H). done.
    - apply obind_ret in H as ([g c1] & E & H). done.
    - apply obind_ret in H as ([g c1] & E & H). apply obind_ret in H as ([? ?] & _ & H). done.
    - apply obind_ret in H as ([g c1] & E & H). injection H as H _. subst s. cbn [to_string]. rewrite str_assoc. by eapply Ha.
  Qed.

  Lemma stmt_back st ct s ct' : fmt_statement st ct = Ret (s, ct') -> ct' `prefix_of` F -> ok_stmt st ->
    exists n0, forall n r, (n0 <= n)%nat -> read_stmt F n (s ++ r) = Some (forget_stmt st, r).
  Proof.
    intros H HF Hok. destruct st as [p e|p|p d|p b|p|l|l]; cbn [fmt_statement ok_stmt] in *.
    - destruct Hok as [Hp He]. apply obind_ret in H as ([f1 c1] & E1 & H). apply obind_ret in H as ([f2 c2] & E2 & H). apply ret_inv in H as [<- <-].
      destruct (place_back _ _ _ _ E1 ltac:(etransitivity; [eapply (proj1 exprs_grow); eassumption|done]) Hp) as [n1 H1]. destruct (value_back _ _ _ _ E2 HF He) as [n2 H2].
      exists (n1 + n2)%nat. intros n r Hn. rewrite !str_assoc.
      assert (Hs : forall r, read_stmt F n ("    " ++ to_string f1 ++ r) = (let* p, r := read_place F n (to_string f1 ++ r) in expect " = " r (fun r => let* e, r := read_value F n r in
            expect ";" r (fun r => Some (SAssign p e, r))))).
      { intros r'. destruct (place_head _ _ _ _ r' E1) as (c & s & -> & [->|[[-> [s' ->]]|[-> (c' & s' & -> & Hc)]]]); [reflexivity|reflexivity|]. cbn [In] in Hc. repeat (destruct Hc as [<-|Hc]; [reflexivity|]). done. }
      rewrite Hs, H1 by (lia || done). rx. rewrite H2 by (lia || en). by rx.
    - apply obind_ret in H as ([f1 c1] & E1 & H). apply ret_inv in H as [<- <-]. destruct (place_back _ _ _ _ E1 HF Hok) as [n1 H1]. exists n1. intros n r Hn. rewrite !str_assoc.
      etransitivity; [reflexivity|]. unfold read_stmt. etransitivity; [exact (alt_app "    _ = " _ _ _ _)|cbv beta]. rewrite H1 by (lia || done). by rx.
    - apply obind_ret in H as ([f1 c1] & E1 & H). apply ret_inv in H as [<- <-]. destruct (place_back _ _ _ _ E1 HF Hok) as [n1 H1]. exists n1. intros n r Hn. rewrite !str_assoc.
      assert (Hs : forall r, read_stmt F n ("    discriminant(" ++ r) = (let* p, r := read_place F n r in expect ") = " r (fun r => let* d, r := read_int r in
            expect ";" r (fun r => Some (SSetDiscriminant p d, r))))) by reflexivity.
      rewrite Hs, H1 by (lia || done). by rx.
    - apply obind_ret in H as ([f1 c1] & E1 & H). apply ret_inv in H as [<- <-]. destruct (place_back _ _ _ _ E1 HF Hok) as [n1 H1]. exists n1. intros n r Hn. rewrite !str_assoc.
      assert (Hs : forall r, read_stmt F n ("    validate(" ++ r) = (let* p, r := read_place F n r in expect ", " r (fun r => let* b, r := read_flag r in
            expect ");" r (fun r => Some (SValidate p b, r))))) by reflexivity.
      rewrite Hs, H1 by (lia || done). rx. assert (Hb : forall r, read_flag (show_bool b ++ r) = Some (b, r)) by (by destruct b). rewrite Hb. by rx.
    - apply obind_ret in H as ([f1 c1] & E1 & H). apply ret_inv in H as [<- <-]. destruct (place_back _ _ _ _ E1 HF Hok) as [n1 H1]. exists n1. intros n r Hn. rewrite !str_assoc.
      assert (Hs : forall r, read_stmt F n ("    deinit(" ++ r) = (let* p, r := read_place F n r in expect ");" r (fun r => Some (SDeinit p, r)))) by reflexivity.
      rewrite Hs, H1 by (lia || done). by rx.
    - apply ret_inv in H as [<- <-]. exists 0%nat. intros n r _. unfold fmt_local_name. rewrite !str_assoc.
      assert (Hs : forall r, read_stmt F n ("    storage_live(" ++ "_" ++ r) = (let* l, r := read_nat r in expect ");" r (fun r => Some (SStorageLive l, r)))) by reflexivity.
      rewrite Hs. by rx.
    - apply ret_inv in H as [<- <-]. exists 0%nat. intros n r _. unfold fmt_local_name. rewrite !str_assoc.
      assert (Hs : forall r, read_stmt F n ("    storage_dead(" ++ "_" ++ r) = (let* l, r := read_nat r in expect ");" r (fun r => Some (SStorageDead l, r)))) by reflexivity.
      rewrite Hs. by rx.
  Qed.

  Definition keys : list string := fmt_conv CcC :: List.map (fun op => fmt_intrinsic op ++ "(") intrinsics.
  Ltac keysp := rewrite ?str_assoc; repeat (constructor; [reflexivity|]); constructor.
  Lemma atom_keys e ct f ct' r : fmt_value_expr e ct = Ret (f, ct') -> Forall (fun k => eat k (to_atomic_string f ++ r) = None) keys.
  Proof.
    intros H. unfold keys, intrinsics. cbn [List.map]. destruct f as [s|s]; [cbn [to_atomic_string]; keysp|]. cbn [to_atomic_string].
    destruct e as [c ty|es ty|i e ty|i e ty|p|p|p pt|op e|op e1 e2]; cbn [fmt_value_expr] in H.
    - apply ret_inv in H as [H _]. destruct c as [i|b|g|g|v|a]; cbn [fmt_constant] in H.
      + injection H as <-. destruct (int_head i r) as (c & s & -> & [Hc|(-> & c' & s' & -> & Hc)]); [|keysp]. cbn [In] in Hc. repeat (destruct Hc as [<-|Hc]; [keysp|]). done.
      + injection H as <-. destruct b; keysp.
      + unfold fmt_relocation in H. destruct (_ =? _)%N; [|done]. injection H as <-. keysp.
      + injection H as <-. keysp.
      + injection H as <-. keysp.
      + destruct (_ =? _)%Z; injection H as <-; keysp.
    - apply obind_ret in H as ([lp rp0] & Ep & H). apply obind_ret in H as ([l c1] & E & H). apply ret_inv in H as [H _]. injection H as <-.
      destruct ty; try done; injection Ep as <- <-; keysp.
    - destruct (fmt_type ty ct). apply obind_ret in H as ([? ?] & _ & H). done.
    - destruct (fmt_type ty ct). apply obind_ret in H as ([? ?] & _ & H). done.
    - apply obind_ret in H as ([? ?] & _ & H). apply ret_inv in H as [H _]. injection H as <-. keysp.
    - apply obind_ret in H as ([? ?] & _ & H). apply ret_inv in H as [H _]. injection H as <-. keysp.
    - destruct pt; try done; apply obind_ret in H as ([? ?] & _ & H); done.
    - apply obind_ret in H as ([g c1] & _ & H). injection H as H. destruct op as [[]|[it|ty]| | |ty|ty|m]; cbn [fmt_un_op] in H; try done; try (injection H as <- _; keysp).
      all: destruct (fmt_type ty c1); injection H as <- _; keysp.
    - apply obind_ret in H as ([g1 c1] & _ & H). apply obind_ret in H as ([g2 c2] & _ & H). apply ret_inv in H as [H _].
      destruct op as [o|o|o|b|b1 b2|pt]; cbn [fmt_bin_op] in H; try done.
      + destruct o; cbn [fmt_int_op] in H; try done; injection H as <-; keysp.
      + injection H as <-. destruct o; keysp.
      + injection H as <-. destruct b; keysp.
      + injection H as <-. destruct b1, b2; keysp.
      + injection H as <-. keysp.
  Qed.

  Lemma next_back a b r : read_next (fmt_next a b ++ ";" ++ r) = Some ((a, b), ";" ++ r).
  Proof.
    destruct a as [a|], b as [b|]; cbn [fmt_next]; unfold fmt_bb_name; rewrite ?str_assoc.
    - assert (E : forall r, read_next (" -> [return: " ++ "bb" ++ r) = (let* a, r := read_nat r in expect ", unwind: bb" r (fun r => let* b, r := read_nat r in
          expect "]" r (fun r => Some ((Some a, Some b), r))))) by reflexivity.
      rewrite E. rx. change (", unwind: " ++ "bb" ++ show_nat b ++ "]" ++ ";" ++ r) with (", unwind: bb" ++ show_nat b ++ "]" ++ ";" ++ r). by rx.
    - assert (E : forall r, read_next (" -> return: " ++ "bb" ++ r) = (let* a, r := read_nat r in Some ((Some a, None), r))) by reflexivity. rewrite E. by rx.
    - assert (E : forall r, read_next (" -> unwind: " ++ "bb" ++ r) = (let* a, r := read_nat r in Some ((None, Some a), r))) by reflexivity. rewrite E. by rx.
    - done.
  Qed.
  Lemma args_grow l : forall ct s ct', map_st fmt_argument l ct = Ret (s, ct') -> ct `prefix_of` ct'.
  Proof.
    induction l as [|a l IH]; intros ct s ct' H; cbn in H; [by injection H as <- <-|].
    apply obind_ret in H as ([s1 c1] & E1 & H). apply obind_ret in H as ([s2 c2] & E2 & H). injection H as <- <-. etransitivity; [|by eapply IH].
    destruct a as [e|p]; cbn [fmt_argument] in E1; apply obind_ret in E1 as ([? ?] & E & E1); injection E1 as _ <-; [eapply (proj1 exprs_grow)|eapply (proj2 exprs_grow)]; eassumption.
  Qed.
  Lemma values_grow l : forall ct s ct', map_st (fun ct v => fmt_value_expr v ct) l ct = Ret (s, ct') -> ct `prefix_of` ct'.
  Proof.
    induction l as [|a l IH]; intros ct s ct' H; cbn in H; [by injection H as <- <-|].
    apply obind_ret in H as ([s1 c1] & E1 & H). apply obind_ret in H as ([s2 c2] & E2 & H). injection H as <- <-. etransitivity; [|by eapply IH].
    eapply (proj1 exprs_grow); eassumption.
  Qed.
  Lemma args_back l : forall ct ss ct', map_st fmt_argument l ct = Ret (ss, ct') -> ct' `prefix_of` F -> Forall ok_arg l ->
    exists n0, forall n, (n0 <= n)%nat -> Forall2 (fun s x => forall r, ends r -> read_arg F n (s ++ r) = Some (x, r)) ss (List.map forget_arg l).
  Proof.
    induction l as [|a l IH]; intros ct ss ct' H HF Hok; cbn in H; [injection H as <- <-; exists 0%nat; intros; constructor|].
    apply obind_ret in H as ([s1 c1] & E1 & H). apply obind_ret in H as ([s2 c2] & E2 & H). injection H as <- <-. inversion Hok as [|? ? Hok1 Hok2]; subst.
    destruct (IH _ _ _ E2 HF Hok2) as [n2 H2]. assert (HF1 : c1 `prefix_of` F) by (etransitivity; [by eapply args_grow|done]).
    destruct a as [e|p]; cbn [fmt_argument ok_arg] in *; apply obind_ret in E1 as ([f c3] & E & E1); apply ret_inv in E1 as [<- <-].
    - destruct (value_back _ _ _ _ E HF1 Hok1) as [n1 H1]. exists (n1 + n2)%nat. intros n Hn. cbn [List.map]. constructor; [|apply H2; lia]. intros r _. rewrite !str_assoc.
      assert (Ea : forall r, read_arg F n ("by-value(" ++ r) = (let* e, r := read_value F n r in expect ")" r (fun r => Some (ByValue e, r)))) by reflexivity.
      rewrite Ea, H1 by (lia || apply ends_paren). by rx.
    - destruct (place_back _ _ _ _ E HF1 Hok1) as [n1 H1]. exists (n1 + n2)%nat. intros n Hn. cbn [List.map]. constructor; [|apply H2; lia]. intros r _. rewrite !str_assoc.
      assert (Ea : forall r, read_arg F n ("in-place(" ++ r) = (let* p, r := read_place F n r in expect ")" r (fun r => Some (InPlace p, r)))) by reflexivity.
      rewrite Ea, H1 by (lia || apply pends_paren). by rx.
  Qed.
  Lemma values_back es : forall ct fs ct', map_st (fun ct v => fmt_value_expr v ct) es ct = Ret (fs, ct') -> ct' `prefix_of` F -> Forall ok_value es ->
    exists n0, forall n, (n0 <= n)%nat -> Forall2 (fun s x => forall r, ends r -> read_value F n (s ++ r) = Some (x, r)) (List.map to_string fs) (List.map forget_value es).
  Proof.
    intros ct fs ct' H HF Hok. destruct (list_text F es) with (ct := ct) (fs := fs) (ct' := ct') as [n0 Hl]; [|done|done|done|].
    { apply Forall_forall. intros e _. apply (proj1 (back F)). }
    exists (S n0). intros n Hn. clear - Hl Hn. induction Hl as [|f e fs' es' Hf Hl IH]; cbn [List.map]; constructor; [|done].
    intros r Hr. by apply (text_value _ _ _ _ Hf).
  Qed.

  Definition show_case (c : Z * BbName) : string := show_int (fst c) ++ ": " ++ fmt_bb_name (snd c).
  Lemma cases_back cases fb r : forall n, (length cases < n)%nat ->
    read_cases n (join_str case_end (List.map show_case cases ++ [("otherwise: " ++ fmt_bb_name fb)%string])%list ++ newline ++ r) = Some ((cases, fb), newline ++ r).
  Proof.
    induction cases as [|[i b] cases IH]; intros n Hn; cbn [length] in Hn; (destruct n as [|n]; [lia|]).
    - cbn [List.map app join_str]. unfold fmt_bb_name. rewrite !str_assoc. cbn [read_cases].
      change ("otherwise: " ++ "bb" ++ show_nat fb ++ newline ++ r) with ("otherwise: bb" ++ show_nat fb ++ newline ++ r).
      etransitivity; [exact (alt_app "otherwise: bb" _ _ _ _)|cbv beta]. by rx.
    - assert (E : join_str case_end (List.map show_case ((i, b) :: cases) ++ [("otherwise: " ++ fmt_bb_name fb)%string])%list =
        show_case (i, b) ++ case_end ++ join_str case_end (List.map show_case cases ++ [("otherwise: " ++ fmt_bb_name fb)%string])%list) by (by destruct cases).
      rewrite E. unfold show_case at 1. cbn [fst snd]. unfold fmt_bb_name at 1. rewrite !str_assoc. cbn [read_cases].
      assert (Hh : forall s, eat "otherwise: bb" (show_int i ++ s) = None).
      { intros s. destruct (int_head i s) as (c & s0 & -> & [Hc|(-> & c' & s' & -> & Hc)]); cbn [In] in Hc; repeat (destruct Hc as [<-|Hc]; [reflexivity|]); done. }
      cbn [alt]. rewrite Hh. rewrite read_int_ok by done. cbn [then_].
      match goal with |- context[": " ++ "bb" ++ ?x] => change (": " ++ "bb" ++ x) with (": bb" ++ x) end.
      rewrite expect_app. rewrite read_nat_ok by done. cbn [then_]. rewrite expect_app. rewrite IH by lia. done.
  Qed.

  Lemma term_place n p ct f ct' r : fmt_place_expr p ct = Ret (f, ct') ->
    read_term F n ("    " ++ to_string f ++ r) = (let* p, r := read_place F n (to_string f ++ r) in expect " = " r (fun r =>
            alt ((fmt_conv CcC, read_call F n CcC p) :: List.map (fun op => (fmt_intrinsic op ++ "(", read_intrinsic F n p op)) intrinsics)
              (read_call F n CcRust p) r)).
  Proof. intros E. destruct (place_head _ _ _ _ r E) as (c & s & -> & [->|[[-> [s' ->]]|[-> (c' & s' & -> & Hc)]]]); reflexivity. Qed.
  Lemma alt_intrinsic n p op r : In op intrinsics ->
    alt ((fmt_conv CcC, read_call F n CcC p) :: List.map (fun op => (fmt_intrinsic op ++ "(", read_intrinsic F n p op)) intrinsics)
              (read_call F n CcRust p) (fmt_intrinsic op ++ "(" ++ r) = read_intrinsic F n p op r.
  Proof. intros H. cbn [In intrinsics] in H. repeat (destruct H as [<-|H]; [reflexivity|]). done. Qed.
  Lemma call_back n conv p c f n0 ss l r a b : value_text F c f n0 -> no_tuple c -> (S n0 <= n)%nat -> (length ss <= n)%nat ->
    Forall2 (fun s x => forall r, ends r -> read_arg F n (s ++ r) = Some (x, r)) ss l ->
    read_call F n conv p (to_atomic_string f ++ "(" ++ join_str ", " ss ++ ")" ++ fmt_next a b ++ ";" ++ r) = Some (TmCall (forget_value c) conv l p a b, r).
  Proof.
    intros Hc Ht Hn Hl H. unfold read_call. rewrite (text_atom _ _ _ _ Ht Hc) by (lia || nd). rx.
    rewrite (list_ok _ ")" _ _ H); [|by left|done|done]. cbn [then_]. rewrite next_back. cbn [then_ fst snd]. by rewrite expect_app.
  Qed.

  Lemma term_back t ct s ct' : fmt_terminator t ct = Ret (s, ct') -> ct' `prefix_of` F -> ok_term t ->
    exists n0, forall n r, (n0 <= n)%nat -> read_term F n (s ++ r) = Some (forget_term t, r).
  Proof.
    intros H HF Hok. destruct t as [b|e cases fb| |op es p nb|c conv l p nb ub| |e b|b|]; cbn [fmt_terminator ok_term] in *.
    - apply ret_inv in H as [<- <-]. exists 0%nat. intros n r _. unfold fmt_bb_name. rewrite !str_assoc.
      assert (E : forall r, read_term F n ("    goto -> " ++ "bb" ++ r) = (let* b, r := read_nat r in expect ";" r (fun r => Some (TmGoto b, r)))) by reflexivity. rewrite E. by rx.
    - apply obind_ret in H as ([f c1] & E & H). apply ret_inv in H as [<- <-]. destruct (value_back _ _ _ _ E HF Hok) as [n0 H0]. exists (S (n0 + length cases)). intros n r Hn. rewrite !str_assoc.
      assert (Er : forall r, read_term F n ("    switch(" ++ r) = (let* e, r := read_value F n r in expect (") -> [" ++ newline ++ "      ") r (fun r => let* c, r := read_cases n r in
            expect (newline ++ "    ];") r (fun r => Some (TmSwitch e (fst c) (snd c), r))))) by reflexivity.
      rewrite Er. rewrite H0 by (lia || en). cbn [then_].
      match goal with |- expect _ (") -> [" ++ newline ++ "      " ++ ?x) _ = _ => change (") -> [" ++ newline ++ "      " ++ x) with ((") -> [" ++ newline ++ "      ") ++ x) end. rewrite expect_app.
      change (join_str _ _) with (join_str case_end (List.map show_case cases ++ [("otherwise: " ++ fmt_bb_name fb)%string])%list). rewrite cases_back by lia. cbn [then_ fst snd].
      match goal with |- expect _ (newline ++ "    ];" ++ ?x) _ = _ => change (newline ++ "    ];" ++ x) with ((newline ++ "    ];") ++ x) end. by rewrite expect_app.
    - apply ret_inv in H as [<- <-]. exists 0%nat. intros n r _. reflexivity.
    - destruct Hok as (Hes & Hp & Hop). apply obind_ret in H as ([fs c1] & E1 & H). unfold fmt_call in H. apply obind_ret in H as ([f c2] & E2 & H). apply ret_inv in H as [<- <-].
      destruct (values_back _ _ _ _ E1 ltac:(etransitivity; [eapply (proj2 exprs_grow); eassumption|done]) Hes) as [n1 H1]. destruct (place_back _ _ _ _ E2 HF Hp) as [n2 H2].
      exists (n1 + n2 + length fs)%nat. intros n r Hn. rewrite !str_assoc. rewrite (term_place _ _ _ _ _ _ E2). rewrite H2 by (lia || done). cbn [then_]. rewrite expect_app.
      cbn [fmt_conv]. match goal with |- context["" ++ ?x] => change ("" ++ x) with x end.
      rewrite alt_intrinsic by done. unfold read_intrinsic. rewrite (list_ok _ ")" _ _ (H1 n ltac:(lia))); [|by left|apply no_value_paren|rewrite map_length; lia].
      cbn [then_]. rewrite next_back. cbn [then_ fst snd]. by rewrite expect_app.
    - destruct Hok as (Hc & Ht & Hl & Hp). apply obind_ret in H as ([fc c1] & E1 & H). apply obind_ret in H as ([ss c2] & E2 & H). unfold fmt_call in H. apply obind_ret in H as ([f c3] & E3 & H). apply ret_inv in H as [<- <-].
      assert (HF2 : c2 `prefix_of` F) by (etransitivity; [eapply (proj2 exprs_grow); eassumption|done]). assert (HF1 : c1 `prefix_of` F) by (etransitivity; [by eapply args_grow|done]).
      destruct (proj1 (back F) _ _ _ _ E1 HF1 Hc) as [n1 H1]. destruct (args_back _ _ _ _ E2 HF2 Hl) as [n2 H2]. destruct (place_back _ _ _ _ E3 HF Hp) as [n3 H3].
      exists (S (n1 + n2 + n3 + length ss)). intros n r Hn. rewrite !str_assoc. rewrite (term_place _ _ _ _ _ _ E3). rewrite H3 by (lia || done). cbn [then_]. rewrite expect_app.
      destruct conv.
      + match goal with |- alt _ _ (_ ++ ?x) = _ => change (fmt_conv CcRust ++ x) with x end.
        etransitivity; [apply alt_none; exact (atom_keys _ _ _ _ _ E1)|].
        by rewrite (call_back n CcRust _ c fc n1 ss (List.map forget_arg l)) by (done || lia || (apply H2; lia)).
      + match goal with |- alt ((?k, ?g) :: ?ks) ?d (_ ++ ?x) = _ => etransitivity; [exact (alt_app k g ks d x)|] end.
        by rewrite (call_back n CcC _ c fc n1 ss (List.map forget_arg l)) by (done || lia || (apply H2; lia)).
    - apply ret_inv in H as [<- <-]. exists 0%nat. intros n r _. reflexivity.
    - apply obind_ret in H as ([f c1] & E & H). apply ret_inv in H as [<- <-]. destruct (value_back _ _ _ _ E HF Hok) as [n0 H0]. exists n0. intros n r Hn. unfold fmt_bb_name. rewrite !str_assoc.
      assert (Er : forall r, read_term F n ("    start unwind(" ++ r) = (let* e, r := read_value F n r in expect ") -> unwind: bb" r (fun r => let* b, r := read_nat r in
            expect " " r (fun r => Some (TmStartUnwind e b, r))))) by reflexivity.
      rewrite Er. rewrite H0 by (lia || en). cbn [then_].
      match goal with |- context[") -> unwind: " ++ "bb" ++ ?x] => change (") -> unwind: " ++ "bb" ++ x) with (") -> unwind: bb" ++ x) end. by rx.
    - apply ret_inv in H as [<- <-]. exists 0%nat. intros n r _. unfold fmt_bb_name. rewrite !str_assoc.
      assert (E : forall r, read_term F n ("    start unwind -> unwind: " ++ "bb" ++ r) = (let* b, r := read_nat r in expect " " r (fun r => Some (TmStopUnwind b, r)))) by reflexivity. rewrite E. by rx.
    - apply ret_inv in H as [<- <-]. exists 0%nat. intros n r _. reflexivity.
  Qed.
End Backwards.
