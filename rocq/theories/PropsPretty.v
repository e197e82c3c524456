(** The pretty printer (miniutil/src/pretty): which programs it prints (C90), what the text says about composite types (C91), what can
    be read off the text again (C92), and that the text does not depend on the order of maps (C93). *)
From Coq Require Import Ascii String.
From Verif Require Import PrettyGives PrettyStmts PrettyWf PrettyOrder PrettyAlike PrettyProg CheckSpec CheckProofs IllProofs ExMach ExSched ExRepr ExData PropsCheck.
Local Open Scope string_scope.

(** ** C90: what is printed

    The full statement: every program that the check of well-formedness accepts is printed. It is not. *)

(** a box that is made of a place *)
Definition box_pt : PtrType := PBox (mkPointee (LSized 1 align_one) true (CSized []) true true).
Definition box_prog : Program := one_fn [(1%N, TInt u8_t); (2%N, TPtr box_pt)] [SAssign (PLocal 2) (EAddrOf (PLocal 1) box_pt)] TmReturn.
Theorem C90_addr_of_refuted : exists prog, program_check_wf x86_64 prog = Ret tt /\ forall fuel, fmt_program x86_64 fuel prog = Panic.
Proof. exists box_prog. split; [vm_compute; reflexivity|]. intros fuel. vm_compute. reflexivity. Qed.
Print Assumptions C90_addr_of_refuted.

(** a transmutation to a union that has a layout, with a field that has none *)
Definition odd_union : Ty := TUnion [(0%N, TTuple [] (mkHead 0 align_one None) (Some (TSlice (TInt odd_int))))] [] 1 align_one.
Definition transmute_prog : Program :=
  one_fn [] [] (TmSwitch (EUnOp (UCast (CTransmute (TInt u8_t))) (EUnOp (UCast (CTransmute odd_union)) u8_e)) [] 0%N).
Theorem C90_transmute_refuted : exists prog, program_check_wf x86_64 prog = Ret tt /\ forall fuel, fmt_program x86_64 (3 + fuel) prog = Panic.
Proof.  exists transmute_prog. split; [vm_compute; reflexivity|]. intros fuel. vm_compute. reflexivity. Qed.
Print Assumptions C90_transmute_refuted.

(** *** What holds: exactly the programs with printable expressions and composite types with a layout are printed. *)
Theorem C90_exact T prog : (exists fuel text, fmt_program T fuel prog = Ret text) <->
  printable_program prog /\ forall t, In t (flat_map comps (program_types prog)) -> ~ no_layout T t.
Proof.
  rewrite program_gives. split; intros [H1 H2]; (split; [done|]); intros t Ht.
  - intros Hn. apply elem_of_list_In, H2 in Ht as [l Hl]. apply (layout_panic T any_trait) in Hn. congruence.
  - apply elem_of_list_In, H2 in Ht. destruct (layout_cases T t) as [Hl|Hl]; [done|]. by apply (layout_panic T any_trait) in Hl.
Qed.
Print Assumptions C90_exact.

(** The bound on the loop over the composite types does not matter: with enough of it, the text is always the same. *)
Theorem C90_text_unique T prog fuel fuel' text text' :
  fmt_program T fuel prog = Ret text -> fmt_program T fuel' prog = Ret text' -> text = text'.
Proof.
  intros H H'. pose proof (program_fuel T prog fuel (fuel + fuel') text H ltac:(lia)) as E. pose proof (program_fuel T prog fuel' (fuel + fuel') text' H' ltac:(lia)) as E'. congruence.
Qed.
Print Assumptions C90_text_unique.

(** *** Every accepted program is printed, unless it makes a pointer other than a raw pointer or a reference, or transmutes to a type
    that is not well-formed. *)
Theorem C90_accepted_partial T prog :
  program_check_wf T prog = Ret tt ->
  (forall e p pt, program_expr prog e -> occurs e (inl (EAddrOf p pt)) -> match pt with PRaw _ | PRef _ _ => True | _ => False end) ->
  (forall e t x, program_expr prog e -> occurs e (inl (EUnOp (UCast (CTransmute t)) x)) -> ty_check_wf T (has_trait prog) t = Ret tt) ->
  exists fuel text, fmt_program T fuel prog = Ret text.
Proof. intros H Hp Ht. apply accepted_prints; [done| |]; intros e He; [intros p pt; by apply Hp|intros t x; by apply Ht]. Qed.
Print Assumptions C90_accepted_partial.

(** *** C91: composite types in the text

    The text has a declaration of every composite type of the program, one, and of no other type. Its number is the one by which
    the functions (and the declarations) refer to it: they are printed with the table of all declared types, and add none to it. *)
Theorem C91_composite_types T prog fuel text : fmt_program T fuel prog = Ret text ->
  exists F functions declarations,
    text = String.concat "" declarations ++ fmt_traits (pr_traits prog) ++ fmt_vtables (pr_vtables prog) ++ functions ++ fmt_globals (pr_globals prog) /\
    NoDup F /\ (forall t, In t F <-> In t (flat_map comps (program_types prog))) /\
    fmt_functions prog F = Ret (functions, F) /\
    length declarations = length F /\
    (forall i t, F !! i = Some t -> exists rest, declarations !! i = Some
      ((match t with TTuple _ _ _ => "tuple" | TUnion _ _ _ _ => "union" | _ => "enum" end) ++ " T" ++ show_nat (N.of_nat i) ++ " (" ++ rest) /\
      forall d, declarations !! i = Some d -> fmt_comptype T i t F = Ret (d, F)).
Proof.
  intros H. apply program_table in H as (F & fs & texts & H1 & H2 & H3 & H4 & H5 & H6). exists F, fs, texts. split_and!; try done.
  - intros t. rewrite <- !elem_of_list_In. apply H2.
  - intros i t Hi. destruct (H5 _ _ Hi) as (d & Hd & E). rewrite Hd. pose proof E as E'. unfold fmt_comptype in E'.
    apply obind_ret in E' as (kw & Ek & E'). apply obind_ret in E' as (l & _ & E'). cbv zeta in E'. apply obind_ret in E' as ([b ct] & _ & E'). apply ret_inv' in E' as [E' _].
    eexists. split; [|intros d' Hd'; injection Hd' as <-; exact E]. f_equal. rewrite <- E'. unfold fmt_comptype_index. rewrite !str_assoc.
    destruct t; try done; injection Ek as <-; reflexivity.
Qed.
Print Assumptions C91_composite_types.

(** *** C92: what can be read off the text

    [F] is the table of all declared types, as in C91. Two expressions (statements, terminators) of accepted functions with the same
    text are the same, up to what the text leaves out ([forget_value] and the like). *)
Theorem C92_values T prog prog' locals locals' F e e' ty ty' ct ct' f f' ct1 ct1' :
  value_check_wf T prog locals e = Ret ty -> value_check_wf T prog' locals' e' = Ret ty' ->
  fmt_value_expr e ct = Ret (f, ct1) -> ct1 `prefix_of` F -> fmt_value_expr e' ct' = Ret (f', ct1') -> ct1' `prefix_of` F ->
  to_string f = to_string f' -> forget_value e = forget_value e'.
Proof.
  intros H H' E HF E' HF' Hs. apply (proj1 (fine_exprs T prog locals)) in H as [Hok _ _]. apply (proj1 (fine_exprs T prog' locals')) in H' as [Hok' _ _].
  destruct (value_back F _ _ _ _ E HF Hok) as [n0 B]. destruct (value_back F _ _ _ _ E' HF' Hok') as [n1 B'].
  specialize (B (n0 + n1)%nat "" ltac:(lia)). specialize (B' (n0 + n1)%nat "" ltac:(lia)). rewrite Hs in B.
  assert (Hd : ends "") by done. specialize (B Hd). specialize (B' Hd). rewrite B in B'. by injection B'.
Qed.
Print Assumptions C92_values.
Theorem C92_places T prog prog' locals locals' F p p' ty ty' ct ct' f f' ct1 ct1' :
  place_check_wf T prog locals p = Ret ty -> place_check_wf T prog' locals' p' = Ret ty' ->
  fmt_place_expr p ct = Ret (f, ct1) -> ct1 `prefix_of` F -> fmt_place_expr p' ct' = Ret (f', ct1') -> ct1' `prefix_of` F ->
  to_string f = to_string f' -> forget_place p = forget_place p'.
Proof.
  intros H H' E HF E' HF' Hs. apply (proj2 (fine_exprs T prog locals)) in H as [Hok _ _]. apply (proj2 (fine_exprs T prog' locals')) in H' as [Hok' _ _].
  destruct (place_back F _ _ _ _ E HF Hok) as [n0 B]. destruct (place_back F _ _ _ _ E' HF' Hok') as [n1 B'].
  specialize (B (n0 + n1)%nat "" ltac:(lia)). specialize (B' (n0 + n1)%nat "" ltac:(lia)). rewrite Hs in B.
  assert (Hd : pends "") by done. specialize (B Hd). specialize (B' Hd). rewrite B in B'. by injection B'.
Qed.
Print Assumptions C92_places.
(** of statements and terminators not even what follows matters *)
Theorem C92_statements T prog prog' func func' F s s' ct ct' t t' ct1 ct1' r r' :
  statement_check_wf T prog func s = Ret tt -> statement_check_wf T prog' func' s' = Ret tt ->
  fmt_statement s ct = Ret (t, ct1) -> ct1 `prefix_of` F -> fmt_statement s' ct' = Ret (t', ct1') -> ct1' `prefix_of` F ->
  t ++ r = t' ++ r' -> forget_stmt s = forget_stmt s' /\ r = r'.
Proof.
  intros H H' E HF E' HF' Hs. apply fine_stmt in H as [Hok _ _]. apply fine_stmt in H' as [Hok' _ _].
  destruct (stmt_back F _ _ _ _ E HF Hok) as [n0 B]. destruct (stmt_back F _ _ _ _ E' HF' Hok') as [n1 B'].
  specialize (B (n0 + n1)%nat r ltac:(lia)). specialize (B' (n0 + n1)%nat r' ltac:(lia)). rewrite Hs in B. rewrite B in B'. by injection B'.
Qed.
Print Assumptions C92_statements.
Theorem C92_terminators T prog prog' func func' F k k' s s' ct ct' t t' ct1 ct1' r r' :
  terminator_check_wf T prog func k s = Ret tt -> terminator_check_wf T prog' func' k' s' = Ret tt ->
  fmt_terminator s ct = Ret (t, ct1) -> ct1 `prefix_of` F -> fmt_terminator s' ct' = Ret (t', ct1') -> ct1' `prefix_of` F ->
  t ++ r = t' ++ r' -> forget_term s = forget_term s' /\ r = r'.
Proof.
  intros H H' E HF E' HF' Hs. apply fine_term in H as [Hok _ _]. apply fine_term in H' as [Hok' _ _].
  destruct (term_back F _ _ _ _ E HF Hok) as [n0 B]. destruct (term_back F _ _ _ _ E' HF' Hok') as [n1 B'].
  specialize (B (n0 + n1)%nat r ltac:(lia)). specialize (B' (n0 + n1)%nat r' ltac:(lia)). rewrite Hs in B. rewrite B in B'. by injection B'.
Qed.
Print Assumptions C92_terminators.

(** Two accepted programs with the same text, that declare the same list of types, are the same, up to what the text leaves out: they
    have the same functions, globals, vtables and traits by name, the functions with the same arguments, return variable, local
    variables and blocks, the blocks with the same statements and terminators (PrettyAlike). *)
Theorem C92_texts T p q F text : program_check_wf T p = Ret tt -> program_check_wf T q = Ret tt -> unique_names p -> unique_names q ->
  printed T p F text -> printed T q F text -> alike_programs p q.
Proof. apply programs_alike. Qed.
Print Assumptions C92_texts.

(** *** What cannot be read off the text

    Of expressions that the check refuses, the text is ambiguous: an addition to a pointer to a global looks like a pointer with an offset. *)
Theorem C92_ill_typed_refuted : exists e e' f, forget_value e <> forget_value e' /\ fmt_value_expr e [] = Ret (f, []) /\ fmt_value_expr e' [] = Ret (f, []).
Proof.
  exists (EConstant (KGlobalPointer (mkReloc 3 4)) (TPtr (PRaw MKNone))), (EBinOp (BInt IAdd) (EConstant (KGlobalPointer (mkReloc 3 0)) (TInt u8_t)) (EConstant (KInt 4) (TInt u8_t))), (FNonAtomic "global(3) + 4").
  split; [done|]. split; vm_compute; reflexivity.
Qed.
Print Assumptions C92_ill_typed_refuted.
(** The parentheses of the text of an accepted expression do not match. *)
Fixpoint count_char (c : ascii) (s : string) : nat := match s with "" => 0%nat | String d r => ((if Ascii.eqb c d then 1 else 0) + count_char c r)%nat end.
Theorem C92_parentheses_refuted : exists e ty text, value_check_wf x86_64 ex_prog [] e = Ret ty /\ fmt_value_expr e [] = Ret (FNonAtomic text, []) /\
  count_char "(" text = 1%nat /\ count_char ")" text = 0%nat.
Proof. exists (EUnOp (UInt IUBitNot) u8_e), (TInt u8_t), "!(1". split_and!; vm_compute; reflexivity. Qed.
Print Assumptions C92_parentheses_refuted.
(** Two accepted programs with the same text that behave differently, under the same choices: the types of constants are not in the text. *)
Definition add_prog (it : IntType) : Program :=
  mkProgram [(0%N, mkFunction [(0%N, unit_ty)] [] 0%N CcC
    [(0%N, blk [] (TmSwitch (EBinOp (BInt IAdd) (EConstant (KInt 255) (TInt it)) (EConstant (KInt 1) (TInt it))) [(0%Z, 1%N)] 2%N));
     (1%N, blk [] (TmIntrinsic InExit [] (PLocal 0) None)); (2%N, blk [] TmUnreachable)] 0%N)] 0%N [] [] [].
Theorem C92_programs_refuted : exists p q text cs css m m' msg,
  program_check_wf x86_64 p = Ret tt /\ program_check_wf x86_64 q = Ret tt /\
  fmt_program x86_64 1 p = Ret text /\ fmt_program x86_64 1 q = Ret text /\
  machine_new x86_64 B64 p cs = Ret (m, []) /\ run x86_64 B64 css m = Stop TMachineStop /\
  machine_new x86_64 B64 q cs = Ret (m', []) /\ run x86_64 B64 css m' = Stop (TUb msg).
Proof.
  exists (add_prog u8_t), (add_prog u32_t). do 2 eexists. exists [[ChThread 0]; [ChThread 0]], (newB (add_prog u8_t) [ChAddr 1; ChAddr 5]), (newB (add_prog u32_t) [ChAddr 1; ChAddr 5]). eexists.
  split; [vm_compute; reflexivity|]. split; [vm_compute; reflexivity|]. split; [vm_compute; reflexivity|]. split; [vm_compute; reflexivity|].
  split; [instantiate (1 := [ChAddr 1; ChAddr 5]); vm_compute; reflexivity|]. split; [vm_compute; reflexivity|]. split; vm_compute; reflexivity.
Qed.
Print Assumptions C92_programs_refuted.

(** ** C93: the order of the maps

    The full statement: programs that are the same, but for the order of their maps, have the same text. They do not: the methods of a
    vtable, and the cases of a switch, are printed in the order of the map. *)
Definition method_prog (l : list (TraitMethodName * FnName)) : Program :=
  mkProgram (pr_functions ex_prog) (pr_start ex_prog) [] [(0%N, [5%N; 6%N])] [(0%N, mkVTable 0%N 0%N align_one [] l)].
Theorem C93_methods_refuted : exists l l' text text', same_map eq l l' /\
  program_check_wf x86_64 (method_prog l) = Ret tt /\ program_check_wf x86_64 (method_prog l') = Ret tt /\
  fmt_program x86_64 9 (method_prog l) = Ret text /\ fmt_program x86_64 9 (method_prog l') = Ret text' /\ text <> text'.
Proof.
  exists [(5%N, 0%N); (6%N, 1%N)], [(6%N, 1%N); (5%N, 0%N)]. do 2 eexists. split_and!; try (vm_compute; reflexivity).
  - split_and!; [by apply (bool_decide_unpack _); vm_compute|by apply (bool_decide_unpack _); vm_compute|]. intros n.
    rewrite !get_cons. destruct (decide (5 = n)%N) as [<-|]; [done|]. by destruct (decide (6 = n)%N).
  - vm_compute. discriminate.
Qed.
Print Assumptions C93_methods_refuted.
Definition case_prog (l : list (Z * BbName)) : Program :=
  mkProgram [(0%N, mkFunction [(0%N, unit_ty)] [] 0%N CcC [(0%N, blk [] (TmSwitch u8_e l 1%N)); (1%N, blk [] TmReturn)] 0%N)] 0%N [] [] [].
Theorem C93_cases_refuted : exists l l' text text', NoDup (List.map fst l) /\ NoDup (List.map fst l') /\ (forall n, map_get l n = map_get l' n) /\
  program_check_wf x86_64 (case_prog l) = Ret tt /\ program_check_wf x86_64 (case_prog l') = Ret tt /\
  fmt_program x86_64 1 (case_prog l) = Ret text /\ fmt_program x86_64 1 (case_prog l') = Ret text' /\ text <> text'.
Proof.
  exists [(5%Z, 0%N); (6%Z, 1%N)], [(6%Z, 1%N); (5%Z, 0%N)]. do 2 eexists. split_and!; try (vm_compute; reflexivity).
  - by apply (bool_decide_unpack _); vm_compute.
  - by apply (bool_decide_unpack _); vm_compute.
  - intros n. unfold map_get. cbn [List.find fst]. destruct (decide (n = 5%Z)) as [->|H5]; [done|]. destruct (decide (n = 6%Z)) as [->|H6]; [done|].
    by rewrite !(bool_decide_eq_false_2 (_ = n)) by congruence.
  - vm_compute. discriminate.
Qed.
Print Assumptions C93_cases_refuted.
(** *** What holds: the order of all other maps does not matter. *)
Theorem C93_order_partial T fuel p q : same_program p q -> fmt_program T fuel p = fmt_program T fuel q.
Proof. apply program_same. Qed.
Print Assumptions C93_order_partial.

(** ** The hypotheses are met *)

(** the expressions that occur in an expression *)
Fixpoint value_subs (e : ValueExpr) : list Expr :=
  inl e :: match e with
  | EConstant _ _ => []
  | ETuple es _ => (fix go l := match l with [] => [] | e :: r => value_subs e ++ go r end) es
  | EUnion _ e _ | EVariant _ e _ | EUnOp _ e => value_subs e
  | EGetDiscriminant p | ELoad p | EAddrOf p _ => place_subs p
  | EBinOp _ e1 e2 => value_subs e1 ++ value_subs e2
  end%list
with place_subs (p : PlaceExpr) : list Expr :=
  inr p :: match p with
  | PLocal _ => []
  | PDeref e _ => value_subs e
  | PField p _ | PDowncast p _ => place_subs p
  | PIndex p e => place_subs p ++ value_subs e
  end%list.
Definition subs (e : Expr) : list Expr := match e with inl v => value_subs v | inr p => place_subs p end.
Lemma child_subs e e1 x : child e e1 -> In x (subs e1) -> In x (subs e).
Proof.
  intros H Hx. destruct H as [es ty e H| | | | | | | | | | | | | ]; cbn [subs value_subs place_subs] in *; right; rewrite ?in_app_iff; auto.
  induction es as [|e' es IH]; [done|]. apply in_app_iff. destruct H as [->|H]; auto.
Qed.
Lemma occurs_subs e x : occurs e x -> In x (subs e).
Proof. induction 1 as [[e|p]|e e1 e2 Hc _ IH]; [destruct e; by left|destruct p; by left|]. by eapply child_subs. Qed.
Definition stmt_exprs (s : Statement) : list Expr :=
  match s with
  | SAssign p e => [inr p; inl e]
  | SPlaceMention p | SSetDiscriminant p _ | SValidate p _ | SDeinit p => [inr p]
  | _ => []
  end.
Definition term_exprs (t : Terminator) : list Expr :=
  match t with
  | TmSwitch e _ _ | TmStartUnwind e _ => [inl e]
  | TmIntrinsic _ es p _ => inr p :: List.map inl es
  | TmCall c _ l p _ _ => inl c :: inr p :: List.map arg_expr l
  | _ => []
  end.
Definition program_subs (prog : Program) : list Expr :=
  flat_map (fun f : FnName * Function => flat_map (fun b : BbName * BasicBlock =>
    flat_map subs (flat_map stmt_exprs (bb_statements (snd b)) ++ term_exprs (bb_terminator (snd b)))) (fn_blocks (snd f))) (pr_functions prog).
Lemma program_subs_all prog e x : program_expr prog e -> occurs e x -> In x (program_subs prog).
Proof.
  intros (fn & func & b & blk & Hf & Hb & He) Hx. apply in_flat_map. eexists. split; [exact Hf|]. apply in_flat_map. eexists. split; [exact Hb|]. apply in_flat_map. exists e.
  split; [|by apply occurs_subs]. cbn [snd]. apply in_app_iff. destruct He as [(s & Hs & He)|He]; [left|right].
  - apply in_flat_map. exists s. split; [done|]. destruct He; cbn; auto.
  - destruct He; cbn; rewrite ?in_map_iff; eauto 6.
Qed.

(** a program with tuples, arrays and enums, that makes pointers *)
Example C90_hyps : program_check_wf x86_64 da_prog = Ret tt /\
  (forall e p pt, program_expr da_prog e -> occurs e (inl (EAddrOf p pt)) -> match pt with PRaw _ | PRef _ _ => True | _ => False end) /\
  (forall e t x, program_expr da_prog e -> occurs e (inl (EUnOp (UCast (CTransmute t)) x)) -> ty_check_wf x86_64 (has_trait da_prog) t = Ret tt) /\
  In (inl (EAddrOf (PLocal 1) (PRef Immutable pi4))) (program_subs da_prog) /\
  ~ printable_program box_prog /\ exists t, In t (flat_map comps (program_types transmute_prog)) /\ no_layout x86_64 t.
Proof.
  split; [apply da_prog_wf|]. split; [|split; [|split; [|split]]].
  - intros e p pt He Ho. pose proof (program_subs_all _ _ _ He Ho) as Hi.
    assert (Hall : Forall (fun e => match e with inl (EAddrOf _ (PBox _ | PFnPtr | PVTablePtr _)) => False | _ => True end) (program_subs da_prog)) by (vm_compute; repeat constructor).
    rewrite List.Forall_forall in Hall. specialize (Hall _ Hi). by destruct pt.
  - intros e t x He Ho. pose proof (program_subs_all _ _ _ He Ho) as Hi.
    assert (Hall : Forall (fun e => match e with inl (EUnOp (UCast (CTransmute _)) _) => False | _ => True end) (program_subs da_prog)) by (vm_compute; repeat constructor).
    rewrite List.Forall_forall in Hall. by specialize (Hall _ Hi).
  - vm_compute. repeat (first [left; reflexivity|right]).
  - intros H. apply List.Forall_inv, List.Forall_inv in H as [H _]. by apply List.Forall_inv in H as [_ [H _]].
  - exists (TTuple [] (mkHead 0 align_one None) (Some (TSlice (TInt odd_int)))). split; [vm_compute; auto|]. do 2 constructor. apply nl_int. intros k. cbn. destruct k as [|p]; [done|]. intros H.
    assert (N.odd (2 ^ N.pos p) = false); [|by rewrite <- H in *]. rewrite N.odd_pow by done. done.
Qed.

Example C91_hyps : exists text, fmt_program x86_64 9 da_prog = Ret text /\ In ex_enum (flat_map comps (program_types da_prog)) /\
  exists F functions, fmt_functions da_prog [] = Ret (functions, F) /\ length F = 2%nat.
Proof. eexists. split; [vm_compute; reflexivity|]. split; [vm_compute; repeat (first [left; reflexivity|right])|]. do 2 eexists. split; [vm_compute; reflexivity|]. reflexivity. Qed.

(** the same text of a statement and of a terminator in two programs that differ in the types of constants *)
Example C92_hyps : exists text ct,
  let f it := mkFunction [(0%N, unit_ty); (1%N, TInt it); (2%N, TTuple [(0%N, TInt u8_t)] (mkHead 1 align_one None) None)] [] 0%N CcC [(0%N, blk [] TmReturn)] 0%N in
  let s it := SAssign (PLocal 1) (EUnOp (UCast (CIntToInt it)) (EBinOp (BRel RCmp) (EConstant (KInt 255) (TInt it)) (ELoad (PLocal 1)))) in
  statement_check_wf x86_64 ex_prog (f u8_t) (s u8_t) = Ret tt /\ fmt_statement (s u8_t) [] = Ret (text, ct) /\
  statement_check_wf x86_64 da_prog (f u8_t) (SDeinit (PField (PLocal 2) 0)) = Ret tt /\
  value_check_wf x86_64 ex_prog [(1%N, TInt u8_t)] (EBinOp (BInt IAdd) (EConstant (KInt 255) (TInt u8_t)) (ELoad (PLocal 1))) = Ret (TInt u8_t) /\
  forall it, terminator_check_wf x86_64 (add_prog it) (f it) BkRegular TmReturn = Ret tt /\ fmt_terminator TmReturn ct = Ret ("    return;", ct).
Proof. do 2 eexists. cbv zeta. split; [vm_compute; reflexivity|]. split; [vm_compute; reflexivity|]. split; [vm_compute; reflexivity|]. split; [vm_compute; reflexivity|]. intros it. split; vm_compute; reflexivity. Qed.

(** the two programs of C92_programs_refuted: not the same, but alike *)
Lemma add_unique it : unique_names (add_prog it).
Proof.
  assert (Hu : forall l : list N, bool_decide (NoDup l) = true -> NoDup l) by (intros l H; by apply bool_decide_eq_true in H).
  split; [apply Hu; vm_compute; reflexivity..| |]; intros n f [E|[]]; injection E as <- <-; apply Hu; vm_compute; reflexivity.
Qed.
Example C92_hyps_texts : exists F text, program_check_wf x86_64 (add_prog u8_t) = Ret tt /\ program_check_wf x86_64 (add_prog u32_t) = Ret tt /\
  unique_names (add_prog u8_t) /\ unique_names (add_prog u32_t) /\ printed x86_64 (add_prog u8_t) F text /\ printed x86_64 (add_prog u32_t) F text /\ F <> [].
Proof.
  do 2 eexists. split; [vm_compute; reflexivity|]. split; [vm_compute; reflexivity|]. split; [apply add_unique|]. split; [apply add_unique|].
  split; [exists 1%nat; do 3 eexists; split; [vm_compute; reflexivity|]; split; vm_compute; reflexivity|].
  split; [exists 1%nat; do 3 eexists; split; [vm_compute; reflexivity|]; split; vm_compute; reflexivity|]. done.
Qed.

Definition rev_fn (f : Function) : Function := mkFunction (List.rev (fn_locals f)) (fn_args f) (fn_ret f) (fn_conv f) (List.rev (fn_blocks f)) (fn_start f).
Definition rev_prog : Program :=
  mkProgram [(2%N, rev_fn ex_worker); (1%N, rev_fn ex_inc); (0%N, rev_fn ex_start)] (pr_start ex_prog) (pr_globals ex_prog) (pr_traits ex_prog) (pr_vtables ex_prog).
Lemma same_rev {A} (m : list (N * A)) : unique m -> same_map eq m (List.rev m).
Proof.
  intros H. split; [done|]. assert (HP : Permutation m (List.rev m)) by apply Permutation_rev. split; [unfold unique in *; eapply nodup_perm; [|exact H]; by apply Permutation_map|].
  intros n. rewrite (get_perm _ _ n HP H). by destruct (map_get (List.rev m) n).
Qed.
Lemma same_self {A} (R : A -> A -> Prop) (m : list (N * A)) : (forall x, In x m -> R (snd x) (snd x)) -> unique m -> same_map R m m.
Proof.
  intros HR H. split; [done|]. split; [done|]. intros n. unfold map_get. destruct (List.find _ m) eqn:E; [|done]. apply find_some in E as [E _]. by apply HR.
Qed.
Lemma rev_same f : unique (fn_locals f) -> unique (fn_blocks f) -> same_function f (rev_fn f).
Proof. intros H1 H2. split_and!; [done..|by apply same_rev|by apply same_rev]. Qed.
(** the functions, their locals and their blocks in reverse order *)
Example C93_hyps : same_program ex_prog rev_prog /\ exists text, fmt_program x86_64 9 ex_prog = Ret text.
Proof.
  assert (Hu : forall l : list N, bool_decide (NoDup l) = true -> NoDup l) by (intros l H; by apply bool_decide_eq_true in H).
  split; [|eexists; vm_compute; reflexivity]. split; [done|]. split; [|split; [|split]].
  - split; [apply Hu; vm_compute; reflexivity|]. split; [apply Hu; vm_compute; reflexivity|]. intros n. unfold rev_prog, ex_prog. cbn [pr_functions]. rewrite !get_cons.
    destruct (decide (0 = n)%N) as [<-|]; [|destruct (decide (1 = n)%N) as [<-|]; [|destruct (decide (2 = n)%N) as [<-|]; [|done]]]; rewrite ?decide_True by done; rewrite ?decide_False by done;
      apply rev_same; apply Hu; vm_compute; reflexivity.
  - apply same_self; [done|]. apply Hu. vm_compute. reflexivity.
  - apply same_self; [done|]. apply Hu. vm_compute. reflexivity.
  - apply same_self; [|apply Hu; vm_compute; reflexivity]. intros x [<-|[]]. split_and!; try done; apply Hu; vm_compute; reflexivity.
Qed.
