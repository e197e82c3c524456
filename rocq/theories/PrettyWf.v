(** Programs that the check of well-formedness accepts: their texts can be read back, and they can be printed, but for
    two kinds of expressions. *)
From Coq Require Import Ascii String DecimalString.
From Verif Require Export PrettyGives PrettyStmts StepSpec WfTypesProofs.
Local Open Scope string_scope.

(** pointers other than raw pointers and references are not made *)
Definition plain_addr (e : Expr) : Prop := forall p pt, occurs e (inl (EAddrOf p pt)) -> match pt with PRaw _ | PRef _ _ => True | _ => False end.

(** the expressions of a program *)
Definition program_expr (prog : Program) (e : Expr) : Prop := exists fn func b blk, In (fn, func) (pr_functions prog) /\ In (b, blk) (fn_blocks func) /\
  ((exists s, In s (bb_statements blk) /\ stmt_expr s e) \/ term_expr (bb_terminator blk) e).

Section Wf.
  Variable T : Target.
  Variable prog : Program.
  Notation wf := (ty_check_wf T (has_trait prog)).
  (** the target types of transmutations are well-formed *)
  Definition good_transmutes (e : Expr) : Prop := forall t x, occurs e (inl (EUnOp (UCast (CTransmute t)) x)) -> wf t = Ret tt.

  Section Exprs.
    Variable locals : list (LocalName * Ty).
    Notation value := (value_check_wf T prog locals).
    Notation place := (place_check_wf T prog locals).

    Record fine (e : Expr) (ok pr : Prop) (ts : list Ty) : Prop := {
      fi_ok : ok;
      fi_pr : plain_addr e -> pr;
      fi_ty : good_transmutes e -> Forall (fun t => wf t = Ret tt) ts;
    }.
    Definition V (e : ValueExpr) : Prop := forall ty, value e = Ret ty -> fine (inl e) (ok_value e) (printable_value e) (value_types e).
    Definition P (p : PlaceExpr) : Prop := forall ty, place p = Ret ty -> fine (inr p) (ok_place p) (printable_place p) (place_types p).

    Lemma plain_child e e1 : plain_addr e -> child e e1 -> plain_addr e1.
    Proof. intros H Hc p pt Ho. apply (H p). by eapply oc_below. Qed.
    Lemma good_child e e1 : good_transmutes e -> child e e1 -> good_transmutes e1.
    Proof. intros H Hc t x Ho. apply (H t x). by eapply oc_below. Qed.
    Lemma fine_child e e1 ok pr ts : fine e1 ok pr ts -> child e e1 -> fine e ok pr ts.
    Proof. intros [H1 H2 H3] Hc. split; [done| |]; intros H; [apply H2; by eapply plain_child|apply H3; by eapply good_child]. Qed.

    Lemma int_no_tuple e it : value e = Ret (TInt it) -> no_tuple e.
    Proof. destruct e; try done. cbn [value_check_wf]. intros H. apply obind_ret in H as (u & _ & H). apply obind_ret in H as (u2 & E & H). injection H as ->. done. Qed.
    Lemma ptr_no_tuple e it : value e = Ret (TPtr it) -> no_tuple e.
    Proof. destruct e; try done. cbn [value_check_wf]. intros H. apply obind_ret in H as (u & _ & H). apply obind_ret in H as (u2 & E & H). injection H as ->. done. Qed.
    Lemma bool_no_tuple e : value e = Ret TBool -> no_tuple e.
    Proof. destruct e; try done. cbn [value_check_wf]. intros H. apply obind_ret in H as (u & _ & H). apply obind_ret in H as (u2 & E & H). injection H as ->. done. Qed.
    Lemma int_no_global e it : value e = Ret (TInt it) -> no_global e.
    Proof. destruct e as [c t| | | | | | | |]; try done. destruct c; try done. cbn [value_check_wf]. intros H. apply obind_ret in H as (u & _ & H). apply obind_ret in H as (u2 & E & H). injection H as ->. done. Qed.

    Lemma fine_exprs : (forall e, V e) /\ (forall p, P p).
    Proof.
      apply Expr_ind'.
      - intros c t ty _. split; [done|done|constructor].
      - intros es t IH ty H. cbn [value_check_wf] in H. apply obind_ret in H as (u & _ & H). apply obind_ret in H as (u2 & E & _).
        assert (Hes : (match t with TTuple _ _ _ | TArray _ _ => True | _ => False end) /\ Forall (fun e => exists t, value e = Ret t) es).
        { destruct t as [| | |fs h un|el n| | | |]; try done; split; try done.
          - apply obind_ret in E as (u3 & _ & E). apply obind_ret in E as (u4 & Hl & E). apply ensure_wf_ret, Nat.eqb_eq in Hl. destruct u2. apply for_each2_ret in E; [|done].
            clear - E. induction E as [|e f es fs He E IH]; constructor; [|done]. apply obind_ret in He as (x & Hx & _). eauto.
          - apply obind_ret in E as (u4 & Hl & E). destruct u2. apply for_each_ret in E. eapply Forall_impl; [exact E|]. intros e He. apply obind_ret in He as (x & Hx & _). eauto. }
        destruct Hes as [Ht Hes]. assert (Hall : Forall (fun e => fine (inl e) (ok_value e) (printable_value e) (value_types e)) es).
        { apply Forall_forall. intros e He. rewrite Forall_forall in IH, Hes. destruct (Hes _ He) as [x Hx]. by eapply IH. }
        assert (Hch : forall e, e ∈ es -> child (inl (ETuple es t)) (inl e)) by (intros e He; constructor; by apply elem_of_list_In).
        split.
        + cbn [ok_value]. clear - Hall. induction Hall as [|e es [He _ _] Hall IH]; done.
        + intros Hp. cbn [printable_value]. split; [done|]. assert (Hpc : forall e, e ∈ es -> plain_addr (inl e)) by (intros e He; eapply plain_child; [exact Hp|by apply Hch]).
          clear - Hall Hpc. induction Hall as [|e es [_ He _] Hall IH]; [done|]. split; [apply He, Hpc; by left|]. apply IH. intros e' He'. apply Hpc. by right.
        + intros Hg. cbn [value_types]. assert (Hpc : forall e, e ∈ es -> good_transmutes (inl e)) by (intros e He; eapply good_child; [exact Hg|by apply Hch]).
          clear - Hall Hpc. induction Hall as [|e es [_ _ He] Hall IH]; [constructor|]. apply Forall_app. split; [apply He, Hpc; by left|]. apply IH. intros e' He'. apply Hpc. by right.
      - intros f e t IH ty H. cbn [value_check_wf] in H. apply obind_ret in H as ([] & Hw & H). destruct t; try done.
        apply obind_ret in H as (u2 & _ & H). apply obind_ret in H as ([o t'] & _ & H). apply obind_ret in H as (x & Hx & _).
        destruct (fine_child _ _ _ _ _ (IH _ Hx) (ch_union f e (TUnion fields chunks size align))) as [H1 H2 H3]. split; [done|done|]. intros Hg. constructor; auto.
      - intros f e t IH ty H. cbn [value_check_wf] in H. destruct t; try done. apply obind_ret in H as ([] & Hw & H). destruct (map_get _ _); [|done]. apply obind_ret in H as (x & Hx & _).
        destruct (fine_child _ _ _ _ _ (IH _ Hx) (ch_variant f e (TEnum variants discriminant_ty discriminator size align))) as [H1 H2 H3]. split; [done|done|]. intros Hg. constructor; auto.
      - intros p IH ty H. cbn [value_check_wf] in H. apply obind_ret in H as (x & Hx & _). destruct (fine_child _ _ _ _ _ (IH _ Hx) (ch_discr p)) as [H1 H2 H3]. by split.
      - intros p IH ty H. cbn [value_check_wf] in H. apply obind_ret in H as (x & Hx & _). destruct (fine_child _ _ _ _ _ (IH _ Hx) (ch_load p)) as [H1 H2 H3]. by split.
      - intros p pt IH ty H. cbn [value_check_wf] in H. apply obind_ret in H as (u & _ & H). apply obind_ret in H as (x & Hx & _). destruct (fine_child _ _ _ _ _ (IH _ Hx) (ch_addr p pt)) as [H1 H2 H3]. split; [done| |done].
        intros Hp. split; [|auto]. apply (Hp p pt). constructor.
      - intros op e IH ty H. cbn [value_check_wf] in H. apply obind_ret in H as (x & Hx & H). destruct (fine_child _ _ _ _ _ (IH _ Hx) (ch_unop op e)) as [H1 H2 H3]. split; [done|done|].
        intros Hg. cbn [value_types]. apply Forall_app. split; [auto|]. destruct op as [|[|t]| | |t|t|]; cbn [un_types]; try constructor; try constructor.
        + eapply Hg. constructor.
        + cbn [unop_check_wf] in H. by apply obind_ret in H as ([] & H & _).
        + cbn [unop_check_wf] in H. by apply obind_ret in H as ([] & H & _).
      - intros op e1 e2 IH1 IH2 ty H. cbn [value_check_wf] in H. apply obind_ret in H as (t1 & Ht1 & H). apply obind_ret in H as (t2 & Ht2 & H).
        destruct (fine_child _ _ _ _ _ (IH1 _ Ht1) (ch_binl op e1 e2)) as [A1 A2 A3]. destruct (fine_child _ _ _ _ _ (IH2 _ Ht2) (ch_binr op e1 e2)) as [B1 B2 B3]. split.
        + cbn [ok_value]. split; [done|]. split; [done|]. destruct op as [o|o|o|b|b1 b2|pt]; try done; cbn [binop_check_wf] in H.
          * destruct t1; try done. destruct t2; try done. split; [by eapply int_no_tuple|]. split; [by eapply int_no_tuple|]. intros _. by eapply int_no_global.
          * destruct t1; try done. apply obind_ret in H as (u & Hu & _). apply ensure_wf_ret, bool_decide_eq_true in Hu as ->. split; by eapply int_no_tuple.
          * apply obind_ret in H as (u & Hu & H). apply obind_ret in H as (u2 & Hu2 & _). apply ensure_wf_ret, bool_decide_eq_true in Hu2 as ->. apply ensure_wf_ret in Hu.
            destruct t1; try done; split; first [by eapply int_no_tuple|by eapply ptr_no_tuple|by eapply bool_no_tuple].
        + intros Hp. split; auto.
        + intros Hg. cbn [value_types]. apply Forall_app. split; auto.
      - intros n ty _. split; [done|done|constructor].
      - intros e t IH ty H. cbn [place_check_wf] in H. apply obind_ret in H as ([] & Hw & H). apply obind_ret in H as (x & Hx & _). destruct (fine_child _ _ _ _ _ (IH _ Hx) (ch_deref e t)) as [H1 H2 H3]. split; [done|done|].
        intros Hg. constructor; auto.
      - intros p f IH ty H. cbn [place_check_wf] in H. apply obind_ret in H as (x & Hx & _). destruct (fine_child _ _ _ _ _ (IH _ Hx) (ch_field p f)) as [H1 H2 H3]. by split.
      - intros p e IHp IHe ty H. cbn [place_check_wf] in H. apply obind_ret in H as (x & Hx & H). apply obind_ret in H as (y & Hy & _).
        destruct (fine_child _ _ _ _ _ (IHp _ Hx) (ch_indexp p e)) as [A1 A2 A3]. destruct (fine_child _ _ _ _ _ (IHe _ Hy) (ch_indexe p e)) as [B1 B2 B3]. split; [done| |].
        + intros Hp. split; auto.
        + intros Hg. cbn [place_types]. apply Forall_app. split; auto.
      - intros p d IH ty H. cbn [place_check_wf] in H. apply obind_ret in H as (x & Hx & _). destruct (fine_child _ _ _ _ _ (IH _ Hx) (ch_downcast p d)) as [H1 H2 H3]. by split.
    Qed.
  End Exprs.

  Section Func.
    Variable func : Function.
    Notation locals := (fn_locals func).
    Record fines (is : Expr -> Prop) (ok pr : Prop) (ts : list Ty) : Prop := {
      fs_ok : ok;
      fs_pr : (forall e, is e -> plain_addr e) -> pr;
      fs_ty : (forall e, is e -> good_transmutes e) -> Forall (fun t => wf t = Ret tt) ts;
    }.
    Lemma fine_v e ty : value_check_wf T prog locals e = Ret ty -> fine (inl e) (ok_value e) (printable_value e) (value_types e).
    Proof. apply (proj1 (fine_exprs locals)). Qed.
    Lemma fine_p p ty : place_check_wf T prog locals p = Ret ty -> fine (inr p) (ok_place p) (printable_place p) (place_types p).
    Proof. apply (proj2 (fine_exprs locals)). Qed.

    Lemma fine_stmt s : statement_check_wf T prog func s = Ret tt -> fines (stmt_expr s) (ok_stmt s) (printable_stmt s) (stmt_types s).
    Proof.
      destruct s as [p e|p|p d|p b|p|l|l]; cbn [statement_check_wf]; intros H.
      - apply obind_ret in H as (t1 & H1 & H). apply obind_ret in H as (t2 & H2 & _). apply fine_p in H1 as [A1 A2 A3]. apply fine_v in H2 as [B1 B2 B3]. split.
        + done.
        + intros Hp. split; [apply A2, Hp|apply B2, Hp]; constructor.
        + intros Hp. apply Forall_app. split; [apply A3, Hp|apply B3, Hp]; constructor.
      - apply obind_ret in H as (t1 & H1 & _). apply fine_p in H1 as [A1 A2 A3]. split; [done| |]; intros Hp; [apply A2, Hp|apply A3, Hp]; constructor.
      - apply obind_ret in H as (t1 & H1 & _). apply fine_p in H1 as [A1 A2 A3]. split; [done| |]; intros Hp; [apply A2, Hp|apply A3, Hp]; constructor.
      - apply obind_ret in H as (t1 & H1 & _). apply fine_p in H1 as [A1 A2 A3]. split; [done| |]; intros Hp; [apply A2, Hp|apply A3, Hp]; constructor.
      - apply obind_ret in H as (t1 & H1 & _). apply fine_p in H1 as [A1 A2 A3]. split; [done| |]; intros Hp; [apply A2, Hp|apply A3, Hp]; constructor.
      - split; [done|done|constructor].
      - split; [done|done|constructor].
    Qed.

    Lemma fine_arg a ty : argument_check_wf T prog locals a = Ret ty -> fine (arg_expr a) (ok_arg a) (printable_arg a) (arg_types a).
    Proof. destruct a; cbn [argument_check_wf arg_expr ok_arg printable_arg arg_types]; [apply fine_v|apply fine_p]. Qed.

    Lemma fine_list {A} (ex : A -> Expr) ok pr (ts : A -> list Ty) (l : list A) : Forall (fun a => fine (ex a) (ok a) (pr a) (ts a)) l ->
      Forall ok l /\ ((forall a, In a l -> plain_addr (ex a)) -> Forall pr l) /\ ((forall a, In a l -> good_transmutes (ex a)) -> Forall (fun t => wf t = Ret tt) (flat_map ts l)).
    Proof.
      induction 1 as [|a l [H1 H2 H3] H (IH1 & IH2 & IH3)]; [split_and!; intros; constructor|]. split_and!.
      - by constructor.
      - intros Hp. constructor; [apply H2, Hp; by left|]. apply IH2. intros b Hb. apply Hp. by right.
      - intros Hp. cbn [flat_map]. apply Forall_app. split; [apply H3, Hp; by left|]. apply IH3. intros b Hb. apply Hp. by right.
    Qed.

    Lemma fine_term k t : terminator_check_wf T prog func k t = Ret tt -> fines (term_expr t) (ok_term t) (printable_term t) (term_types t).
    Proof.
      destruct t as [b|e cs fb| |op es p nb|c conv l p nb ub| |e b|b|]; cbn [terminator_check_wf]; intros H.
      - split; [done|done|constructor].
      - apply obind_ret in H as (t1 & H1 & _). apply fine_v in H1 as [A1 A2 A3]. split; [done| |]; intros Hp; [apply A2, Hp|apply A3, Hp]; constructor.
      - split; [done|done|constructor].
      - apply obind_ret in H as (t1 & H1 & H). apply fine_p in H1 as [A1 A2 A3]. apply obind_ret in H as (u1 & _ & H). apply obind_ret in H as ([] & Ha & H). apply obind_ret in H as (u3 & Ho & _).
        assert (Hl : Forall (fun e => fine (inl e) (ok_value e) (printable_value e) (value_types e)) es).
        { apply for_each_ret in Ha. eapply Forall_impl; [exact Ha|]. intros e He. apply obind_ret in He as (x & Hx & _). by eapply fine_v. }
        apply (fine_list inl) in Hl as (B1 & B2 & B3). split.
        + cbn [ok_term]. split_and!; try done. destruct op as [| | | | | | | | | | | | |o|l| | |]; try (destruct o; try done); try destruct l; cbn; tauto.
        + intros Hp. split; [apply B2; intros a Ha'; apply Hp; by constructor|apply A2, Hp; constructor].
        + intros Hp. apply Forall_app. split; [apply B3; intros a Ha'; apply Hp; by constructor|apply A3, Hp; constructor].
      - apply obind_ret in H as (t1 & H1 & H). apply obind_ret in H as (u1 & Hu & H). apply ensure_wf_ret, bool_decide_eq_true in Hu as ->. pose proof (ptr_no_tuple _ _ _ H1) as Hn.
        apply fine_v in H1 as [C1 C2 C3]. apply obind_ret in H as (t2 & H2 & H). apply fine_p in H2 as [A1 A2 A3].
        apply obind_ret in H as (u2 & _ & H). apply obind_ret in H as ([] & Ha & _).
        assert (Hl : Forall (fun a => fine (arg_expr a) (ok_arg a) (printable_arg a) (arg_types a)) l).
        { apply for_each_ret in Ha. eapply Forall_impl; [exact Ha|]. intros e He. apply obind_ret in He as (x & Hx & _). by eapply fine_arg. }
        apply (fine_list arg_expr) in Hl as (B1 & B2 & B3). split.
        + cbn [ok_term]. by split_and!.
        + intros Hp. split_and!; [apply C2, Hp; constructor|apply B2; intros a Ha'; apply Hp; by constructor|apply A2, Hp; constructor].
        + intros Hp. cbn [term_types]. rewrite !Forall_app. split_and!; [apply C3, Hp; constructor|apply B3; intros a Ha'; apply Hp; by constructor|apply A3, Hp; constructor].
      - split; [done|done|constructor].
      - apply obind_ret in H as (t1 & H1 & _). apply fine_v in H1 as [A1 A2 A3]. split; [done| |]; intros Hp; [apply A2, Hp|apply A3, Hp]; constructor.
      - split; [done|done|constructor].
      - split; [done|done|constructor].
    Qed.
  End Func.

  Lemma accepted_fine : program_check_wf T prog = Ret tt ->
    ((forall e, program_expr prog e -> plain_addr e) -> printable_program prog) /\
    ((forall e, program_expr prog e -> good_transmutes e) -> Forall (fun t => wf t = Ret tt) (program_types prog)).
  Proof.
    intros H. unfold program_check_wf in H. apply obind_ret in H as (u & _ & H). apply obind_ret in H as ([] & H & _). apply for_each_ret in H.
    assert (HB : forall fn func b blk, In (fn, func) (pr_functions prog) -> In (b, blk) (fn_blocks func) ->
      Forall (fun s => statement_check_wf T prog func s = Ret tt) (bb_statements blk) /\ terminator_check_wf T prog func (bb_kind blk) (bb_terminator blk) = Ret tt).
    { intros fn func b blk Hf Hb. rewrite List.Forall_forall in H. specialize (H _ Hf). unfold function_check_wf in H. cbn [snd] in H.
      apply obind_ret in H as (u1 & _ & H). apply obind_ret in H as (u2 & _ & H). apply obind_ret in H as (u3 & _ & H). apply obind_ret in H as (u4 & _ & H).
      apply for_each_ret in H. rewrite List.Forall_forall in H. specialize (H _ Hb). cbn [snd] in H. apply obind_ret in H as ([] & H1 & H2). by apply for_each_ret in H1. }
    split.
    - intros Hp. apply List.Forall_forall. intros [fn func] Hf. apply List.Forall_forall. intros [b blk] Hb. destruct (HB _ _ _ _ Hf Hb) as [H1 H2]. split; cbn [snd].
      + apply List.Forall_forall. intros s Hs. rewrite List.Forall_forall in H1. apply (fs_pr _ _ _ _ (fine_stmt _ _ (H1 _ Hs))). intros e He. apply Hp. exists fn, func, b, blk. eauto 6.
      + apply (fs_pr _ _ _ _ (fine_term _ _ _ H2)). intros e He. apply Hp. exists fn, func, b, blk. auto.
    - intros Hp. unfold program_types. apply List.Forall_forall. intros t Ht. apply in_flat_map in Ht as ([fn func] & Hf & Ht). cbn [snd] in Ht. unfold function_types in Ht. apply in_app_or in Ht as [Ht|Ht].
      + apply in_map_iff in Ht as ([l t'] & <- & Hl). rewrite List.Forall_forall in H. specialize (H _ Hf). unfold function_check_wf in H. apply obind_ret in H as ([] & H & _).
        apply for_each_ret in H. rewrite List.Forall_forall in H. specialize (H _ Hl). by apply obind_ret in H as (u1 & _ & H).
      + apply in_flat_map in Ht as ([b blk] & Hb & Ht). destruct (HB _ _ _ _ Hf Hb) as [H1 H2]. cbn [snd] in Ht. unfold block_types in Ht. apply in_app_or in Ht as [Ht|Ht].
        * apply in_flat_map in Ht as (s & Hs & Ht). rewrite List.Forall_forall in H1. pose proof (fs_ty _ _ _ _ (fine_stmt _ _ (H1 _ Hs))) as X. rewrite List.Forall_forall in X.
          apply X; [|done]. intros e He. apply Hp. exists fn, func, b, blk. eauto 6.
        * pose proof (fs_ty _ _ _ _ (fine_term _ _ _ H2)) as X. rewrite List.Forall_forall in X. apply X; [|done]. intros e He. apply Hp. exists fn, func, b, blk. auto.
  Qed.

  Lemma wf_comps t : wf t = Ret tt -> Forall (fun c => exists l, layout T c = Ret l) (comps t).
  Proof.
    induction t as [it| |pt|fs h u IHf IHu|e n IH|e IH|fs ch s a IHf|vs dt d s a IHv|tn] using Ty_ind'; intros H; try constructor.
    - destruct (wf_layout _ _ _ H) as (l & -> & _). eauto.
    - apply wf_tuple in H as (H & _ & _ & Hu & _). apply Forall_app. split.
      + clear - IHf H. induction IHf as [|f fs Hf IHf IH]; [constructor|]. inversion H as [|? ? (H1 & _) H2]; subst. apply Forall_app. auto.
      + destruct u as [u|]; [|constructor]. destruct (Hu u) as [Hu1 _]; [done|]. by eapply IHu.
    - apply wf_array in H as (_ & H & _). auto.
    - apply wf_slice in H as (H & _). auto.
    - destruct (wf_layout _ _ _ H) as (l & -> & _). eauto.
    - apply wf_union in H as (H & _).
      clear - IHf H. induction IHf as [|f fs Hf IHf IH]; [constructor|]. inversion H as [|? ? (H1 & _) H2]; subst. apply Forall_app. auto.
    - destruct (wf_layout _ _ _ H) as (l & -> & _). eauto.
    - apply wf_enum in H as (H & _).
      clear - IHv H. induction IHv as [|f fs Hf IHf IH]; [constructor|]. inversion H as [|? ? (_ & H1 & _) H2]; subst. apply Forall_app. auto.
  Qed.

  Lemma accepted_prints : program_check_wf T prog = Ret tt ->
    (forall e, program_expr prog e -> plain_addr e) -> (forall e, program_expr prog e -> good_transmutes e) -> exists fuel text, fmt_program T fuel prog = Ret text.
  Proof.
    intros H Hp Hg. apply accepted_fine in H as [H1 H2]. apply program_gives. split; [auto|]. intros t Ht. specialize (H2 Hg). apply in_flat in Ht as (x & Hx & Ht).
    rewrite Forall_forall in H2. specialize (H2 _ Hx). apply wf_comps in H2. rewrite Forall_forall in H2. auto.
  Qed.
End Wf.
