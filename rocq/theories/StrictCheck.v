(** A check for the conditions on programs of StepSpec.v and ProgressSpec.v. It is not a model of code in the
    repository: it shows that the conditions are about the text of the program and can be checked before running it. *)
From Verif Require Export ProgressSpec.
From Verif Require Import BaseProofs.
From Coq Require Import ZifyBool ZifyN ZifyNat.
Local Open Scope Z_scope.

(** an expression and all expressions that occur in it *)
Fixpoint value_subs (e : ValueExpr) : list Expr :=
  inl e ::
  match e with
  | EConstant _ _ => []
  | ETuple es _ => concat (List.map value_subs es)
  | EUnion _ e _ | EVariant _ e _ | EUnOp _ e => value_subs e
  | EGetDiscriminant p | ELoad p | EAddrOf p _ => place_subs p
  | EBinOp _ l r => value_subs l ++ value_subs r
  end
with place_subs (p : PlaceExpr) : list Expr :=
  inr p ::
  match p with
  | PLocal _ => []
  | PDeref e _ => value_subs e
  | PField p _ | PDowncast p _ => place_subs p
  | PIndex p e => place_subs p ++ value_subs e
  end.
Definition subs (e : Expr) : list Expr := match e with inl e => value_subs e | inr p => place_subs p end.
Definition stmt_subs (s : Statement) : list Expr :=
  match s with
  | SAssign d s => place_subs d ++ value_subs s
  | SPlaceMention p | SSetDiscriminant p _ | SValidate p _ | SDeinit p => place_subs p
  | SStorageLive _ | SStorageDead _ => []
  end.
Definition term_subs (tm : Terminator) : list Expr :=
  match tm with
  | TmSwitch v _ _ | TmStartUnwind v _ => value_subs v
  | TmCall c _ args ret _ _ => place_subs ret ++ value_subs c ++ concat (List.map (fun a => subs (arg_expr a)) args)
  | TmIntrinsic _ args ret _ => place_subs ret ++ concat (List.map value_subs args)
  | _ => []
  end.
Definition fn_subs (func : Function) : list Expr :=
  concat (List.map (fun b : BbName * BasicBlock => concat (List.map stmt_subs (bb_statements (snd b))) ++ term_subs (bb_terminator (snd b)))
    (fn_blocks func)).

Lemma in_subs_here e : In e (subs e).
Proof. destruct e as [e|p]; [destruct e|destruct p]; by left. Qed.
Lemma in_concat_map {A B} (f : A -> list B) l a b : In a l -> In b (f a) -> In b (concat (List.map f l)).
Proof. intros Ha Hb. apply in_concat. exists (f a). split; [by apply in_map|done]. Qed.
Lemma child_subs e e1 x : child e e1 -> In x (subs e1) -> In x (subs e).
Proof.
  destruct 1; intros Hx; cbn in *; right; try done; try (rewrite in_app_iff; tauto).
  by eapply in_concat_map.
Qed.
Lemma occurs_subs e e1 : occurs e e1 -> In e1 (subs e).
Proof. induction 1 as [e|e e1 e2 Hc Ho IH]; [apply in_subs_here|by eapply child_subs]. Qed.
Lemma stmt_subs_in s e x : stmt_expr s e -> In x (subs e) -> In x (stmt_subs s).
Proof. destruct 1; intros Hx; cbn in *; try done; rewrite in_app_iff; tauto. Qed.
Lemma term_subs_in tm e x : term_expr tm e -> In x (subs e) -> In x (term_subs tm).
Proof.
  destruct 1; intros Hx; cbn in *; try done; rewrite ?in_app_iff; try tauto.
  - right. right. by eapply (in_concat_map (fun a => subs (arg_expr a))).
  - right. by eapply in_concat_map.
Qed.
Lemma fn_subs_in func e : expr_of func e -> In e (fn_subs func).
Proof.
  intros (b & blk & e0 & Hb & Ho & He). apply map_get_in in Hb. eapply in_concat_map; [exact Hb|]. cbn.
  rewrite in_app_iff. apply occurs_subs in Ho. destruct He as [(s & Hs & He)|He]; [left|right].
  - eapply in_concat_map; [exact Hs|]. by eapply stmt_subs_in.
  - by eapply term_subs_in.
Qed.

Section Check.
  Variable T : Target.
  Variable prog : Program.

  Definition accepted {A} (o : Outcome A) : bool := match o with Ret _ => true | _ => false end.
  Definition plain_ptrb (pt : PtrType) : bool := match pt with PRaw MKNone | PFnPtr => true | _ => false end.
  Definition no_gapb (locals : list (LocalName * Ty)) (e : Expr) : bool :=
    match e with
    | inl (EConstant (KGlobalPointer _) ty) | inl (EConstant (KPointerWithoutProvenance _) ty) =>
        match ty with TPtr pt => plain_ptrb pt | _ => false end
    | inl (EUnOp (UCast (CIntToInt it)) _) => accepted (ty_check_wf T (has_trait prog) (TInt it))
    | inl (EUnOp (UCast (CTransmute ty)) _) => accepted (ty_check_wf T (has_trait prog) ty)
    | inl (EUnOp (UInt IUCountOnes) e) =>
        match value_check_wf T prog locals e with Ret (TInt it) => (it_size it <? 2 ^ 29)%N | _ => true end
    | inl (EBinOp (BConstructWidePointer pt) _ _) => accepted (ptrtype_check_wf T (has_trait prog) pt)
    | inl (EBinOp (BPtrOffset _) l _) => match value_check_wf T prog locals l with Ret (TPtr pt) => plain_ptrb pt | _ => true end
    | inl (EGetDiscriminant p) =>
        match place_check_wf T prog locals p with
        | Ret (TEnum _ dty _ _ _) => accepted (ty_check_wf T (has_trait prog) (TInt dty))
        | _ => true
        end
    | _ => true
    end.
  Lemma accepted_ret (o : Outcome unit) : accepted o = true -> o = Ret tt.
  Proof. by destruct o as [[]| | |]. Qed.
  Lemma plain_ptrb_ok pt : plain_ptrb pt = true -> plain_ptr pt.
  Proof. destruct pt as [| |[]| |]; intros H; try done; [by left|by right]. Qed.
  Lemma no_gapb_ok locals e : no_gapb locals e = true -> no_gap T prog locals e.
  Proof.
    destruct e as [[c ty|es ty|f e ty|d e ty|p|p|p pt|op e|op l r]|p]; cbn; try done.
    - destruct c; try done; destruct ty as [| |pt| | | | | |]; try done; intros H; exists pt; (split; [done|by apply plain_ptrb_ok]).
    - intros H vs dty discr s a Hp. rewrite Hp in H. by apply accepted_ret.
    - destruct op as [[]|[]| | | | |]; try done; cbn; intros H.
      + intros it He. rewrite He in H. apply N.ltb_lt in H. change (2 ^ 29)%N with 536870912%N in H. change (2 ^ 32) with 4294967296. lia.
      + by apply accepted_ret.
      + by apply accepted_ret.
    - destruct op; try done; cbn; intros H.
      + intros pt He. rewrite He in H. by apply plain_ptrb_ok.
      + by apply accepted_ret.
  Qed.

  Definition intrinsic_gapb (locals : list (LocalName * Ty)) (tm : Terminator) : bool :=
    match tm with
    | TmIntrinsic op args ret _ =>
        match op with
        | InAllocate | InGetUnwindPayload | InPointerWithExposedProvenance =>
            match place_check_wf T prog locals ret with Ret (TPtr pt) => plain_ptrb pt | _ => true end
        | _ => true
        end &&
        match op with
        | InPointerWithExposedProvenance =>
            forallb (fun e => match value_check_wf T prog locals e with
                              | Ret (TInt it) => match it_signed it with Unsigned => (it_size it <=? PTR_SIZE T)%N | Signed => false end
                              | _ => true end) args
        | _ => true
        end
    | _ => true
    end.
  Lemma unsigned_address it i : it_signed it = Unsigned -> (it_size it <= PTR_SIZE T)%N -> can_represent it i = true -> address_ok T i.
  Proof.
    intros Hs Hle. unfold can_represent, in_bounds, address_ok, size_bits. rewrite Hs.
    assert (2 ^ (8 * Z.of_N (it_size it)) <= 2 ^ (8 * Z.of_N (PTR_SIZE T))) by (apply Z.pow_le_mono_r; lia).
    destruct (it_size it =? 0)%N.
    - intros ->%Z.eqb_eq. assert (0 < 2 ^ (8 * Z.of_N (PTR_SIZE T))) by (apply Z.pow_pos_nonneg; lia). lia.
    - lia.
  Qed.
  Lemma intrinsic_gapb_ok locals tm : intrinsic_gapb locals tm = true -> intrinsic_gap T prog locals tm.
  Proof.
    destruct tm; try done. cbn. intros [H1 H2]%andb_true_iff. split.
    - destruct op; try done; intros pt Hp; rewrite Hp in H1; by apply plain_ptrb_ok.
    - destruct op; try done. rewrite forallb_forall in H2. intros e it i Hin He Hr. specialize (H2 e Hin). rewrite He in H2.
      destruct (it_signed it) eqn:Es; [done|]. apply N.leb_le in H2. by eapply unsigned_address.
  Qed.

  Definition strictb : bool :=
    bool_decide (names_unique prog) &&
    forallb (fun nf : FnName * Function => match map_get (fn_blocks (snd nf)) (fn_start (snd nf)) with
               | Some b => bool_decide (bb_kind b = BkRegular) | None => false end) (pr_functions prog) &&
    forallb (fun nv : VTableName * VTable => forallb (fun mf => bool_decide (is_Some (map_get (pr_functions prog) (snd mf)))) (vt_methods (snd nv)))
      (pr_vtables prog) &&
    forallb (fun nf : FnName * Function => forallb (no_gapb (fn_locals (snd nf))) (fn_subs (snd nf))) (pr_functions prog) &&
    forallb (fun nf : FnName * Function => forallb (fun b : BbName * BasicBlock => intrinsic_gapb (fn_locals (snd nf)) (bb_terminator (snd b)))
               (fn_blocks (snd nf))) (pr_functions prog).
  Lemma strictb_ok : strictb = true -> strict_program T prog.
  Proof.
    unfold strictb. rewrite !andb_true_iff, !forallb_forall. intros ((((H1 & H2) & H3) & H4) & H5). apply bool_decide_eq_true in H1.
    assert (Hg : forall n func e1, map_get (pr_functions prog) n = Some func -> expr_of func e1 -> no_gap T prog (fn_locals func) e1).
    { intros n func e1 Hn Ho. apply map_get_in in Hn. specialize (H4 _ Hn). cbn in H4. rewrite forallb_forall in H4. apply no_gapb_ok, H4. by apply fn_subs_in. }
    split; [done|..].
    - intros n f Hn. apply map_get_in in Hn. specialize (H2 _ Hn). cbn in H2. destruct (map_get (fn_blocks f) (fn_start f)) as [b|]; [|done].
      exists b. split; [done|]. by apply bool_decide_eq_true in H2.
    - intros n vt meth fn Hn Hm. apply map_get_in in Hn, Hm. specialize (H3 _ Hn). cbn in H3. rewrite forallb_forall in H3. specialize (H3 _ Hm).
      apply bool_decide_eq_true in H3. destruct H3 as [f Hf]. by exists f.
    - intros n func b blk s e Hn Hb Hs He e1 Ho. eapply (Hg n func e1 Hn). exists b, blk, e. split_and!; eauto.
    - intros n func b blk e Hn Hb He e1 Ho. eapply (Hg n func e1 Hn). exists b, blk, e. split_and!; eauto.
    - intros n func b blk Hn Hb. apply map_get_in in Hn, Hb. specialize (H5 _ Hn). cbn in H5. rewrite forallb_forall in H5. apply intrinsic_gapb_ok. exact (H5 _ Hb).
  Qed.

  (** ** Simple programs *)

  Fixpoint ptrs_in (ty : Ty) : list PtrType :=
    match ty with
    | TPtr pt => [pt]
    | TTuple fields _ _ => concat (List.map (fun f => ptrs_in (snd f)) fields)
    | TArray elem _ => ptrs_in elem
    | TEnum variants _ _ _ _ => concat (List.map (fun v => ptrs_in (fst (snd v))) variants)
    | _ => []
    end.
  Lemma ptrs_in_ok ty pt : ptr_in ty pt -> In pt (ptrs_in ty).
  Proof.
    induction 1 as [pt|fields head u i o t pt Hi Hp IH|elem count pt Hp IH|variants dty discr size align d t tg pt Hg Hp IH]; cbn.
    - by left.
    - apply (in_concat_map (fun f => ptrs_in (snd f)) _ (o, t)); [|done]. apply elem_of_list_In. by eapply elem_of_list_lookup_2.
    - done.
    - apply map_get_in in Hg. by apply (in_concat_map (fun v : Z * (Ty * Tagger) => ptrs_in (fst (snd v))) _ (d, (t, tg))).
  Qed.
  Definition size_knownb (e : Expr) : bool :=
    match e with
    | inl (EUnOp (UComputeSize ty) _) => match layout T ty with Ret (LSized s _) => Z.of_N s <? 2 ^ (8 * Z.of_N (PTR_SIZE T)) | _ => false end
    | inl (EUnOp (UComputeAlign ty) _) => match layout T ty with Ret (LSized _ a) => Z.of_N (align_bytes a) <? 2 ^ (8 * Z.of_N (PTR_SIZE T)) | _ => false end
    | _ => true
    end.
  Lemma size_knownb_ok e : size_knownb e = true -> size_known T e.
  Proof.
    destruct e as [[]|]; try done. destruct op; try done; cbn; destruct (layout T ty) as [[s a| | |]| | |]; try done; intros H;
      exists s, a; (split; [done|lia]).
  Qed.
  Definition simpleb : bool :=
    forallb (fun nf : FnName * Function =>
      forallb size_knownb (fn_subs (snd nf)) &&
      match map_get (fn_locals (snd nf)) (fn_ret (snd nf)) with
      | Some ty => forallb (fun pt => match safe_pointee pt with None => true | Some _ => false end) (ptrs_in ty)
      | None => true
      end &&
      forallb (fun b : BbName * BasicBlock => match bb_terminator (snd b) with TmIntrinsic (InAtomicFetchAndOp _) _ _ _ => false | _ => true end)
        (fn_blocks (snd nf))) (pr_functions prog).
  Lemma simpleb_ok : simpleb = true -> simple_program T prog.
  Proof.
    unfold simpleb. rewrite forallb_forall. intros H. split.
    - intros n func e Hn He. apply map_get_in in Hn. apply fn_subs_in in He. specialize (H _ Hn). cbn in H. rewrite !andb_true_iff, !forallb_forall in H.
      apply size_knownb_ok. by apply H.
    - intros n func ty pt Hn Ht Hp. apply map_get_in in Hn. specialize (H _ Hn). cbn in H. rewrite !andb_true_iff, Ht in H. destruct H as [[_ H] _].
      rewrite forallb_forall in H. apply ptrs_in_ok in Hp. specialize (H _ Hp). by destruct (safe_pointee pt).
    - intros n func b blk op args ret nb Hn Hb E. apply map_get_in in Hn, Hb. specialize (H _ Hn). cbn in H. rewrite !andb_true_iff, !forallb_forall in H.
      destruct H as [_ H]. specialize (H _ Hb). cbn in H. by rewrite E in H.
  Qed.
  Definition big_pointeeb (pt : PtrType) : bool :=
    match safe_pointee pt with
    | Some pi => match pi_layout pi with LSized s _ => negb (s =? 0)%N | _ => false end
    | None => true
    end.
  Lemma big_pointeeb_ok pt : big_pointeeb pt = true -> big_pointee pt.
  Proof.
    unfold big_pointeeb, big_pointee. intros H pi Hp. rewrite Hp in H. destruct (pi_layout pi) as [s a| | |]; try done. exists s, a. split; [done|lia].
  Qed.
  Definition no_empty_refsb : bool :=
    forallb (fun nf : FnName * Function =>
      forallb (fun e => match e with inl (EAddrOf _ pt) => big_pointeeb pt | _ => true end) (fn_subs (snd nf)) &&
      forallb (fun b : BbName * BasicBlock => forallb (fun s => match s with
        | SValidate p _ => match place_check_wf T prog (fn_locals (snd nf)) p with
                           | Ret ty => forallb big_pointeeb (ptrs_in ty)
                           | _ => true
                           end
        | _ => true
        end) (bb_statements (snd b))) (fn_blocks (snd nf))) (pr_functions prog).
  Lemma no_empty_refsb_ok : no_empty_refsb = true -> no_empty_refs T prog.
  Proof.
    unfold no_empty_refsb. rewrite forallb_forall. intros H. split.
    - intros n func p pt Hn He. apply map_get_in in Hn. apply fn_subs_in in He. specialize (H _ Hn). cbn in H. rewrite !andb_true_iff, !forallb_forall in H.
      destruct H as [H _]. specialize (H _ He). by apply big_pointeeb_ok.
    - intros n func b blk p fe ty pt Hn Hb Hs Hw Hp. apply map_get_in in Hn, Hb. specialize (H _ Hn). cbn in H. rewrite !andb_true_iff, !forallb_forall in H.
      destruct H as [_ H]. specialize (H _ Hb). cbn in H. rewrite forallb_forall in H. specialize (H _ Hs). cbn in H. rewrite Hw in H.
      rewrite forallb_forall in H. apply big_pointeeb_ok, H. by apply ptrs_in_ok.
  Qed.
End Check.
