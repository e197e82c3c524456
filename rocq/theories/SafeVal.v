(** Operators keep values well-formed and do not panic. *)
From Verif Require Export SafeMach SafeTy OpsProofs.
From stdpp Require Import relations.
From Coq Require Import ZifyBool ZifyN ZifyNat.
Local Open Scope Z_scope.

(** ** Values that may have integers that are too large *)

Section Lax.
  Context {P : Type} `{EqDecision P}.
  Variable T : Target.
  Variable env : ChkEnv P.
  Inductive lax : Ty -> Value P -> Prop :=
  | lx_int it i : can_represent it i = true \/ 0 <= i -> lax (TInt it) (VInt i)
  | lx_bool b : lax TBool (VBool b)
  | lx_ptr pt p : check_ptr T env p pt = Ret tt -> lax (TPtr pt) (VPtr p)
  | lx_tuple fields head vs : Forall2 (fun f v => lax (snd f) v) fields vs -> lax (TTuple fields head None) (VTuple vs)
  | lx_array elem count vs : Z.of_nat (length vs) = count -> Forall (lax elem) vs -> lax (TArray elem count) (VTuple vs)
  | lx_union fields chunks size align data : Forall2 (fun c d => N.of_nat (length d) = snd c) chunks data ->
      lax (TUnion fields chunks size align) (VUnion data)
  | lx_enum variants dty discr size align d t tg v : map_get variants d = Some (t, tg) -> lax t v ->
      lax (TEnum variants dty discr size align) (VVariant d v).

  Lemma check_lax ty v : check_value T env ty v = Ret tt -> lax ty v.
  Proof.
    revert v. induction ty as [it| |pt|fields head u IHf IHu|elem count IHe|elem IHe|fields chunks size align IHf
      |variants dty discr size align IHv|tn] using Ty_ind'; intros v Hc.
    - cbn in Hc. destruct v; try done. apply ensure_else_ub_ret in Hc. constructor. by left.
    - cbn in Hc. destruct v; try done. constructor.
    - cbn in Hc. destruct v; try done. by constructor.
    - apply check_tuple_ret in Hc as (-> & vs & -> & HF). constructor.
      apply Forall2_same_length_lookup_2; [by eapply Forall2_length|]. intros i f v Hf Hv.
      rewrite Forall_lookup in IHf. apply (IHf i _ Hf). exact (Forall2_lookup_lr _ _ _ _ _ _ HF Hf Hv).
    - apply check_array_ret in Hc as (vs & -> & Hl & HF). constructor; [done|]. eapply Forall_impl; [exact HF|]. done.
    - cbn in Hc. by destruct v.
    - apply check_union_ret in Hc as (data & -> & HF). by constructor.
    - apply check_enum_ret in Hc as (d & w & t & tg & -> & Hg & Hw). econstructor; [exact Hg|].
      apply map_get_in in Hg. rewrite List.Forall_forall in IHv. apply (IHv _ Hg). done.
    - cbn in Hc. by destruct v.
  Qed.
  Lemma lax_check ty v : lax ty v -> shape T ty v -> check_value T env ty v = Ret tt.
  Proof.
    intros Hl Hs. apply check_value_leaves. split; [done|]. clear Hs. intros pt p Hlf. revert Hl.
    induction Hlf as [|fields head vals i o t v pt p Hf Hv Hlf IH
      |elem count vals i v pt p Hv Hlf IH|variants dty discr size align d ty tg v pt p E Hlf IH]; intros Hl; inversion Hl; subst.
    - done.
    - match goal with H : Forall2 _ _ _ |- _ => apply IH; exact (Forall2_lookup_lr _ _ _ _ _ _ H Hf Hv) end.
    - match goal with H : Forall _ _ |- _ => rewrite Forall_lookup in H; apply IH; by eapply H end.
    - match goal with H : map_get _ _ = _ |- _ => rewrite E in H; injection H as -> -> end. auto.
  Qed.
  Lemma lax_int it v : lax (TInt it) v -> exists i, v = VInt i /\ (can_represent it i = true \/ 0 <= i).
  Proof. intros H. inversion H; subst. eauto. Qed.
  Lemma lax_ptr pt v : lax (TPtr pt) v -> exists p, v = VPtr p /\ check_ptr T env p pt = Ret tt.
  Proof. intros H. inversion H; subst. eauto. Qed.
End Lax.
Lemma lax_mono {P} `{EqDecision P} T (e1 e2 : ChkEnv P) ty v :
  (forall p pt, check_ptr T e1 p pt = Ret tt -> check_ptr T e2 p pt = Ret tt) -> lax T e1 ty v -> lax T e2 ty v.
Proof.
  intros He. revert v. induction ty as [it| |pt|fields head u IHf IHu|elem count IHe|elem IHe|fields chunks size align IHf
      |variants dty discr size align IHv|tn] using Ty_ind'; intros v Hc; inversion Hc; subst.
  - by constructor.
  - constructor.
  - constructor. by apply He.
  - constructor. apply Forall2_same_length_lookup_2; [by eapply Forall2_length|]. intros i f v Hf Hv.
    rewrite Forall_lookup in IHf. apply (IHf i _ Hf). match goal with H : Forall2 _ _ _ |- _ => exact (Forall2_lookup_lr _ _ _ _ _ _ H Hf Hv) end.
  - constructor; [done|]. eapply Forall_impl; [eassumption|]. done.
  - by constructor.
  - econstructor; [eassumption|]. match goal with H : map_get _ _ = _ |- _ => apply map_get_in in H; rewrite List.Forall_forall in IHv; apply (IHv _ H) end. done.
Qed.

(** ** Metadata *)

Section Meta.
  Context {P : Type} `{EqDecision P}.
  Variable T : Target.
  Hypothesis Tok : target_ok T.
  Variable Q : P -> Prop.
  Variable env : ChkEnv P.
  Hypothesis He : env_known Q env.
  (** the size behind such metadata can be computed *)
  Definition meta_ok (mk : MetaKind) (m : option (PtrMeta P)) : Prop :=
    match mk with
    | MKNone => m = None
    | MKElementCount => exists c, m = Some (MElementCount c) /\ 0 <= c
    | MKVTablePointer tn => exists p, m = Some (MVTablePointer p) /\ vtable_for env p tn
    end.
  Lemma valid_meta_ok mk m : valid_meta T env mk m -> meta_ok mk m.
  Proof. intros H. inversion H; subst; cbn; eauto. eexists. split; [done|lia]. Qed.
  Lemma meta_ok_layout ht l m : layout_check_wf T ht l = Ret tt -> meta_ok (layout_meta_kind l) m -> layout_meta_ok env l m.
  Proof.
    destruct He as (_ & _ & Hl). induction l as [s a|s a|tn|h tail IH]; cbn; intros Hw Hm.
    - done.
    - done.
    - destruct Hm as (p & -> & vt & Hv & _). exists p, vt. split; [done|by apply Hl].
    - apply obind_ret in Hw as ([] & _ & Hw). apply obind_ret in Hw as ([] & Hw & Hs). apply ensure_wf_ret in Hs.
      split; [|by apply IH]. destruct tail; cbn in *; try done.
      + by destruct Hm as (? & -> & _).
      + by destruct Hm as (? & -> & _).
      + destruct (IH Hw Hm). done.
  Qed.
  Lemma size_align_total ht ty m : ty_check_wf T ht ty = Ret tt -> meta_ok (ty_meta_kind ty) m ->
    exists l s a, layout T ty = Ret l /\ compute_size_and_align l m (ce_vtable_lookup env) = Ret (s, a) /\ layout_meta_kind l = ty_meta_kind ty.
  Proof.
    intros Hw Hm. destruct (wf_layout T ht ty Hw) as (l & Hl & Hlw & _ & Hk). rewrite <- Hk in Hm.
    destruct (compute_size_and_align_total env l m (meta_ok_layout ht l m Hlw Hm)) as (s & a & E). eauto 10.
  Qed.
  Lemma meta_lax mk v : lax T env (meta_kind_ty T mk) v ->
    exists m, meta_decode_value mk v = Ret m /\ meta_ok mk m /\ (val_in Q v -> meta_in Q m).
  Proof.
    destruct mk; cbn; intros H; inversion H; subst.
    - match goal with H : Forall2 _ [] _ |- _ => inversion H; subst end. eexists. done.
    - eexists. split; [done|]. split; [|done]. eexists. split; [done|].
      match goal with H : _ \/ _ |- _ => destruct H as [H|H]; [|done] end. unfold can_represent in *.
      match goal with H : _ = true |- _ => apply (in_bounds_usize T) in H end. lia.
    - match goal with H : check_ptr _ _ _ _ = _ |- _ => apply (check_ptr_iff T Tok) in H; inversion H; subst end.
      destruct p as [p me]. cbn in *. subst me. eexists. split; [done|]. split; [eauto|]. by intros [? _].
  Qed.
  Lemma check_ptr_meta pt p : check_ptr T env p pt = Ret tt -> address_ok T (tp_addr (p_thin p)) /\ valid_meta T env (ptr_meta_kind pt) (p_meta p).
  Proof.
    intros H. apply (check_ptr_iff T Tok) in H. inversion H; subst; cbn; split; try done.
    - destruct p; cbn in *; subst; constructor.
    - destruct p; cbn in *; subst; constructor.
  Qed.
  Lemma plain_check pt p : plain_ptr pt -> address_ok T (tp_addr p) -> check_ptr T env (mkPtr p None) pt = Ret tt.
  Proof.
    intros [->| ->] Ha; apply (check_ptr_iff T Tok); constructor; try done. constructor.
  Qed.
End Meta.

Lemma wp_ub {A} (E : Prop) (o : Outcome A) (Q : A -> Prop) : ok_or_ub o -> (forall a, o = Ret a -> Q a) -> wp E o Q.
Proof. intros [[a ->]|[msg ->]] H; cbn; auto. Qed.

Section SafeVal.
  Context {PE AE F : Type} `{EqDecision (nat * PE)}.
  Variable T : Target.
  Variable MO : MemOps (nat * PE) F (BMem PE AE).
  Variable SM : safe_mem T MO.
  Hypothesis Tok : target_ok T.
  Hypothesis Std : target_std T.
  Variable prog : Program.
  Hypothesis Hmeth : methods_exist prog.
  Notation P := (nat * PE)%type.
  Notation Mach := (Machine P F (BMem PE AE)).
  Notation BL := (sm_like SM).
  Notation sinv := (sinv T MO SM prog).
  Notation ext := (ext T MO SM prog).
  Notation vok := (vok T MO SM).
  Notation prov_ok := (prov_ok T MO SM).
  Notation good_ptr := (good_ptr T MO SM).
  Notation wfT ty := (ty_check_wf T any_trait ty = Ret tt).
  Variable E : Prop.

  (** [good m ty v]: [v] is a value of type [ty], up to the range of integers if there is a cause [E] *)
  Definition good (m : Mach) (ty : Ty) (v : Value P) : Prop :=
    lax T (chk_env MO m) ty v /\ val_in (prov_ok m) v /\ (E \/ shape T ty v).
  Lemma vok_good m ty v : vok m ty v -> good m ty v.
  Proof. intros [H1 H2]. split_and!; [by apply check_lax|done|right; by eapply check_value_shape]. Qed.
  Lemma good_vok m ty v : good m ty v -> E \/ vok m ty v.
  Proof. intros (H1 & H2 & [H3|H3]); [by left|right]. split; [by apply lax_check|done]. Qed.
  Lemma ext_good_val m m' ty v : ext m m' -> good m ty v -> good m' ty v.
  Proof.
    intros Hx (H1 & H2 & H3). split_and!; [|eapply val_in_mono; [apply (ex_prov _ _ _ _ _ _ Hx)|done]|done].
    eapply lax_mono; [|exact H1]. intros p pt Hc.
    pose proof (ex_quiet _ _ _ _ _ _ Hx) as [Hs Hv].
    apply (grows_value T MO SM Tok m m' (TPtr pt) (VPtr p)); [by apply grows_view|by apply same_vts|by apply same_prog|done].
  Qed.
  Lemma good_int m it i : can_represent it i = true -> good m (TInt it) (VInt i).
  Proof. intros Hc. split_and!; [constructor; by left|done|right; by constructor]. Qed.
  Lemma good_bool m b : good m TBool (VBool b).
  Proof. split_and!; [constructor|done|right; constructor]. Qed.
  Lemma good_pointer m pt p : check_ptr T (chk_env MO m) p pt = Ret tt -> ptr_in (prov_ok m) p -> good m (TPtr pt) (VPtr p).
  Proof. intros H1 H2. by apply vok_good. Qed.
  Lemma good_ptr_inv m pt v : good m (TPtr pt) v -> exists p, v = VPtr p /\ check_ptr T (chk_env MO m) p pt = Ret tt /\
    ptr_in (prov_ok m) p /\ good_ptr m (p_thin p) /\ valid_meta T (chk_env MO m) (ptr_meta_kind pt) (p_meta p).
  Proof.
    intros (H1 & H2 & _). apply lax_ptr in H1 as (p & -> & Hc). exists p.
    destruct (check_ptr_meta T Tok _ _ _ Hc) as [Ha Hm]. split_and!; try done. split; [apply H2|done].
  Qed.

  Definition result_ok (m : Mach) (ty : Ty) (r : Value P * Ty) : Prop := snd r = ty /\ good m ty (fst r).

  Lemma transmute_safe m ty ty' v : sinv m -> wfT ty -> wfT ty' -> sized T ty -> sized T ty' -> good m ty v ->
    tsize T ty = tsize T ty' ->
    wp E (transmute T (chk_env MO m) v ty ty') (fun w => good m ty' w).
  Proof.
    intros Hm Hw Hw' Hs Hs' (Hl & Hin & Hsh) Ez. unfold transmute.
    rewrite (sized_tsize T _ Hs), (sized_tsize T _ Hs'). cbn [obind]. rewrite Ez, N.eqb_refl. cbn [assert_ obind].
    apply wp_bind. apply wp_safe.
    { intros Ep. destruct Hsh as [?|Hsh]; [done|]. destruct (encode_total T Tok any_trait ty v Hw Hsh) as (b & Hb & _). congruence. }
    intros b Hb. apply wp_bind. apply wp_safe.
    { intros Ep. destruct Hsh as [?|Hsh]; [done|]. pose proof (encode_length T Tok any_trait ty v b Hw Hsh Hb) as Hlen.
      destruct (decode_total T Tok any_trait ty' b Hw' Hs') as [o Ho]; [lia|]. congruence. }
    intros [w|] Ho; [|done]. apply wp_bind.
    assert (Hin' : val_in (prov_ok m) w) by (eapply (decode_in T _ Tok any_trait); [exact Hw'|exact Ho|by eapply encode_in]).
    destruct (known_value_ok T (prov_ok m) any_trait (chk_env MO m) ty' w) as [[[] Ec]|[msg Ec]].
    - by apply (env_ok T MO SM prog).
    - done.
    - by eapply decode_shape.
    - done.
    - rewrite Ec. cbn. by apply vok_good.
    - by rewrite Ec.
  Qed.

  Lemma un_op_safe locals m0 m e op v ty ty' :
    sinv m -> eval_value T MO e m0 = Ret (v, ty, m) -> value_check_wf T prog locals e = Ret ty -> wfT ty ->
    no_gap T prog locals (inl (EUnOp op e)) -> good m ty v -> unop_check_wf T prog op ty = Ret ty' ->
    (too_big T MO m0 (inl (EUnOp op e)) -> E) ->
    wp E (eval_un_op T MO m op (v, ty)) (result_ok m ty').
  Proof.
    intros Hm Hev Hck Hw Hgap Hg Hop Hbig. unfold eval_un_op.
    destruct op as [iop|[it|nt]| | |sty|sty|meth]; cbn [unop_check_wf no_gap] in Hop, Hgap.
    - destruct ty as [it| | | | | | | |]; try done. injection Hop as <-. destruct Hg as (Hl & _ & _).
      apply lax_int in Hl as (i & -> & _). destruct iop; cbn [eval_int_un_op obind int_un_op_ty].
      + cbn [check_value]. unfold int_bring_in_bounds, can_represent. rewrite bring_in_bounds_in. cbn.
        split; [done|]. apply good_int, bring_in_bounds_in.
      + cbn [check_value]. unfold int_bring_in_bounds, can_represent. rewrite bring_in_bounds_in. cbn.
        split; [done|]. apply good_int, bring_in_bounds_in.
      + specialize (Hgap it Hck). pose proof (count_ones_spec T MO m i it Hgap) as Hc.
        unfold eval_un_op in Hc. cbn [eval_int_un_op obind int_un_op_ty] in Hc.
        destruct (check_value _ _ _ _) as [[]| | |] eqn:Ec; try done. cbn. split; [done|].
        cbn in Ec. apply ensure_else_ub_ret in Ec. by apply good_int.
    - destruct ty as [jt| | | | | | | |]; try done. injection Hop as <-. destruct Hg as (Hl & _ & _).
      apply lax_int in Hl as (i & -> & _). cbn. split; [done|]. apply good_int, bring_in_bounds_in.
    - apply obind_ret in Hop as (l & Hl & Hop). apply obind_ret in Hop as ([] & Hs & Hop). apply ensure_wf_ret in Hs.
      apply obind_ret in Hop as (l' & Hl' & Hop). apply obind_ret in Hop as ([] & Hs' & [= ->]). apply ensure_wf_ret in Hs'.
      destruct l as [s a| | |]; try done. destruct l' as [s' a'| | |]; try done.
      assert (S1 : sized T ty) by (by exists s, a). assert (S2 : sized T ty') by (by exists s', a').
      rewrite (sized_tsize T _ S1), (sized_tsize T _ S2). cbn [obind].
      destruct (N.eqb_spec (tsize T ty) (tsize T ty')) as [Ez|]; [|done]. cbn [negb]. apply wp_bind.
      eapply wp_mono; [by eapply transmute_safe; eauto; eapply to_any|]. by intros w Hw2.
    - destruct ty as [| |pt| | | | | |]; try done. injection Hop as <-. apply good_ptr_inv in Hg as (p & -> & Hc & Hin & [Ht Ha] & _).
      cbn. split; [done|]. apply good_pointer; [|split; done]. apply plain_check; [done|by left|done].
    - destruct ty as [| |pt| | | | | |]; try done. injection Hop as <-. apply good_ptr_inv in Hg as (p & -> & Hc & Hin & Hgp & Hme).
      destruct p as [p me]. cbn [p_thin p_meta] in *. destruct Hin as [_ Him]. cbn [p_meta] in Him.
      inversion Hme as [E1 E2|c Hcc E1 E2|tn q Hq Hvt E1 E2]; subst me; cbn [meta_encode_as_value obind meta_kind_ty].
      + cbn. split; [done|]. split_and!; [repeat constructor|done|right; repeat constructor].
      + assert (Hr : can_represent (usize_ty T) c = true) by (by apply (in_bounds_usize T)).
        cbn [check_value]. rewrite Hr. cbn. split; [done|]. by apply good_int.
      + assert (Hk : check_ptr T (chk_env MO m) (mkPtr q None) (PVTablePtr tn) = Ret tt).
        { apply (check_ptr_iff T Tok). by constructor. }
        cbn [check_value]. unfold widen. rewrite Hk. cbn. split; [done|]. by apply good_pointer.
    - apply obind_ret in Hop as ([] & Hsw & Hop). case_bool_decide as Et; [|done]. injection Hop as <-. subst ty.
      destruct Hg as (Hl & Hin & _). pose proof (env_ok T MO SM prog m Hm) as He.
      destruct (meta_lax T Tok (prov_ok m) _ _ _ Hl) as (me & Hd & Hmo & _). rewrite Hd. cbn [obind].
      destruct (size_align_total T _ _ He _ sty me Hsw Hmo) as (l & s & a & Hly & Hc & _). rewrite Hly. cbn [obind].
      assert (Hcs : compute_size (chk_env MO m) l me = Ret s) by (unfold compute_size; by rewrite Hc). rewrite Hcs. cbn.
      split; [done|]. split_and!; [constructor; right; lia|done|].
      destruct (Z.ltb_spec (Z.of_N s) (2 ^ (8 * Z.of_N (PTR_SIZE T)))) as [Hlt|Hge].
      + right. constructor. apply (in_bounds_usize T). lia.
      + left. apply Hbig. eapply tb_size; eauto.
    - apply obind_ret in Hop as ([] & Hsw & Hop). case_bool_decide as Et; [|done]. injection Hop as <-. subst ty.
      destruct Hg as (Hl & Hin & _). pose proof (env_ok T MO SM prog m Hm) as He.
      destruct (meta_lax T Tok (prov_ok m) _ _ _ Hl) as (me & Hd & Hmo & _). rewrite Hd. cbn [obind].
      destruct (size_align_total T _ _ He _ sty me Hsw Hmo) as (l & s & a & Hly & Hc & _). rewrite Hly. cbn [obind].
      assert (Hcs : compute_align (chk_env MO m) l me = Ret a) by (unfold compute_align; by rewrite Hc). rewrite Hcs. cbn.
      split; [done|]. split_and!; [constructor; right; lia|done|].
      destruct (Z.ltb_spec (Z.of_N (align_bytes a)) (2 ^ (8 * Z.of_N (PTR_SIZE T)))) as [Hlt|Hge].
      + right. constructor. apply (in_bounds_usize T). lia.
      + left. apply Hbig. eapply tb_align; eauto.
    - destruct ty as [| |[| | | |tn]| | | | | |]; try done. apply obind_ret in Hop as (ms & Hms & Hop). apply unwrap_ret in Hms.
      apply obind_ret in Hop as ([] & Hin & [= <-]). apply ensure_wf_ret, bool_decide_eq_true in Hin.
      apply good_ptr_inv in Hg as (p & -> & Hc & Hinp & Hgp & Hme).
      apply (check_ptr_iff T Tok) in Hc. inversion Hc as [| |? ? Ha Hmn (vt & Hvt & Htn)| |]; subst.
      pose proof (env_ok T MO SM prog m Hm) as (_ & _ & Hlk). pose proof (Hlk _ _ Hvt) as Hlk'. cbn [chk_env ce_vtable_lookup] in Hlk'.
      rewrite Hlk'. cbn [obind]. pose proof (vtable_wf T MO SM prog m _ _ Hm Hvt) as Hwf. unfold vtable_check_wf in Hwf.
      apply obind_ret in Hwf as ([] & _ & Hwf). apply obind_ret in Hwf as ([] & _ & Hwf). rewrite Hms in Hwf. apply ensure_wf_ret in Hwf.
      apply andb_true_iff in Hwf as [_ Hwf]. rewrite forallb_forall in Hwf. apply elem_of_list_In in Hin.
      specialize (Hwf _ Hin). apply bool_decide_eq_true in Hwf. apply elem_of_list_In in Hwf.
      destruct (map_get (vt_methods vt) meth) as [fn|] eqn:Efn.
      2: { apply map_get_none_in in Efn. done. }
      cbn [unwrap obind].
      assert (exists n, map_get (pr_vtables prog) n = Some vt) as (n & Hn).
      { cbn in Hvt. unfold vtable_from_ptr in Hvt. destruct (List.find _ _) as [kv|]; [|done]. apply unwrap_ret in Hvt.
        rewrite (si_prog _ _ _ _ _ Hm) in Hvt. eauto. }
      destruct (Hmeth _ _ _ _ Hn Efn) as (f & Hf). destruct (nk_fn _ _ (si_names _ _ _ _ _ Hm) _ _ Hf) as (fp & Hfp).
      cbn [ctl c_fnptrs] in Hfp. rewrite Hfp. cbn. split; [done|].
      assert (Hgf : good_ptr m fp). { apply (si_ptrs _ _ _ _ _ Hm). apply (hp_fn _ _ fn). by apply map_get_in. }
      destruct Hgf. apply good_pointer; [|split; done]. apply plain_check; [done|by right|done].
  Qed.

  Lemma bin_op_safe locals m e1 e2 op v1 v2 t1 t2 ty' :
    sinv m -> value_check_wf T prog locals e1 = Ret t1 -> wfT t1 -> wfT t2 ->
    no_gap T prog locals (inl (EBinOp op e1 e2)) -> good m t1 v1 -> good m t2 v2 ->
    binop_check_wf T op t1 t2 = Ret ty' ->
    wp E (eval_bin_op T MO m op (v1, t1) (v2, t2)) (result_ok m ty').
  Proof.
    intros Hm Hck Hw1 Hw2 Hgap Hg1 Hg2 Hop. unfold eval_bin_op.
    destruct op as [iop|iop|rel|inb|inb nn|pt]; cbn [binop_check_wf no_gap] in Hop, Hgap.
    - destruct t1 as [it| | | | | | | |]; try done. destruct t2 as [jt| | | | | | | |]; try done.
      apply obind_ret in Hop as ([] & _ & [= <-]). destruct Hg1 as (Hl1 & _ & _), Hg2 as (Hl2 & _ & _).
      apply lax_int in Hl1 as (i & -> & _). apply lax_int in Hl2 as (j & -> & _).
      apply wp_bind. apply wp_mono with (Q := fun r => can_represent it r = true).
      2: { intros r Hr. cbn. split; [done|]. by apply good_int. }
      unfold int_bin_op. apply wp_bind. apply wp_mono with (Q := fun _ => True); [|intros r _; apply bring_in_bounds_in].
      assert (Hb : (size_bits (it_size it) =? 0) = false).
      { apply wf_int, pow2_nonzero in Hw1. unfold size_bits. lia. }
      destruct iop; cbn [eval_int_bin_op]; rewrite ?Hb; try done; repeat (match goal with |- wp _ (if ?b then _ else _) _ => destruct b end; try done).
    - destruct t1 as [it| | | | | | | |]; try done. apply obind_ret in Hop as ([] & Hr & Hop). apply ensure_wf_ret, bool_decide_eq_true in Hr as ->.
      destruct Hg1 as (Hl1 & _ & _), Hg2 as (Hl2 & _ & _).
      apply lax_int in Hl1 as (i & -> & _). apply lax_int in Hl2 as (j & -> & _).
      unfold int_bin_op_overflow. rewrite Hop. cbn. split; [done|]. apply vok_good. split; [|done].
      eapply with_overflow_value; [exact _|exact Hop|apply bring_in_bounds_in].
    - apply obind_ret in Hop as ([] & Hk & Hop). apply ensure_wf_ret in Hk. apply obind_ret in Hop as ([] & Hr & [= <-]).
      apply ensure_wf_ret, bool_decide_eq_true in Hr as ->. unfold rel_op. apply wp_bind.
      apply wp_mono with (Q := fun _ => True).
      2: { intros c _. cbn. destruct rel; (split; [done|]); try apply good_bool. apply good_int. by destruct c. }
      destruct t1 as [it| |pt| | | | | |]; try done.
      + destruct Hg1 as (Hl1 & _ & _), Hg2 as (Hl2 & _ & _).
        apply lax_int in Hl1 as (i & -> & _). by apply lax_int in Hl2 as (j & -> & _).
      + destruct Hg1 as (Hl1 & _ & _), Hg2 as (Hl2 & _ & _). inversion Hl1; inversion Hl2; subst. done.
      + apply good_ptr_inv in Hg1 as (p & -> & _ & _ & _ & H1). apply good_ptr_inv in Hg2 as (q & -> & _ & _ & _ & H2).
        cbn [compare_values]. unfold compare_ptr. destruct p as [p mp], q as [q mq]. cbn [p_thin p_meta] in *.
        inversion H1; subst; match goal with E : _ = ptr_meta_kind _ |- _ => rewrite <- E in H2 end; inversion H2; subst; done.
    - destruct t1 as [| |pt| | | | | |]; try done. case_bool_decide as Hk; [done|].
      apply obind_ret in Hop as ([] & Hr & [= <-]). apply ensure_wf_ret in Hr. destruct t2 as [jt| | | | | | | |]; try done.
      specialize (Hgap pt Hck). apply good_ptr_inv in Hg1 as (p & -> & _ & Hin & Hgp & H1). destruct Hg2 as (Hl2 & _ & _).
      apply lax_int in Hl2 as (j & -> & _). assert (p_meta p = None) as Hn.
      { destruct Hgap as [->| ->]; by inversion H1. }
      destruct p as [p mp]. cbn in Hn. subst mp. cbn [p_thin] in *. apply wp_bind.
      apply wp_mono with (Q := fun q => good_ptr m q).
      2: { intros q [Hq1 Hq2]. cbn. split; [done|]. apply good_pointer; [|split; done]. by apply plain_check. }
      destruct inb.
      + eapply wp_weaken; [by apply (ptr_offset_safe T MO SM Tok prog)|done|]. by intros q [? _].
      + cbn. destruct Hgp as [Hp1 Hp2]. split; [done|]. apply (in_bounds_usize T), bring_in_bounds_in.
    - destruct t1 as [| |pt| | | | | |]; try done. case_bool_decide as Hk; [done|]. destruct t2 as [| |qt| | | | | |]; try done.
      case_bool_decide as Hk'; [done|]. injection Hop as <-. 
      apply good_ptr_inv in Hg1 as (p & -> & _ & Hin1 & Hgp & H1). apply good_ptr_inv in Hg2 as (q & -> & _ & Hin2 & Hgq & H2).
      rewrite Hk in H1. rewrite Hk' in H2. destruct p as [p mp], q as [q mq]. cbn [p_thin p_meta] in *.
      inversion H1. inversion H2. subst mp mq. apply wp_bind.
      apply wp_mono with (Q := fun d => in_bounds Signed (PTR_SIZE T) d = true).
      2: { intros d Hd. destruct (_ && _); [done|]. cbn. split; [done|]. by apply good_int. }
      destruct inb; [|apply bring_in_bounds_in]. destruct Hgp as [Hp1 Hp2], Hgq as [Hq1 Hq2].
      apply wp_bind, wp_ub; [by apply (signed_deref_ok_ub T MO SM)|]. intros [] Hd1.
      apply wp_bind, wp_ub; [by apply (signed_deref_ok_ub T MO SM)|]. intros [] Hd2. cbn. pose proof (fit_allocs T m (si_fit _ _ _ _ _ Hm)) as Hf.
      destruct (signed_deref_range T MO BL (memof m) q _ Tok Hf Hd2 Hq2) as [Hr _].
      apply in_bounds_spec. unfold int_min, int_max. pose proof (ptr_size_pos T Tok).
      destruct (N.eqb_spec (PTR_SIZE T) 0); [lia|]. unfold size_bits. lia.
    - destruct t1 as [| |tpt| | | | | |]; try done. case_bool_decide as Hk; [done|]. case_bool_decide as Hk'; [done|].
      injection Hop as <-.  subst t2.
      apply good_ptr_inv in Hg1 as (p & -> & _ & Hin1 & Hgp & H1). rewrite Hk in H1. destruct p as [p mp]. cbn [p_thin p_meta] in *.
      inversion H1. subst mp. destruct Hg2 as (Hl2 & Hin2 & _).
      destruct (meta_lax T Tok (prov_ok m) _ _ _ Hl2) as (me & Hd & Hmo & Hmi). rewrite Hd. cbn [obind check_value].
      assert (Hpi : ptr_in (prov_ok m) (mkPtr p me)) by (split; [apply Hgp|by apply Hmi]).
      apply wp_bind, wp_ub; [eapply known_ptr_ok; [by apply (env_ok T MO SM prog)|exact Hgap|apply Hgp]|].
      intros [] Hc. cbn. split; [done|]. by apply good_pointer.
  Qed.
End SafeVal.
