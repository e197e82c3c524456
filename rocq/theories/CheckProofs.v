(** When the check of well-formedness has no answer: proofs. *)
From Verif Require Import CheckSpec WfTypesProofs IllProofs.
Local Open Scope Z_scope.

(** [o] panics only if [C] *)
Definition calm {A} (C : Prop) (o : Outcome A) : Prop := o = Panic -> C.

Section Comb.
  Context {A B X : Type}.
  Lemma ca_ret C (a : A) : calm C (Ret a).
  Proof. done. Qed.
  Lemma ca_throw C s : calm C (@throw_ill_formed A s).
  Proof. done. Qed.
  Lemma ca_ensure C b msg : calm C (ensure_wf b msg).
  Proof. by destruct b. Qed.
  Lemma ca_bind C (o : Outcome A) (f : A -> Outcome B) : calm C o -> (forall a, o = Ret a -> calm C (f a)) -> calm C (obind o f).
  Proof. intros Ho Hf. destruct o; cbn [obind]; [by apply Hf|done|intros _; by apply Ho|done]. Qed.
End Comb.
Section Lists.
  Context {A B X : Type}.
  Lemma ca_for_each C (f : A -> Outcome unit) l : (forall a, In a l -> calm C (f a)) -> calm C (for_each f l).
  Proof.
    induction l as [|a l IH]; intros H; [done|]. cbn [for_each]. apply ca_bind; [apply H; by left|]. intros _ _. apply IH.
    intros b Hb. apply H. by right.
  Qed.
  Lemma ca_for_each_idx C (f : nat -> A -> Outcome unit) l : forall i, (forall i a, In a l -> calm C (f i a)) -> calm C (for_each_idx f i l).
  Proof.
    induction l as [|a l IH]; intros i H; [done|]. cbn [for_each_idx]. apply ca_bind; [apply H; by left|]. intros _ _. apply IH.
    intros j b Hb. apply H. by right.
  Qed.
  Lemma ca_for_each2 C (f : A -> B -> Outcome unit) l1 : forall l2, (forall a b, In a l1 -> calm C (f a b)) -> calm C (for_each2 f l1 l2).
  Proof.
    induction l1 as [|a l1 IH]; intros [|b l2] H; try done. cbn [for_each2]. apply ca_bind; [apply H; by left|]. intros _ _. apply IH.
    intros c d Hc. apply H. by right.
  Qed.
  Lemma ca_fold_m C (f : X -> A -> Outcome X) l : forall s, (forall s a, In a l -> calm C (f s a)) -> calm C (fold_m f l s).
  Proof.
    induction l as [|a l IH]; intros s H; [done|]. cbn [fold_m]. apply ca_bind; [apply H; by left|]. intros s' _. apply IH.
    intros t b Hb. apply H. by right.
  Qed.
  Lemma ca_mono (C C' : Prop) (o : Outcome A) : calm C o -> (C -> C') -> calm C' o.
  Proof. unfold calm. auto. Qed.
End Lists.
Create HintDb ca discriminated.
#[global] Hint Resolve ca_ret ca_throw ca_ensure : ca.
Ltac ca_go :=
  lazymatch goal with
  | |- calm _ (obind _ _) => apply ca_bind; [ca_go|intros ? ?; ca_go]
  | |- calm _ (match ?x with _ => _ end) => destruct x eqn:?; ca_go
  | |- calm _ ((fun _ => _) _) => cbv beta; ca_go
  | |- forall _, _ => intros ?; ca_go
  | |- _ => auto 3 with ca
  end.

Section Types.
  Variable T : Target.
  Variable ht : TraitName -> bool.
  Notation wf := (ty_check_wf T ht).
  Notation layout := (layout T).
  Notation no_layout := (no_layout T).
  Notation bad_elements := (bad_elements T).

  Lemma unsized_iff ty l : layout ty = Ret l -> unsized ty <-> is_sized l = false.
  Proof.
    destruct ty as [it| |pt|fs h [u|]|e n|e|fs c s a|vs dty d s a|tn]; cbn [Types.layout]; intros H; repeat (apply obind_ret in H as (? & ? & H));
      try (destruct (ptr_meta_kind pt)); injection H as <-; cbn; split; intros H'; try done; try constructor; inversion H'.
  Qed.
  Lemma layout_cases ty : (exists l, layout ty = Ret l) \/ layout ty = Panic.
  Proof.
    induction ty using Ty_ind'; cbn [Types.layout].
    - unfold int_align. destruct (align_from_bytes (it_size it)); cbn; eauto.
    - eauto.
    - destruct (ptr_meta_kind pt); eauto.
    - destruct unsized as [u|]; [|eauto]. destruct (H0 u eq_refl) as [(l & ->)| ->]; cbn; eauto.
    - destruct IHty as [(l & ->)| ->]; cbn; [|eauto]. destruct l; cbn; eauto. unfold size_mul. destruct (size_from_bytes _); cbn; eauto.
    - destruct IHty as [(l & ->)| ->]; cbn; [|eauto]. destruct l; cbn; eauto.
    - eauto.
    - eauto.
    - eauto.
  Qed.
  Lemma pow2_iff n : align_from_bytes n = None <-> forall k, (n <> 2 ^ k)%N.
  Proof.
    split.
    - intros H k ->. assert (align_from_bytes (2 ^ k) = Some (mkAlign k)) by (by apply align_from_bytes_some). congruence.
    - intros H. destruct (align_from_bytes n) as [a|] eqn:E; [|done]. apply align_from_bytes_some in E as <-. destruct a as [k]. by destruct (H k).
  Qed.
  Lemma layout_panic ty : layout ty = Panic <-> no_layout ty.
  Proof.
    induction ty using Ty_ind'; cbn [Types.layout].
    - unfold int_align. destruct (align_from_bytes (it_size it)) as [a|] eqn:E; cbn.
      + split; [done|]. inversion 1 as [it' H'| | | | | |]; subst. apply pow2_iff in H'. congruence.
      + split; [|done]. intros _. constructor. by apply pow2_iff.
    - split; [done|]. inversion 1.
    - split; [by destruct (ptr_meta_kind pt)|inversion 1].
    - destruct unsized as [u|].
      + specialize (H0 u eq_refl). split.
        * destruct (layout_cases u) as [(l & E)|E]; rewrite E; cbn; [done|]. intros _. constructor. by apply H0.
        * inversion 1; subst. by rewrite (proj2 H0).
      + destruct (head_size_and_align head). split; [done|]. inversion 1.
    - destruct (layout_cases ty) as [(l & E)|E]; rewrite E in *; cbn [obind].
      + assert (~ no_layout ty) as Hn by (intros Hn; by apply IHty in Hn). destruct (is_sized l) eqn:El.
        * destruct l as [s a| | |]; try done. cbn [expect_size obind]. unfold size_mul, size_from_bytes. destruct (Z.ltb_spec (Z.of_N s * count) 0) as [Hlt|Hge]; cbn.
          -- split; [|done]. intros _. apply nl_array_negative with s; [unfold size_of; by rewrite E|intros ->; lia|nia].
          -- split; [done|]. inversion 1 as [| | ? ? H1|? ? H1|? ? s' H1 H2 H3| |]; subst; [done| |].
             ++ by apply (unsized_iff _ _ E) in H1.
             ++ unfold size_of in H1. rewrite E in H1. injection H1 as <-. nia.
        * destruct l; try done; cbn; (split; [|done]); intros _; apply nl_array_unsized; by apply (unsized_iff _ _ E).
      + split; [|done]. intros _. apply nl_array. by apply IHty.
    - destruct (layout_cases ty) as [(l & E)|E]; rewrite E in *; cbn [obind].
      + assert (~ no_layout ty) as Hn by (intros Hn; by apply IHty in Hn). destruct (is_sized l) eqn:El.
        * destruct l as [s a| | |]; try done. cbn. split; [done|]. inversion 1 as [| | | | |? H1|? H1]; subst; [done|]. by apply (unsized_iff _ _ E) in H1.
        * destruct l; try done; cbn; (split; [|done]); intros _; apply nl_slice_unsized; by apply (unsized_iff _ _ E).
      + split; [|done]. intros _. apply nl_slice. by apply IHty.
    - split; [done|inversion 1].
    - split; [done|inversion 1].
    - split; [done|inversion 1].
  Qed.
  Lemma has_layout ty : ~ no_layout ty -> exists l, layout ty = Ret l.
  Proof. intros H. destruct (layout_cases ty) as [?|E]; [done|]. by apply layout_panic in E. Qed.
  Lemma meta_kind_eq ty l : layout ty = Ret l -> layout_meta_kind l = ty_meta_kind ty.
  Proof.
    revert l. induction ty using Ty_ind'; intros l; cbn [Types.layout]; intros E; repeat (apply obind_ret in E as (? & ? & E));
      try (injection E as <-; done).
    - destruct (ptr_meta_kind pt); by injection E as <-.
    - destruct unsized as [u|]; [|destruct (head_size_and_align head); by injection E as <-].
      apply obind_ret in E as (l' & E' & E). injection E as <-. cbn. by apply H0.
  Qed.

  (** *** Checking types *)
  Lemma ca_layout (C : Prop) ty : (no_layout ty -> C) -> calm C (layout ty).
  Proof. intros H E. by apply H, layout_panic. Qed.
  Lemma wf_no_panic C ty : wf ty = Ret tt -> calm C (layout ty).
  Proof. intros H. destruct (wf_layout T ht ty H) as (l & E & _). rewrite E. done. Qed.
  Lemma ca_cells C c s : calm C (check_cells c s).
  Proof. unfold check_cells. apply ca_bind; [|ca_go]. apply ca_fold_m. ca_go. Qed.
  Hint Resolve ca_cells : ca.
  Lemma ca_head C h : calm C (head_check_wf T h).
  Proof. unfold head_check_wf. ca_go. Qed.
  Hint Resolve ca_head : ca.
  Lemma ca_lay C l : calm C (layout_check_wf T ht l).
  Proof. induction l; cbn [layout_check_wf]; ca_go. Qed.
  Lemma ca_aligned C l : calm C (layout_check_aligned l).
  Proof. induction l; cbn [layout_check_aligned]; ca_go. Qed.
  Lemma ca_cell_strategy C c : forall l, calm C (cells_check_wf c l).
  Proof. induction c; intros []; cbn [cells_check_wf]; ca_go. Qed.
  Hint Resolve ca_lay ca_aligned ca_cell_strategy : ca.
  Lemma ca_ptr C pt : calm C (ptrtype_check_wf T ht pt).
  Proof. destruct pt; cbn [ptrtype_check_wf]; unfold pointee_check_wf; ca_go. Qed.
  Lemma ca_int C it : calm C (inttype_check_wf it).
  Proof. unfold inttype_check_wf. ca_go. Qed.
  Hint Resolve ca_ptr ca_int : ca.
  Lemma ca_discr C s v d : calm C (discr_check_wf s v d).
  Proof.
    induction d using Discriminator_ind'; cbn [discr_check_wf]; ca_go. apply ca_for_each_idx. intros i x Hx. ca_go.
    match goal with H : Forall _ _ |- _ => rewrite Forall_forall in H; apply H end. by apply elem_of_list_In.
  Qed.
  Lemma ca_tagger (C : Prop) s tg : calm C (tagger_check_wf s tg).
  Proof. unfold tagger_check_wf. apply ca_for_each. ca_go. Qed.
  Lemma ca_chunks (C : Prop) c s : calm C (chunks_check_wf c s).
  Proof. unfold chunks_check_wf. apply ca_bind; [|ca_go]. apply ca_fold_m. ca_go. Qed.
  Hint Resolve ca_discr ca_tagger ca_chunks : ca.
  Lemma ca_final (C : Prop) ty : (no_layout ty -> C) -> calm C (final_check_wf T ht ty).
  Proof.
    intros H. unfold final_check_wf. apply ca_bind; [by apply ca_layout|]. intros l El. apply ca_bind; [ca_go|]. intros _ _.
    apply ca_bind; [ca_go|]. intros _ _. rewrite (meta_kind_eq _ _ El). by rewrite bool_decide_eq_true_2.
  Qed.
  Lemma bad_below t t1 : component t t1 -> bad_elements t1 -> bad_elements t.
  Proof. intros H (e & He & [(n & Hn)|Hn]); exists e; (split; [done|]); [left; exists n|right]; by eapply wi_part. Qed.
  Lemma is_sized_size (C : Prop) l : is_sized l = true -> calm C (expect_size l).
  Proof. by destruct l. Qed.
  Lemma ca_sized (C : Prop) ty msg (k : LayoutStrategy -> Outcome unit) : (no_layout ty -> C) -> (forall l, layout ty = Ret l -> calm C (k l)) ->
    calm C (let! l := layout ty in let! _ := ensure_wf (is_sized l) msg in k l).
  Proof. intros H1 H2. apply ca_bind; [by apply ca_layout|]. intros l El. apply ca_bind; [ca_go|]. intros _ _. by apply H2. Qed.
  Lemma ca_ty ty : calm (bad_elements ty) (wf ty).
  Proof.
    induction ty as [it| |pt|fs h u IHf IHu|e n IH|e IH|fs c s a IHf|vs dty d s a IHv|tn] using Ty_ind'; cbn [ty_check_wf].
    - apply ca_bind; [ca_go|]. intros [] E. apply ca_final. intros Hn. inversion Hn as [it' Hi| | | | | |]; subst.
      unfold inttype_check_wf in E. apply ensure_wf_ret in E. destruct (pow2_align _ E) as [a Ha].
      apply align_from_bytes_some in Ha. destruct a as [k]. by destruct (Hi k).
    - apply ca_bind; [ca_go|]. intros [] _. apply ca_final. inversion 1.
    - apply ca_bind; [ca_go|]. intros [] _. apply ca_final. inversion 1.
    - apply ca_bind.
      + apply ca_bind.
        { apply ca_fold_m. intros e0 x Hx. apply elem_of_list_In in Hx. rewrite sort_by_key_perm in Hx. apply elem_of_list_In, in_map_iff in Hx as ([o t] & <- & Hin).
          cbn [fst snd]. rewrite Forall_forall in IHf. apply ca_bind.
          - eapply ca_mono; [apply (IHf (o, t)); by apply elem_of_list_In|]. apply bad_below. by eapply CheckSpec.co_field.
          - intros [] Hw. apply ca_bind; [ca_go|]. intros _ _. apply ca_bind; [by apply wf_no_panic|]. intros l El. apply ca_bind; [ca_go|]. intros [] Hs.
            apply ensure_wf_ret in Hs. apply ca_bind; [by apply is_sized_size|]. ca_go. }
        intros e0 _. apply ca_bind; [|ca_go]. destruct u as [u|]; [|done]. apply ca_bind.
        { eapply ca_mono; [by apply IHu|]. apply bad_below. constructor. }
        intros [] Hw. apply ca_bind; [by apply wf_no_panic|]. ca_go.
      + intros [] E. apply ca_final. inversion 1 as [|? ? t Ht| | | | |]; subst. exfalso.
        apply obind_ret in E as (e0 & _ & E). apply obind_ret in E as ([] & E & _). apply obind_ret in E as ([] & Hw & _).
        destruct (wf_layout T ht t Hw) as (l & El & _). apply layout_panic in Ht. congruence.
    - assert (Hb : no_layout e -> bad_elements (TArray e n)) by (intros He; exists e; split; [done|]; left; exists n; constructor).
      apply ca_bind.
      + apply ca_bind; [ca_go|]. intros _ _. apply ca_bind; [by apply ca_layout|]. intros l El. apply ca_bind; [ca_go|]. intros _ _.
        eapply ca_mono; [exact IH|]. apply bad_below. constructor.
      + intros [] E. apply ca_final. apply obind_ret in E as ([] & Hc & E). apply obind_ret in E as (l & El & E). apply obind_ret in E as ([] & Hs & E).
        apply ensure_wf_ret in Hc, Hs. apply Z.leb_le in Hc. inversion 1; subst; [by apply Hb| |lia].
        match goal with H : unsized e |- _ => apply (unsized_iff _ _ El) in H end. congruence.
    - assert (Hb : no_layout e -> bad_elements (TSlice e)) by (intros He; exists e; split; [done|]; right; constructor).
      apply ca_bind.
      + apply ca_bind; [by apply ca_layout|]. intros l El. apply ca_bind; [ca_go|]. intros _ _.
        eapply ca_mono; [exact IH|]. apply bad_below. constructor.
      + intros [] E. apply ca_final. apply obind_ret in E as (l & El & E). apply obind_ret in E as ([] & Hs & E).
        apply ensure_wf_ret in Hs. inversion 1; subst; [by apply Hb|].
        match goal with H : unsized e |- _ => apply (unsized_iff _ _ El) in H end. congruence.
    - apply ca_bind; [|intros [] _; apply ca_final; inversion 1]. apply ca_bind; [|ca_go]. apply ca_for_each. intros [o t] Hin. cbn [fst snd].
      rewrite Forall_forall in IHf. apply ca_bind.
      + eapply ca_mono; [apply (IHf (o, t)); by apply elem_of_list_In|]. apply bad_below. by eapply CheckSpec.co_union.
      + intros [] Hw. apply ca_bind; [by apply wf_no_panic|]. intros l El. apply ca_bind; [ca_go|]. intros [] Hs. apply ensure_wf_ret in Hs.
        apply ca_bind; [by apply is_sized_size|]. ca_go.
    - apply ca_bind; [|intros [] _; apply ca_final; inversion 1]. apply ca_bind; [|ca_go]. apply ca_for_each. intros [k [t tg]] Hin. cbn [fst snd].
      rewrite Forall_forall in IHv. apply ca_bind; [ca_go|]. intros _ _. apply ca_bind.
      + eapply ca_mono; [apply (IHv (k, (t, tg))); by apply elem_of_list_In|]. apply bad_below. by eapply CheckSpec.co_variant.
      + intros [] Hw. apply ca_bind; [by apply wf_no_panic|]. ca_go.
    - apply ca_bind; [ca_go|]. intros [] _. apply ca_final. inversion 1.
  Qed.
End Types.

(** ** Checking programs *)

Section Programs.
  Variable T : Target.
  Variable prog : Program.
  Notation ht := (has_trait prog).
  Notation wf := (ty_check_wf T ht).
  Notation bad_elements := (bad_elements T).
  Notation no_layout := (no_layout T).

  Lemma ca_wf (C : Prop) ty : (bad_elements ty -> C) -> calm C (wf ty).
  Proof. intros H. eapply ca_mono; [apply ca_ty|done]. Qed.
  Lemma ca_lays (C : Prop) ty : (no_layout ty -> C) -> calm C (layout T ty).
  Proof. intros H E. by apply H, (layout_panic T ht). Qed.
  Hint Resolve ca_lays : ca.
  Lemma ca_reloc (C : Prop) r : calm C (reloc_check_wf prog r).
  Proof. unfold reloc_check_wf. ca_go. Qed.
  Hint Resolve ca_reloc : ca.
  Lemma ca_constant (C : Prop) c ty : calm C (constant_check_wf T prog c ty).
  Proof. unfold constant_check_wf. ca_go. Qed.
  Hint Resolve ca_constant : ca.
  Lemma ca_ptrs (C : Prop) pt : calm C (ptrtype_check_wf T ht pt).
  Proof. apply ca_ptr. Qed.
  Hint Resolve ca_ptrs : ca.
  Lemma with_overflow_panic it : with_overflow T it = Panic <-> no_layout (TInt it).
  Proof.
    rewrite <- (layout_panic T ht). unfold with_overflow. cbn [layout]. unfold int_align. destruct (align_from_bytes (it_size it)); cbn; split; done.
  Qed.

  Lemma get_in {A} (l : list A) i x : list_get l i = Some x -> x ∈ l.
  Proof. unfold list_get. destruct (_ <? _); [done|]. apply elem_of_list_lookup_2. Qed.

  Section Exprs.
    Variable locals : list (LocalName * Ty).
    Hypothesis Hloc : forall l ty, In (l, ty) locals -> wf ty = Ret tt.
    Notation value := (value_check_wf T prog locals).
    Notation place := (place_check_wf T prog locals).
    Notation no_answer := (no_answer T prog locals).

    Lemma place_wf p : forall ty, place p = Ret ty -> wf ty = Ret tt.
    Proof using Hloc.
      induction p as [l|e ty0|p IH f|p IH i|p IH d]; intros ty; cbn [place_check_wf].
      - destruct (map_get locals l) eqn:E; [|done]. intros [= <-]. eapply Hloc. by apply map_get_in.
      - intros H. apply obind_ret in H as ([] & Hw & H). apply obind_ret in H as (t & _ & H). destruct t; try done.
        apply obind_ret in H as ([] & _ & [= <-]). done.
      - intros H. apply obind_ret in H as (t & Ht & H). apply IH in Ht. destruct t as [| | |fs h u| | |fs c s a| |]; try done.
        + apply wf_tuple in Ht as (Hf & _ & _ & Hu & _). destruct (_ && _).
          * apply obind_ret in H as (x & Hx & [= <-]). apply unwrap_ret, get_in in Hx. rewrite Forall_forall in Hf. by apply Hf.
          * destruct (_ =? _); [|done]. destruct u; [|done]. injection H as <-. by apply Hu.
        + apply wf_union in Ht as (Hf & _). destruct (list_get fs f) as [x|] eqn:Hx; [|done]. injection H as <-.
          apply get_in in Hx. rewrite Forall_forall in Hf. by apply Hf.
      - intros H. apply obind_ret in H as (t & Ht & H). apply IH in Ht. apply obind_ret in H as (x & _ & H). apply obind_ret in H as ([] & _ & H).
        destruct t; try done; injection H as <-; [by apply wf_array in Ht as (_ & ? & _)|by apply wf_slice in Ht as (? & _)].
      - intros H. apply obind_ret in H as (t & Ht & H). apply IH in Ht. destruct t as [| | | | | | |vs dty di s a|]; try done.
        apply wf_enum in Ht as (Hv & _). destruct (map_get vs d) as [x|] eqn:Hx; [|done]. injection H as <-.
        apply map_get_in, elem_of_list_In in Hx. rewrite Forall_forall in Hv. by apply (Hv _ Hx).
    Qed.

    (** [found e]: in [e] is an expression for which the check has no answer *)
    Definition found (e : Expr) : Prop := exists e1, occurs e e1 /\ no_answer e1.
    Lemma found_here e : no_answer e -> found e.
    Proof using. intros H. exists e. split; [constructor|done]. Qed.
    Lemma found_below e e1 : child e e1 -> found e1 -> found e.
    Proof using. intros H (e2 & Ho & Hn). exists e2. split; [by eapply oc_below|done]. Qed.

    Lemma ca_unop op e ty : value e = Ret ty -> calm (no_answer (inl (EUnOp op e))) (unop_check_wf T prog op ty).
    Proof using.
      clear Hloc. intros He. destruct op as [o|[it|nt]| | |t|t|k]; cbn [unop_check_wf]; try (by ca_go).
      - apply ca_bind; [apply ca_lays; intros; by eapply na_transmute_from|]. intros l _. apply ca_bind; [ca_go|]. intros _ _.
        apply ca_bind; [apply ca_lays; intros; by eapply na_transmute_to|]. ca_go.
      - apply ca_bind; [apply ca_wf; intros; by apply na_size|]. ca_go.
      - apply ca_bind; [apply ca_wf; intros; by apply na_align|]. ca_go.
      - destruct ty as [| |pt| | | | | |]; try done. destruct pt as [| | | |tn]; try done. destruct (map_get _ _) eqn:E; [by ca_go|].
        intros _. by eapply na_lookup.
    Qed.
    Lemma ca_binop op e1 e2 t1 t2 : value e1 = Ret t1 -> calm (no_answer (inl (EBinOp op e1 e2))) (binop_check_wf T op t1 t2).
    Proof using.
      clear Hloc. intros He. destruct op; cbn [binop_check_wf]; try (by ca_go).
      destruct t1 as [it| | | | | | | |]; try done. apply ca_bind; [ca_go|]. intros _ _. intros Hp. apply with_overflow_panic in Hp. by eapply na_overflow.
    Qed.
    Ltac below := eapply ca_mono; [eassumption|apply found_below; by constructor].
    Ltac here := apply ca_wf; intros; apply found_here; by constructor.
    Lemma ca_exprs : (forall e, calm (found (inl e)) (value e)) /\ (forall p, calm (found (inr p)) (place p)).
    Proof using Hloc.
      apply Expr_ind'.
      - intros c ty. cbn [value_check_wf]. apply ca_bind; [here|]. ca_go.
      - intros es ty IH. cbn [value_check_wf]. apply ca_bind; [here|]. intros _ _. apply ca_bind; [|ca_go].
        rewrite Forall_forall in IH. destruct ty as [| | |fs h u|e n| | | |]; try done.
        + apply ca_bind; [ca_go|]. intros _ _. apply ca_bind; [ca_go|]. intros _ _. apply ca_for_each2. intros e f Hin. apply ca_bind; [|ca_go].
          eapply ca_mono; [apply IH; by apply elem_of_list_In|apply found_below; by constructor].
        + apply ca_bind; [ca_go|]. intros _ _. apply ca_for_each. intros x Hin. apply ca_bind; [|ca_go].
          eapply ca_mono; [apply IH; by apply elem_of_list_In|apply found_below; by constructor].
      - intros f e ty IH. cbn [value_check_wf]. apply ca_bind; [here|]. intros _ _. destruct ty as [| | | | | |fs c s a| |]; try done.
        apply ca_bind; [ca_go|]. intros [] Hf. apply ensure_wf_ret, Z.ltb_lt in Hf.
        destruct (list_get fs f) as [[o t]|] eqn:E; cbn [unwrap obind].
        + apply ca_bind; [below|]. ca_go.
        + intros _. apply found_here. apply na_union_field. unfold list_get in E. destruct (f <? 0) eqn:En; [by apply Z.ltb_lt|].
          apply Z.ltb_ge in En. apply lookup_ge_None in E. lia.
      - intros d e ty IH. cbn [value_check_wf]. destruct ty as [| | | | | | |vs dty di s a|]; try done. apply ca_bind; [here|]. intros _ _.
        destruct (map_get vs d); [|done]. apply ca_bind; [below|]. ca_go.
      - intros p IH. cbn [value_check_wf]. apply ca_bind; [below|]. ca_go.
      - intros p IH. cbn [value_check_wf]. apply ca_bind; [below|]. intros ty Hty. apply ca_bind; [|ca_go].
        apply (wf_no_panic T ht). by eapply place_wf.
      - intros p pt IH. cbn [value_check_wf]. apply ca_bind; [ca_go|]. intros _ _. apply ca_bind; [below|]. ca_go.
      - intros op e IH. cbn [value_check_wf]. apply ca_bind; [below|]. intros ty Hty. eapply ca_mono; [by apply ca_unop|]. apply found_here.
      - intros op e1 e2 IH1 IH2. cbn [value_check_wf]. apply ca_bind; [below|]. intros t1 H1. apply ca_bind; [below|]. intros t2 H2.
        eapply ca_mono; [by apply ca_binop|]. apply found_here.
      - intros l. cbn [place_check_wf]. ca_go.
      - intros e ty IH. cbn [place_check_wf]. apply ca_bind; [here|]. intros _ _. apply ca_bind; [below|]. ca_go.
      - intros p f IH. cbn [place_check_wf]. apply ca_bind; [below|]. intros ty Hty. destruct ty as [| | |fs h u| | |fs c s a| |]; try (by ca_go).
        destruct ((0 <=? f) && (f <? Z.of_nat (length fs))) eqn:E; [|by ca_go]. apply ca_bind; [|ca_go].
        apply andb_true_iff in E as [E1 E2]. apply Z.leb_le in E1. apply Z.ltb_lt in E2. unfold list_get.
        destruct (f <? 0) eqn:En; [apply Z.ltb_lt in En; lia|]. destruct (lookup_lt_is_Some_2 fs (Z.to_nat f)) as [x ->]; [lia|done].
      - intros p e IH1 IH2. cbn [place_check_wf]. apply ca_bind; [below|]. intros t1 H1. apply ca_bind; [below|]. ca_go.
      - intros p d IH. cbn [place_check_wf]. apply ca_bind; [below|]. ca_go.
    Qed.

    (** the types of values have a known size *)
    Lemma sized_not ty l : layout T ty = Ret l -> is_sized l = true -> ~ unsized ty.
    Proof using. clear Hloc. intros El Hl Hu. apply (unsized_iff T ty l El) in Hu. congruence. Qed.
    Lemma value_sized e ty : value e = Ret ty -> ~ unsized ty.
    Proof using.
      clear Hloc. destruct e as [c t|es t|f e t|d e t|p|p|p pt|op e|op e1 e2]; cbn [value_check_wf]; intros H.
      - apply obind_ret in H as ([] & _ & H). apply obind_ret in H as ([] & Hc & [= ->]). unfold constant_check_wf in Hc.
        destruct c, ty; try done; inversion 1.
      - apply obind_ret in H as ([] & _ & H). apply obind_ret in H as ([] & Hc & [= ->]). destruct ty as [| | |fs h u|x n| | | |]; try done; [|inversion 1].
        apply obind_ret in Hc as ([] & Hu & _). apply ensure_wf_ret in Hu. destruct u; [done|]. inversion 1.
      - apply obind_ret in H as ([] & _ & H). destruct t as [| | | | | |fs c s a| |]; try done. apply obind_ret in H as ([] & _ & H).
        apply obind_ret in H as ([o t] & _ & H). apply obind_ret in H as (? & _ & H). apply obind_ret in H as ([] & _ & [= <-]). inversion 1.
      - destruct t as [| | | | | | |vs dty di s a|]; try done. apply obind_ret in H as ([] & _ & H). destruct (map_get vs d); [|done].
        apply obind_ret in H as (? & _ & H). apply obind_ret in H as ([] & _ & [= <-]). inversion 1.
      - apply obind_ret in H as (t & _ & H). destruct t; try done. injection H as <-. inversion 1.
      - apply obind_ret in H as (t & _ & H). apply obind_ret in H as (l & El & H). apply obind_ret in H as ([] & Hl & [= <-]).
        apply ensure_wf_ret in Hl. by eapply sized_not.
      - apply obind_ret in H as ([] & _ & H). apply obind_ret in H as (t & _ & H). apply obind_ret in H as ([] & _ & [= <-]). inversion 1.
      - apply obind_ret in H as (t & _ & H). destruct op as [o|[it|nt]| | |t'|t'|k]; cbn [unop_check_wf] in H.
        + destruct t; try done. injection H as <-. inversion 1.
        + apply obind_ret in H as ([] & _ & [= <-]). inversion 1.
        + apply obind_ret in H as (l & _ & H). apply obind_ret in H as ([] & _ & H). apply obind_ret in H as (l' & El & H).
          apply obind_ret in H as ([] & Hl & [= <-]). apply ensure_wf_ret in Hl. by eapply sized_not.
        + apply obind_ret in H as ([] & _ & [= <-]). inversion 1.
        + destruct t as [| |pt| | | | | |]; try done. injection H as <-. destruct (ptr_meta_kind pt); inversion 1.
        + apply obind_ret in H as ([] & _ & H). destruct (bool_decide _); [|done]. injection H as <-. inversion 1.
        + apply obind_ret in H as ([] & _ & H). destruct (bool_decide _); [|done]. injection H as <-. inversion 1.
        + destruct t as [| |pt| | | | | |]; try done. destruct pt; try done. apply obind_ret in H as (? & _ & H). apply obind_ret in H as ([] & _ & [= <-]).
          inversion 1.
      - apply obind_ret in H as (t1 & _ & H). apply obind_ret in H as (t2 & _ & H). destruct op; cbn [binop_check_wf] in H.
        + destruct t1, t2; try done. apply obind_ret in H as ([] & _ & [= <-]). inversion 1.
        + destruct t1; try done. apply obind_ret in H as ([] & _ & H). unfold with_overflow in H. apply obind_ret in H as (? & _ & [= <-]). inversion 1.
        + apply obind_ret in H as ([] & _ & H). apply obind_ret in H as ([] & _ & [= <-]). match goal with |- context [match ?r with RCmp => _ | _ => _ end] => destruct r end; inversion 1.
        + destruct t1; try done. destruct (bool_decide _); [done|]. apply obind_ret in H as ([] & _ & [= <-]). inversion 1.
        + destruct t1; try done. destruct (bool_decide _); [done|]. destruct t2; try done. destruct (bool_decide _); [done|]. injection H as <-. inversion 1.
        + destruct t1; try done. destruct (bool_decide _); [done|]. destruct (bool_decide _); [done|]. injection H as <-. inversion 1.
    Qed.
  End Exprs.

  Section Functions.
    Variable func : Function.
    Notation locals := (fn_locals func).
    Hypothesis Hloc : forall l ty, In (l, ty) locals -> wf ty = Ret tt.
    Notation found := (found locals).
    Lemma ca_value (C : Prop) e : (found (inl e) -> C) -> calm C (value_check_wf T prog locals e).
    Proof using Hloc. intros H. eapply ca_mono; [by apply ca_exprs|done]. Qed.
    Lemma ca_place (C : Prop) e : (found (inr e) -> C) -> calm C (place_check_wf T prog locals e).
    Proof using Hloc. intros H. eapply ca_mono; [by apply ca_exprs|done]. Qed.
    Lemma ca_sized_place (C : Prop) p ty msg : place_check_wf T prog locals p = Ret ty -> calm C (ensure_sized T ty msg).
    Proof using Hloc.
      intros H. unfold ensure_sized. apply ca_bind; [|ca_go]. apply (wf_no_panic T ht). by eapply place_wf.
    Qed.
    Lemma ca_statement (C : Prop) s : (forall e, stmt_expr s e -> found e -> C) -> calm C (statement_check_wf T prog func s).
    Proof using Hloc.
      intros HC. destruct s; cbn [statement_check_wf]; try (by ca_go);
        (apply ca_bind; [apply ca_place; intros; eapply HC; [constructor|done]|]; intros ty Hty); try (by ca_go); try (by eapply ca_sized_place).
      apply ca_bind; [apply ca_value; intros; eapply HC; [constructor|done]|]. intros rty Hr. apply ca_bind; [ca_go|]. intros [] He.
      apply ensure_wf_ret, bool_decide_eq_true_1 in He as <-. apply ca_bind; [apply (wf_no_panic T ht); by eapply place_wf|]. intros l El.
      destruct (is_sized l) eqn:Es; [done|]. apply (unsized_iff T ty l El) in Es. by destruct (value_sized _ _ _ Hr).
    Qed.
    Lemma ca_next (C : Prop) k b : calm C (check_next_block func k b).
    Proof using. clear Hloc. unfold check_next_block. ca_go. Qed.
    Lemma ca_unwind (C : Prop) k b : calm C (check_unwind_block func k b).
    Proof using. clear Hloc. unfold check_unwind_block. ca_go. Qed.
    Hint Resolve ca_next ca_unwind : ca.
    Lemma ca_terminator (C : Prop) k t : (forall e, term_expr t e -> found e -> C) ->
      (forall e ty, argument t e -> has_type T prog locals e ty -> no_layout ty -> C) -> calm C (terminator_check_wf T prog func k t).
    Proof using Hloc.
      intros HC HA. destruct t; cbn [terminator_check_wf]; try (by ca_go).
      - apply ca_bind; [apply ca_value; intros; eapply HC; [constructor|done]|]. intros ty Hty. destruct ty; try done.
        apply ca_bind; [apply ca_for_each; ca_go|]. ca_go.
      - apply ca_bind; [apply ca_place; intros; eapply HC; [constructor|done]|]. intros ty Hty. apply ca_bind; [by eapply ca_sized_place|].
        intros _ _. apply ca_bind; [|unfold check_opt; ca_go]. apply ca_for_each. intros e Hin.
        apply ca_bind; [apply ca_value; intros; eapply HC; [by constructor|done]|]. intros t Ht. unfold ensure_sized.
        apply ca_bind; [|ca_go]. apply ca_lays. intros Hn. eapply HA; [by constructor|done..].
      - apply ca_bind; [apply ca_value; intros; eapply HC; [constructor|done]|]. intros ft Hft. apply ca_bind; [ca_go|]. intros _ _.
        apply ca_bind; [apply ca_place; intros; eapply HC; [constructor|done]|]. intros ty Hty. apply ca_bind; [by eapply ca_sized_place|].
        intros _ _. apply ca_bind; [|unfold check_opt; ca_go]. apply ca_for_each. intros [e|p] Hin; cbn [argument_check_wf].
        + apply ca_bind; [apply ca_value; intros; eapply HC; [by eapply (te_call_arg _ _ _ _ _ _ (ByValue e))|done]|]. intros t Ht. unfold ensure_sized.
          apply ca_bind; [|ca_go]. apply ca_lays. intros Hn. eapply HA; [by constructor|done..].
        + apply ca_bind; [apply ca_place; intros; eapply HC; [by eapply (te_call_arg _ _ _ _ _ _ (InPlace p))|done]|]. intros t Ht. by eapply ca_sized_place.
      - apply ca_bind; [apply ca_value; intros; eapply HC; [constructor|done]|]. ca_go.
    Qed.
  End Functions.

  Lemma ca_function func : calm (function_no_answer T prog func) (function_check_wf T prog func).
  Proof.
    unfold function_check_wf. apply ca_bind.
    { apply ca_for_each. intros [l ty] Hin. cbn [snd]. unfold ensure_sized. apply ca_bind.
      - apply ca_bind; [|ca_go]. apply ca_lays. intros. eapply fa_local; [done|]. by left.
      - intros _ _. apply ca_wf. intros. eapply fa_local; [done|]. by right. }
    intros [] Hl. assert (Hloc : forall l ty, In (l, ty) (fn_locals func) -> wf ty = Ret tt).
    { intros l ty Hin. apply for_each_ret in Hl. rewrite List.Forall_forall in Hl. apply Hl, obind_ret in Hin as ([] & _ & ?). done. }
    apply ca_bind; [apply ca_fold_m; ca_go|]. intros live _. apply ca_bind; [ca_go|]. intros _ _. apply ca_bind; [ca_go|]. intros _ _.
    apply ca_for_each. intros [b blk] Hb. cbn [snd]. apply ca_bind.
    - apply ca_for_each. intros s Hs. apply ca_statement; [done|]. intros e He (e1 & Ho & Hn). by eapply fa_statement.
    - intros _ _. apply ca_terminator; [done| |].
      + intros e He (e1 & Ho & Hn). by eapply fa_terminator.
      + intros e ty Ha Ht Hn. by eapply fa_argument.
  Qed.
  Lemma fn_locals_wf func : function_check_wf T prog func = Ret tt -> forall l ty, In (l, ty) (fn_locals func) -> wf ty = Ret tt.
  Proof.
    unfold function_check_wf. intros H l ty Hin. apply obind_ret in H as ([] & Hl & _). apply for_each_ret in Hl. rewrite List.Forall_forall in Hl.
    apply Hl, obind_ret in Hin as ([] & _ & ?). done.
  Qed.
  Lemma ca_program : calm (program_no_answer T prog) (program_check_wf T prog).
  Proof.
    unfold program_check_wf. apply ca_bind.
    { apply ca_for_each. intros v _. unfold vtable_check_wf. apply ca_bind; [ca_go|]. intros _ _. apply ca_bind; [apply ca_cells|]. ca_go. }
    intros _ _. apply ca_bind.
    { apply ca_for_each. intros [n f] Hin. cbn [snd]. eapply ca_mono; [apply ca_function|]. intros. by exists n, f. }
    intros [] Hf. apply for_each_ret in Hf. rewrite List.Forall_forall in Hf. destruct (map_get _ _) as [f|] eqn:E; [|done].
    apply map_get_in in E. specialize (Hf _ E). cbn [snd] in Hf. apply ca_bind; [ca_go|]. intros _ _.
    pose proof (fn_locals_wf _ Hf) as Hloc. unfold function_check_wf in Hf. apply obind_ret in Hf as ([] & _ & Hf). apply obind_ret in Hf as (live & _ & Hf).
    apply obind_ret in Hf as ([] & Hr & _). apply ensure_wf_ret in Hr. unfold map_contains in Hr.
    destruct (map_get (fn_locals f) (fn_ret f)) as [rt|] eqn:Er; [|done]. cbn [unwrap obind].
    apply ca_bind; [apply (wf_no_panic T ht); eapply Hloc; by apply map_get_in|]. intros l _. apply ca_bind; [ca_go|]. intros _ _. apply ca_bind; [ca_go|].
    intros _ _. apply ca_for_each. intros g _. apply ca_for_each. ca_go.
  Qed.
End Programs.

(** ** Nothing without an answer is accepted *)

Section NeverTypes.
  Variable T : Target.
  Variable ht : TraitName -> bool.
  Notation wf := (ty_check_wf T ht).
  Notation bad_elements := (bad_elements T).
  Notation no_layout := (no_layout T).

  Lemma wf_component ty t : wf ty = Ret tt -> component ty t -> wf t = Ret tt.
  Proof.
    intros H Hc. destruct Hc as [fs h u o t Hin|fs h t|e n|e|fs c s a o t Hin|vs dty d s a k t tg Hin].
    - apply wf_tuple in H as (Hf & _). rewrite List.Forall_forall in Hf. by apply (Hf (o, t)).
    - apply wf_tuple in H as (_ & _ & _ & Hu & _). by apply Hu.
    - by apply wf_array in H as (_ & ? & _).
    - by apply wf_slice in H as (? & _).
    - apply wf_union in H as (Hf & _). rewrite List.Forall_forall in Hf. by apply (Hf (o, t)).
    - apply wf_enum in H as (Hf & _). rewrite List.Forall_forall in Hf. by apply (Hf (k, (t, tg))).
  Qed.
  Lemma wf_within ty t : within ty t -> wf ty = Ret tt -> wf t = Ret tt.
  Proof. induction 1; [done|]. intros Hw. eapply IHwithin, wf_component; done. Qed.
  Lemma wf_has_layout ty : wf ty = Ret tt -> ~ no_layout ty.
  Proof. intros H Hn. apply (layout_panic T ht) in Hn. destruct (wf_layout T ht ty H) as (l & El & _). congruence. Qed.
  Lemma wf_good ty : wf ty = Ret tt -> ~ bad_elements ty.
  Proof.
    intros H (e & He & [(n & Hn)|Hn]); (eapply wf_within in Hn; [|done]); refine (wf_has_layout e _ He); (eapply wf_component; [exact Hn|constructor]).
  Qed.
End NeverTypes.

Section Never.
  Variable T : Target.
  Variable prog : Program.
  Notation ht := (has_trait prog).
  Notation wf := (ty_check_wf T ht).
  Notation bad_elements := (bad_elements T).
  Notation no_layout := (no_layout T).

  Section Exprs.
    Variable locals : list (LocalName * Ty).
    Notation value := (value_check_wf T prog locals).
    Notation place := (place_check_wf T prog locals).
    Definition checked (e : Expr) : Prop := match e with inl e => exists ty, value e = Ret ty | inr p => exists ty, place p = Ret ty end.
    Lemma checked_child e e1 : child e e1 -> checked e -> checked e1.
    Proof.
      intros Hc Hx. destruct Hc; try rename H into Hin; destruct Hx as [tx H]; cbn [checked value_check_wf place_check_wf] in *.
      - apply obind_ret in H as ([] & _ & H). apply obind_ret in H as ([] & Ht & _). destruct ty as [| | |fs h u|x n| | | |]; try done.
        + apply obind_ret in Ht as ([] & _ & Ht). apply obind_ret in Ht as ([] & Hl & Ht). apply ensure_wf_ret, Nat.eqb_eq in Hl.
          apply for_each2_ret in Ht; [|done]. match goal with H : In _ _ |- _ => apply elem_of_list_In in H; apply elem_of_list_lookup in H as [i Hi] end.
          eapply Forall2_lookup_l in Ht as (y & _ & Ht); [|done]. apply obind_ret in Ht as (t & Ht & _). by exists t.
        + apply obind_ret in Ht as ([] & _ & Ht). apply for_each_ret in Ht. rewrite List.Forall_forall in Ht.
          match goal with H : In _ _ |- _ => apply Ht, obind_ret in H as (t & Hv & _) end. by exists t.
      - apply obind_ret in H as ([] & _ & H). destruct ty; try done. apply obind_ret in H as ([] & _ & H). apply obind_ret in H as ([o t] & _ & H).
        apply obind_ret in H as (t' & H & _). by exists t'.
      - destruct ty; try done. apply obind_ret in H as ([] & _ & H). destruct (map_get _ _); [|done]. apply obind_ret in H as (t & H & _). by exists t.
      - apply obind_ret in H as (t & H & _). by exists t.
      - apply obind_ret in H as (t & H & _). by exists t.
      - apply obind_ret in H as ([] & _ & H). apply obind_ret in H as (t & H & _). by exists t.
      - apply obind_ret in H as (t & H & _). by exists t.
      - apply obind_ret in H as (t & H & _). by exists t.
      - apply obind_ret in H as (t & _ & H). apply obind_ret in H as (t' & H & _). by exists t'.
      - apply obind_ret in H as ([] & _ & H). apply obind_ret in H as (t & H & _). by exists t.
      - apply obind_ret in H as (t & H & _). by exists t.
      - apply obind_ret in H as (t & H & _). by exists t.
      - apply obind_ret in H as (t & _ & H). apply obind_ret in H as (t' & H & _). by exists t'.
      - apply obind_ret in H as (t & H & _). by exists t.
    Qed.
    Lemma checked_occurs e e1 : occurs e e1 -> checked e -> checked e1.
    Proof. induction 1; [done|]. intros. eapply IHoccurs, checked_child; done. Qed.
    Lemma no_answer_unchecked e : no_answer T prog locals e -> ~ checked e.
    Proof.
      intros Hn Hx. destruct Hn; try rename H0 into H1; try rename H into H0; destruct Hx as [tx H]; cbn [value_check_wf place_check_wf] in H;
        try (apply obind_ret in H as ([] & Hw & _); by eapply (wf_good T ht)).
      - destruct ty; try done. apply obind_ret in H as ([] & Hw & _). by eapply (wf_good T ht).
      - apply obind_ret in H as (t1 & _ & H). apply obind_ret in H as ([] & Hw & _). by eapply (wf_good T ht).
      - apply obind_ret in H as (t1 & _ & H). apply obind_ret in H as ([] & Hw & _). by eapply (wf_good T ht).
      - apply obind_ret in H as ([] & _ & H). destruct ty; try done. apply obind_ret in H as ([] & _ & H). apply obind_ret in H as (x & Hx & _).
        apply unwrap_ret in Hx. unfold list_get in Hx. apply Z.ltb_lt in H0. by rewrite H0 in Hx.
      - apply obind_ret in H as (t1 & _ & H). cbn [unop_check_wf] in H. apply obind_ret in H as (l & _ & H). apply obind_ret in H as ([] & _ & H).
        apply obind_ret in H as (l' & El & _). apply (layout_panic T ht) in H0. congruence.
      - unfold has_type in H0. rewrite H0 in H. cbn [obind unop_check_wf] in H. apply obind_ret in H as (l & El & _). apply (layout_panic T ht) in H1. congruence.
      - unfold has_type in H0. rewrite H0 in H. cbn [obind] in H. apply obind_ret in H as (t2 & _ & H). cbn [binop_check_wf] in H. apply obind_ret in H as ([] & _ & H).
        apply (with_overflow_panic T prog) in H1. congruence.
      - unfold has_type in H0. rewrite H0 in H. cbn [obind unop_check_wf] in H. by rewrite H1 in H.
    Qed.
  End Exprs.
  Section Functions.
    Variable func : Function.
    Lemma checked_stmt s e : statement_check_wf T prog func s = Ret tt -> stmt_expr s e -> checked (fn_locals func) e.
    Proof.
      intros H Hs. destruct Hs; cbn [statement_check_wf checked] in *; apply obind_ret in H as (t & Ht & H); try (by exists t).
      apply obind_ret in H as (t' & Ht' & _). by exists t'.
    Qed.
    Lemma checked_term k t e : terminator_check_wf T prog func k t = Ret tt -> term_expr t e -> checked (fn_locals func) e.
    Proof.
      intros H Hs. destruct Hs as [| | | |c conv args ret nb ub a Hin| |op args ret nb e Hin]; cbn [terminator_check_wf checked] in *; apply obind_ret in H as (t & Ht & H); try (by exists t).
      - apply obind_ret in H as ([] & _ & H). apply obind_ret in H as (t' & Ht' & _). by exists t'.
      - apply obind_ret in H as ([] & _ & H). apply obind_ret in H as (t' & _ & H). apply obind_ret in H as ([] & _ & H).
        apply obind_ret in H as ([] & H & _). apply for_each_ret in H. rewrite List.Forall_forall in H. apply H, obind_ret in Hin as (ta & Hta & _).
        destruct a; cbn [arg_expr checked argument_check_wf] in *; by exists ta.
      - apply obind_ret in H as ([] & _ & H). apply obind_ret in H as ([] & H & _). apply for_each_ret in H. rewrite List.Forall_forall in H.
        apply H, obind_ret in Hin as (ta & Hta & _). by exists ta.
    Qed.
    Lemma argument_layout k t e ty : terminator_check_wf T prog func k t = Ret tt -> argument t e -> has_type T prog (fn_locals func) e ty -> ~ no_layout ty.
    Proof.
      intros H Ha Hty Hn. apply (layout_panic T ht) in Hn. destruct Ha as [c conv args ret nb ub e Hin|op args ret nb e Hin]; cbn [terminator_check_wf] in H;
        apply obind_ret in H as (t & Ht & H).
      - apply obind_ret in H as ([] & _ & H). apply obind_ret in H as (t' & _ & H). apply obind_ret in H as ([] & _ & H).
        apply obind_ret in H as ([] & H & _). apply for_each_ret in H. rewrite List.Forall_forall in H. apply H, obind_ret in Hin as (ta & Hta & Hs).
        cbn [argument_check_wf] in Hta. unfold has_type in Hty. assert (ta = ty) as -> by congruence. unfold ensure_sized in Hs. by rewrite Hn in Hs.
      - apply obind_ret in H as ([] & _ & H). apply obind_ret in H as ([] & H & _). apply for_each_ret in H. rewrite List.Forall_forall in H.
        apply H, obind_ret in Hin as (ta & Hta & Hs). unfold has_type in Hty. assert (ta = ty) as -> by congruence. unfold ensure_sized in Hs. by rewrite Hn in Hs.
    Qed.
    Lemma function_unchecked : function_no_answer T prog func -> function_check_wf T prog func <> Ret tt.
    Proof.
      intros Hn H. pose proof (fn_locals_wf T prog _ H) as Hloc. unfold function_check_wf in H. apply obind_ret in H as ([] & Hl & H).
      apply obind_ret in H as (live & _ & H). apply obind_ret in H as ([] & _ & H). apply obind_ret in H as ([] & _ & H).
      apply for_each_ret in H. rewrite List.Forall_forall in H.
      destruct Hn as [l ty Hin [Hn|Hn]|b blk s e0 e Hb Hs He Ho Hn|b blk e0 e Hb He Ho Hn|b blk e ty Hb Ha Ht Hn].
      - eapply (wf_has_layout T ht); [by eapply Hloc|done].
      - eapply (wf_good T ht); [by eapply Hloc|done].
      - apply H, obind_ret in Hb as ([] & Hb & _). cbn [snd] in Hb. apply for_each_ret in Hb. rewrite List.Forall_forall in Hb.
        eapply no_answer_unchecked; [done|]. eapply checked_occurs; [done|]. by eapply checked_stmt; [apply Hb|].
      - apply H, obind_ret in Hb as ([] & _ & Hb). cbn [snd] in Hb. eapply no_answer_unchecked; [done|]. eapply checked_occurs; [done|].
        by eapply checked_term.
      - apply H, obind_ret in Hb as ([] & _ & Hb). cbn [snd] in Hb. by eapply argument_layout.
    Qed.
  End Functions.
  Lemma program_unchecked : program_no_answer T prog -> program_check_wf T prog <> Ret tt.
  Proof.
    intros (n & f & Hin & Hf) H. unfold program_check_wf in H. apply obind_ret in H as ([] & _ & H). apply obind_ret in H as ([] & H & _).
    apply for_each_ret in H. rewrite List.Forall_forall in H. apply H in Hin. cbn [snd] in Hin. by eapply function_unchecked.
  Qed.
End Never.
