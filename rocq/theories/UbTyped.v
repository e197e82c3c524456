(** What an expression means has the type that the check computes. *)
From Verif Require Export UbSpec ExprDefined WfProg.
Local Open Scope Z_scope.

Section Typed.
  Context {PE AE F : Type} `{EqDecision (nat * PE)}.
  Variable T : Target.
  Variable prog : Program.
  Variable locals : list (LocalName * Ty).
  Notation P := (nat * PE)%type.
  Notation Mach := (Machine P F (BMem PE AE)).
  Variable m : Mach.
  Hypothesis Htop : forall f, top_frame m f -> fn_locals (f_func f) = locals.

  Lemma ensure_ret b s u : ensure_wf b s = Ret u -> b = true.
  Proof. unfold ensure_wf. by destruct b. Qed.

  Lemma un_typed op v ty w wty ty' : un_means T m op v ty w wty -> unop_check_wf T prog op ty = Ret ty' -> wty = ty'.
  Proof.
    intros H E. destruct H; cbn [unop_check_wf] in E.
    - assert (ty' = TInt (int_un_op_ty op it)) as -> by (by injection E as <-; destruct op). done.
    - apply obind_ret in E as (? & _ & E). by injection E as <-.
    - apply obind_ret in E as (? & _ & E). apply obind_ret in E as (? & _ & E). apply obind_ret in E as (? & _ & E). apply obind_ret in E as (? & _ & E). by injection E as <-.
    - apply obind_ret in E as (? & _ & E). by injection E as <-.
    - assert (ty' = meta_kind_ty T (ptr_meta_kind pt)) as -> by congruence. destruct H; done.
    - apply obind_ret in E as (? & _ & E). destruct (bool_decide _); [|done]. by injection E as <-.
    - apply obind_ret in E as (? & _ & E). destruct (bool_decide _); [|done]. by injection E as <-.
    - destruct pt; try done. apply obind_ret in E as (? & _ & E). apply obind_ret in E as (? & _ & E). by injection E as <-.
  Qed.
  Lemma bin_typed op v1 ty1 v2 ty2 w wty ty' : bin_means T m op v1 ty1 v2 w wty -> binop_check_wf T op ty1 ty2 = Ret ty' -> wty = ty'.
  Proof.
    intros H E. destruct H; cbn [binop_check_wf] in E.
    - destruct ty2; try done. apply obind_ret in E as (? & _ & E). by injection E as <-.
    - apply obind_ret in E as (? & _ & E). congruence.
    - apply obind_ret in E as (? & _ & E). apply obind_ret in E as (? & _ & E). injection E as <-. apply obind_ret in H as (ord & _ & H).
      injection H as H. revert H. unfold eval_rel_op. destruct rel; by intros [= <- <-].
    - destruct ty; try done. destruct (bool_decide _); [done|]. apply obind_ret in E as (? & _ & E). by injection E as <-.
    - destruct ty; try done. destruct (bool_decide _); [done|]. apply obind_ret in E as (? & _ & E). by injection E as <-.
    - destruct ty; try done. destruct (bool_decide _); [done|]. destruct ty2; try done. destruct (bool_decide _); [done|]. by injection E as <-.
    - destruct ty; try done. destruct (bool_decide _); [done|]. destruct ty2; try done. destruct (bool_decide _); [done|]. by injection E as <-.
    - destruct ty; try done. destruct (bool_decide _); [done|]. destruct (bool_decide _); [done|]. by injection E as <-.
  Qed.

  Lemma means_typed :
    (forall e v ty, value_means T m e v ty -> forall ty', value_check_wf T prog locals e = Ret ty' -> ty = ty') /\
    (forall es vs, values_mean T m es vs -> True) /\
    (forall p ptr b ty, place_means T m p ptr b ty -> forall ty', place_check_wf T prog locals p = Ret ty' -> ty = ty').
  Proof.
    apply means_min; try done.
    - intros c v ty _ ty' E. cbn [value_check_wf] in E. apply obind_ret in E as (? & _ & E). apply obind_ret in E as (? & _ & E). by injection E as <-.
    - intros es vs ty _ _ ty' E. cbn [value_check_wf] in E. apply obind_ret in E as (? & _ & E). apply obind_ret in E as (? & _ & E). by injection E as <-.
    - intros i e fields chunks s al off fty v ety bs data u _ _ _ _ _ _ _ ty' E. cbn [value_check_wf] in E. apply obind_ret in E as (? & _ & E).
      apply obind_ret in E as (? & _ & E). apply obind_ret in E as ([? ?] & _ & E). apply obind_ret in E as (? & _ & E). apply obind_ret in E as (? & _ & E). by injection E as <-.
    - intros d e v ety ty _ _ ty' E. cbn [value_check_wf] in E. destruct ty; try done. apply obind_ret in E as (? & _ & E).
      destruct (map_get _ _); [|done]. apply obind_ret in E as (? & _ & E). apply obind_ret in E as (? & _ & E). by injection E as <-.
    - intros p ptr variants dty discr s al d _ IH _ ty' E. cbn [value_check_wf] in E. apply obind_ret in E as (t & Et & E).
      apply IH in Et as <-. by injection E as <-.
    - intros p ptr ty v _ IH _ _ ty' E. cbn [value_check_wf] in E. apply obind_ret in E as (t & Et & E). apply IH in Et as <-.
      apply obind_ret in E as (? & _ & E). apply obind_ret in E as (? & _ & E). by injection E as <-.
    - intros p ptr al ty pt q _ _ _ _ ty' E. cbn [value_check_wf] in E. apply obind_ret in E as (? & _ & E). apply obind_ret in E as (? & _ & E).
      apply obind_ret in E as (? & _ & E). by injection E as <-.
    - intros op e v ty w wty _ IH Hop ty' E. cbn [value_check_wf] in E. apply obind_ret in E as (t & Et & E). apply IH in Et as <-.
      by eapply un_typed.
    - intros op e1 v1 ty1 e2 v2 ty2 w wty _ IH1 _ IH2 Hop ty' E. cbn [value_check_wf] in E. apply obind_ret in E as (t1 & Et1 & E).
      apply obind_ret in E as (t2 & Et2 & E). apply IH1 in Et1 as <-. by eapply bin_typed.
    - intros l f p ty Hf _ Ht ty' E. cbn [place_check_wf] in E. rewrite <-(Htop _ Hf), Ht in E. by injection E as <-.
    - intros e ptr pt ty s al b _ _ _ _ _ ty' E. cbn [place_check_wf] in E. apply obind_ret in E as (? & _ & E). apply obind_ret in E as (t & _ & E).
      destruct t; try done. apply obind_ret in E as (? & _ & E). by injection E as <-.
    - intros p ptr b ty i off fty meta _ IH Hf _ _ ty' E. cbn [place_check_wf] in E. apply obind_ret in E as (t & Et & E). apply IH in Et as <-.
      destruct Hf as [fields head u meta0 i off t Hi|fields head t meta0 s al c off _ _ _|fields chunks s al meta0 i off t Hi].
      + apply lookup_lt_Some in Hi as Hl. rewrite (proj2 (Z.leb_le _ _)), (proj2 (Z.ltb_lt _ _)) in E by lia. cbn [andb] in E.
        rewrite list_get_nat, Hi in E. cbn in E. by injection E as <-.
      + rewrite (proj2 (Z.leb_le _ _)), (proj2 (Z.ltb_ge _ _)) in E by lia. cbn [andb] in E. rewrite Z.eqb_refl in E. by injection E as <-.
      + rewrite list_get_nat, Hi in E. by injection E as <-.
    - intros p ptr b ty e i ity elem count s _ IH _ _ Hty _ _ _ ty' E. cbn [place_check_wf] in E. apply obind_ret in E as (t & Et & E). apply IH in Et as <-.
      apply obind_ret in E as (? & _ & E). apply obind_ret in E as (? & _ & E). destruct Hty as [->|[-> _]]; by injection E as <-.
    - intros p ptr b variants dty discr s al d ty tg _ IH Hg ty' E. cbn [place_check_wf] in E. apply obind_ret in E as (t & Et & E). apply IH in Et as <-.
      rewrite Hg in E. by injection E as <-.
  Qed.
  Lemma value_typed e v ty ty' : value_means T m e v ty -> value_check_wf T prog locals e = Ret ty' -> ty = ty'.
  Proof. intros H. by apply (proj1 means_typed _ _ _ H). Qed.
  Lemma place_typed p ptr b ty ty' : place_means T m p ptr b ty -> place_check_wf T prog locals p = Ret ty' -> ty = ty'.
  Proof. intros H. by apply (proj2 (proj2 means_typed) _ _ _ _ H). Qed.
End Typed.
