(** The translation of well-typed MIR: programs. *)
From Verif Require Export MiniBody.
From Coq Require Import ZifyBool ZifyN ZifyNat.

Section Prog.
  Context (R : Rustc) (HR : rustc_ok T R) (fuel : nat) (Hfuel : enough R fuel)
    (Hbodies : forall i b, rc_body R i = Some b -> body_ok T R b /\ covered T R b)
    (Hvts : covered_vtables R).

  Lemma cx_init_ok entry : cx_ok R [] (cx_init entry).
  Proof.
    split; cbn; try done.
    - intros i n H. rewrite map_get_cons in H. case_bool_decide; [|done]. injection H as <-. lia.
    - intros i j n H1 H2. rewrite map_get_cons in H1, H2. repeat case_bool_decide; cbn in *; congruence.
    - constructor.
    - constructor.
  Qed.

  (** what is translated of [fns] in the context [c] *)
  Definition fn_done (c : Cx) (x : FnName * Function) : Prop :=
    (exists i b order c0 c1, map_get (cx_fns c) i = Some (fst x) /\ rc_body R i = Some b /\ order ≡ₚ seq 0 (length (ro_blocks b)) /\
       translate_body fuel R T c0 order b = Ret (snd x, c1) /\ cx_ok R [] c0 /\ ext c0 c1 /\ ext c1 c) /\
    forall P, holds R P c -> function_check_wf T P (snd x) = Ret tt.
  Record pinv (entry : Inst) (p : Cx * list (FnName * Function)) : Prop := {
    pi_cx : cx_ok R [] (fst p);
    pi_entry : map_get (cx_fns (fst p)) entry = Some 0%N;
    pi_fns : Forall (fn_done (fst p)) (snd p);
  }.
  Lemma mono_pinv entry p p' : mono fuel R T p p' -> pinv entry p -> pinv entry p'.
  Proof.
    intros [c fns i n b order f c' Hi Hn Hb Hord Ht] [Hc He Hf]. cbn [fst snd] in *. destruct (Hbodies _ _ Hb) as [HB Hcov].
    pose proof (body_fine R HR fuel Hfuel b HB Hcov c order Hc Hord) as H. rewrite Ht in H. destruct H as (Hc' & Hx & _ & Hwf).
    split; cbn [fst snd]; [done|by apply (ex_fns _ _ Hx)|]. apply map_insert_Forall.
    - eapply Forall_impl; [exact Hf|]. intros [m g] [(j & b' & o' & c0 & c1 & Hj & Hb' & Ho' & Ht' & Hok' & Hx0 & Hx1) Hg]. split.
      { exists j, b', o', c0, c1. split_and!; [by apply (ex_fns _ _ Hx)|done..|by eapply ext_trans]. } intros P HP. apply Hg. by eapply holds_ext.
    - split; [|done]. exists i, b, order, c, c'. split_and!; [by apply (ex_fns _ _ Hx)|done..|apply ext_refl].
  Qed.

  Lemma start_fn_wf P : map_contains (pr_functions P) 0%N = true -> function_check_wf T P (mk_start_fn 0) = Ret tt.
  Proof.
    destruct P as [fns start globals traits vts]. intros H. change (map_contains fns 0%N = true) in H. revert H. vm_compute. intros H. rewrite H. reflexivity.
  Qed.

  Lemma run_pinv entry p : rtc (mono fuel R T) (cx_init entry, []) p -> pinv entry p.
  Proof.
    intros Hrun. assert (H0 : pinv entry (cx_init entry, [])).
    { split; cbn [fst snd]; [apply cx_init_ok|cbn [cx_init cx_fns]; rewrite map_get_cons; by rewrite bool_decide_eq_true_2|constructor]. }
    revert H0. induction Hrun as [|p q r Hpq _ IH]; [done|]. intros H. apply IH. by eapply mono_pinv.
  Qed.

  Theorem translated_wf entry P : translated fuel R T entry P -> program_check_wf T P = Ret tt.
  Proof.
    intros (c & fns & Hrun & Hall & ->). pose proof (run_pinv _ _ Hrun) as Hinv.
    destruct Hinv as [Hc He Hf]. cbn [fst snd] in *. set (start := N.of_nat (length (cx_fns c))). set (P := mkProgram _ _ _ _ _).
    assert (HP : holds R P c).
    { split; [done|..]; cbn [P pr_functions pr_vtables pr_globals].
      - intros i n Hi. unfold map_contains. rewrite map_insert_get. case_bool_decide; [done|]. destruct (Hall i n Hi) as [f ->]. done.
      - intros r tn n H. by apply (ck_vt _ _ _ Hc) in H.
      - intros a n d Ha Hd. destruct (ck_alloc _ _ _ Hc a n Ha) as (g & Hg & [H|(d' & Hd' & Hby & _)]); [by apply elem_of_nil in H|]. exists g. split; [done|congruence]. }
    unfold program_check_wf. rewrite (proj2 (for_each_ret _ _)).
    2:{ apply List.Forall_forall. intros [n vt] Hin. cbn [snd]. apply (map_get_nodup _ _ _ (ck_vt_nodup _ _ _ Hc)) in Hin.
        destruct (ck_vt_of _ _ _ Hc n vt Hin) as (_ & r & tn & (es & Hr & Htn & Hm) & _). unfold vtable_check_wf.
        destruct (ro_vtable _ _ HR _ _ _ _ _ _ Hr) as (Hmod & Hcells & _). destruct (Hvts _ _ _ _ _ _ Hr) as (ms & Hms & Heq).
        rewrite (proj2 (N.eqb_eq _ _) Hmod). cbn [ensure_wf obind]. rewrite Hcells. cbn [obind]. rewrite (ho_traits _ _ _ HP), Htn, Hms.
        assert (Hfst : List.map fst (vt_methods vt) = List.map fst (vtable_methods es)).
        { clear -Hm. induction Hm as [|x y l l' [Hxy _] _ IH]; [done|]. cbn. by rewrite Hxy, IH. }
        rewrite Hfst. replace (_ && _) with true; [done|]. symmetry. apply andb_true_intro. split; apply forallb_forall; intros m Hm'%elem_of_list_In; apply bool_decide_eq_true_2; by apply Heq. }
    cbn [obind]. rewrite (proj2 (for_each_ret _ _)).
    2:{ cbn [P pr_functions]. apply map_insert_Forall.
        - eapply Forall_impl; [exact Hf|]. intros [n f] [_ H]. by apply H.
        - cbn [snd]. apply start_fn_wf. by eapply (ho_fns _ _ _ HP). }
    cbn [obind]. cbn [P pr_functions pr_start]. rewrite map_insert_get, bool_decide_eq_true_2 by done. cbn [mk_start_fn fn_conv fn_locals fn_ret fn_args].
    rewrite bool_decide_eq_true_2 by done. cbn [ensure_wf obind]. rewrite map_get_cons, bool_decide_eq_true_2 by done. cbn [unwrap obind].
    replace (layout T unit_ty) with (Ret (LSized 0 align_one) : Outcome LayoutStrategy) by (vm_compute; reflexivity). cbn [obind].
    rewrite bool_decide_eq_true_2 by done. cbn [ensure_wf obind].
    apply for_each_ret, List.Forall_forall. cbn [pr_globals]. intros [n g] Hin. cbn [snd].
    apply (map_get_nodup _ _ _ (ck_global_nodup _ _ _ Hc)) in Hin. destruct (ck_global _ _ _ Hc n g Hin) as (_ & a & Ha).
    destruct (ck_alloc _ _ _ Hc a n Ha) as (g' & Hg' & Hof). replace g' with g in * by congruence. clear g' Hg'.
    destruct Hof as [H|(d & Hd & Hby & Hal & Hrel)]; [by apply elem_of_nil in H|].
    apply for_each_ret. apply Forall_forall. intros y Hy. apply elem_of_list_lookup in Hy as [k Hk].
    destruct (Forall2_lookup_r _ _ _ _ _ Hrel Hk) as ([off a'] & Hp & m & o & -> & Hm & Ho). cbn [fst snd] in *.
    apply elem_of_list_lookup_2 in Hp. destruct (ro_alloc _ _ HR a d off a' Hd Hp) as (Hlen & bs & Hbs & d' & Hd' & Hle).
    rewrite Hby, (proj2 (N.leb_le _ _) Hlen). cbn [ensure_wf obind].
    unfold reloc_check_wf. cbn [r_name r_offset]. destruct (ho_allocs _ _ _ HP a' m d' Hm Hd') as (g' & Hg' & Hby'). rewrite Hg', Hby'.
    unfold inner_offset, subslice in Ho. rewrite (proj2 (Nat.leb_le _ _)) in Ho by lia. cbn [obind] in Ho. rewrite Hbs in Ho.
    replace (map_m unwrap (List.map Some bs)) with (Ret bs) in Ho.
    2:{ clear. induction bs as [|b bs IHb]; [done|]. cbn [List.map map_m unwrap obind]. by rewrite <-IHb. }
    cbn [obind] in Ho. injection Ho as <-.
    change (ENDIANNESS T) with LittleEndian in Hle. rewrite (proj2 (N.leb_le _ _)); [done|]. lia.
  Qed.
End Prog.
