(** The names of a translated program. *)
From Verif Require Export MiniProg MiniSpec.
From Coq Require Import ZifyBool ZifyN ZifyNat.

Lemma methods_get es k : (forall i f, es !! i = Some (VeDrop f) -> (k + i)%nat = 0%nat) -> forall m,
  map_get (omap (fun ie : nat * VEntry => match snd ie with
                                 | VeMethod f => Some (N.of_nat (fst ie), f)
                                 | VeDrop f => Some (DROP_IN_PLACE, f)
                                 | VeOther => None
                                 end) (zip (seq k (length es)) es)) m
  = if (k <=? N.to_nat m)%nat then es !! (N.to_nat m - k)%nat ≫= entry_fn else None.
Proof.
  revert k. induction es as [|e es IH]; intros k Hd m; [by destruct (_ <=? _)%nat|].
  cbn [length seq zip_with omap list_omap snd fst]. specialize (IH (S k)).
  assert (Hd' : forall i f, es !! i = Some (VeDrop f) -> (S k + i)%nat = 0%nat) by (intros i f Hi; specialize (Hd (S i) f Hi); lia).
  specialize (IH Hd' m). change (@list_omap) with (fun A B => @omap list _ A B) in *.
  assert (Hsplit : forall o, (if (k <=? N.to_nat m)%nat then (e :: es) !! (N.to_nat m - k)%nat ≫= entry_fn else None) = o <->
     (if bool_decide (N.of_nat k = m) then entry_fn e = o else (if (S k <=? N.to_nat m)%nat then es !! (N.to_nat m - S k)%nat ≫= entry_fn else None) = o)).
  { intros o. case_bool_decide as E.
    - subst m. rewrite Nat2N.id, Nat.leb_refl, Nat.sub_diag. done.
    - destruct (Nat.leb_spec k (N.to_nat m)), (Nat.leb_spec (S k) (N.to_nat m)); try lia; [|done].
      replace (N.to_nat m - k)%nat with (S (N.to_nat m - S k)) by lia. done. }
  symmetry. apply Hsplit. destruct e as [f|f|]; cbn [entry_fn].
  - rewrite map_get_cons. by case_bool_decide.
  - specialize (Hd 0%nat f eq_refl). assert (k = 0%nat) as -> by lia. rewrite map_get_cons. change (N.of_nat 0) with DROP_IN_PLACE. destruct (bool_decide_reflect (DROP_IN_PLACE = m)); by symmetry.
  - case_bool_decide as E; [|done]. rewrite IH. destruct (Nat.leb_spec (S k) (N.to_nat m)); [lia|done].
Qed.

Section Names.
  Context (R : Rustc) (fuel : nat) (Hmir : mir_ok T R) (Hcov : mir_covered T R) (Hfuel : enough R fuel).

  Lemma run_names entry c fns P : rtc (mono fuel R T) (cx_init entry, []) (c, fns) -> (forall i n, map_get (cx_fns c) i = Some n -> is_Some (map_get fns n)) ->
    (let start := N.of_nat (length (cx_fns c)) in
     P = mkProgram (map_insert fns start (mk_start_fn 0)) start (cx_globals c) (traits_of R) (cx_vtables c)) ->
    names T fuel R entry P (map_get (cx_fns c)) (map_get (cx_alloc_map c)) (map_get (cx_vtable_map c)).
  Proof.
    destruct Hmir as [HR HB], Hcov as [HC Hvts]. intros Hrun Hall ->.
    pose proof (run_pinv R HR fuel Hfuel (fun i b H => conj (HB i b H) (HC i b H)) _ _ Hrun) as [Hc He Hf]. cbn [fst snd] in *.
    set (start := N.of_nat (length (cx_fns c))).
    split; cbn [pr_start pr_functions pr_globals pr_vtables].
    - exact (ck_fn_inj _ _ _ Hc).
    - exact (ck_alloc_inj _ _ _ Hc).
    - exact (ck_vt_inj _ _ _ Hc).
    - intros i n Hi. pose proof (ck_fn _ _ _ Hc _ _ Hi). split; [lia|]. rewrite map_insert_get, bool_decide_eq_false_2 by lia. by eapply Hall.
    - intros a n Ha. destruct (ck_alloc _ _ _ Hc _ _ Ha) as (g & Hg & _). by eexists.
    - intros [r tn] n Hk. destruct (ck_vt _ _ _ Hc _ _ _ Hk) as (vt & Hvt & _). by eexists.
    - intros n F Hn Hne. rewrite map_insert_get, bool_decide_eq_false_2 in Hn by done. apply map_get_in in Hn.
      destruct (proj1 (List.Forall_forall _ _) Hf _ Hn) as [(i & b & o & c0 & c1 & Hi & Hb & Ho & Ht & _) _]. by exists i, b, o, c0, c1.
    - exists 0%N. split; [done|]. by rewrite map_insert_get, bool_decide_eq_true_2.
    - intros n g Hg. destruct (ck_global _ _ _ Hc n g Hg) as (_ & a & Ha). exists a. split; [done|].
      destruct (ck_alloc _ _ _ Hc _ _ Ha) as (g' & Hg' & [H|(d & Hd & Hby & Hal & Hrel)]); [by apply elem_of_nil in H|]. replace g' with g in * by congruence.
      exists d. split_and!; [done..|]. apply Forall2_same_length_lookup_2; [by eapply Forall2_length|]. intros k [off a'] y Hp Hy.
      destruct (Forall2_lookup_lr _ _ _ _ _ _ Hrel Hp Hy) as (m & o & -> & Hm & Ho). cbn [fst snd] in *.
      apply elem_of_list_lookup_2 in Hp. destruct (ro_alloc _ _ HR a d off a' Hd Hp) as (Hlen & bs & Hbs & _).
      split; [done|]. split; [done|]. exists bs. split; [done|]. cbn [fst snd r_offset].
      unfold inner_offset, subslice in Ho. rewrite (proj2 (Nat.leb_le _ _)) in Ho by lia. cbn [obind] in Ho. rewrite Hbs in Ho.
      replace (map_m unwrap (List.map Some bs)) with (Ret bs) in Ho.
      2:{ clear. induction bs as [|b bs IHb]; [done|]. cbn [List.map map_m unwrap obind]. by rewrite <-IHb. }
      cbn [obind] in Ho. injection Ho as <-. rewrite Z2N.id; [done|].
      pose proof (endian_decode_in LittleEndian Unsigned bs) as Hin. change (ENDIANNESS T) with LittleEndian. unfold in_bounds in Hin. destruct (_ =? 0)%N; lia.
    - intros n vt Hvt. destruct (ck_vt_of _ _ _ Hc n vt Hvt) as (_ & r & tn & (es & Hr & Htn & Hm) & Hk). exists (r, tn). split; [done|].
      exists es. cbn [fst snd]. split_and!; [done..|]. intros m. destruct (ro_vtable _ _ HR _ _ _ _ _ _ Hr) as (_ & _ & Hdrop).
      pose proof (methods_get es 0 (fun i f H => Hdrop i f H) m) as Hg. cbn [Nat.leb] in Hg. rewrite Nat.sub_0_r in Hg. rewrite <-Hg.
      fold (enumerate es). fold (vtable_methods es). clear -Hm. induction Hm as [|x [k v] l l' [Hxy Hx] _ IH]; [done|]. destruct x as [k' i]. cbn [fst snd] in *. subst k'.
      rewrite !map_get_cons. case_bool_decide; [done|exact IH].
  Qed.
  Lemma translated_names entry P : translated fuel R T entry P -> exists fn glob vtab, names T fuel R entry P fn glob vtab.
  Proof. intros (c & fns & Hrun & Hall & HP). eexists _, _, _. by eapply run_names. Qed.
End Names.
