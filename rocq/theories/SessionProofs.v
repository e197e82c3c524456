(** Sessions with the program builder: the state of the builders says what was declared. *)
From Verif Require Export SessionSpec.
From Verif Require Import BuildTotal BaseProofs EnumsProofs.

(** ** Function builders keep their names *)

Lemma header_name h b b' : emit_header h b = Ret b' -> fb_name b' = fb_name b.
Proof.
  unfold emit_header. 
  assert (H1 : forall tys b b', fold_m (fun b ty => let! '(_, b) := declare_arg b ty in Ret b) tys b = Ret b' -> fb_name b' = fb_name b).
  { clear. induction tys as [|ty r IH]; intros b b'; simpl; [by intros [= <-]|]. unfold declare_arg.
    destruct (try_insert _ _ _); try done. cbn [obind]. intros E%IH. exact E. }
  destruct (fold_m _ _ _) as [b1| | |] eqn:E; try done. cbn [obind]. apply H1 in E. rewrite <- E. clear.
  destruct (hd_ret h); cbn [obind]; [|by intros [= <-]]. unfold declare_ret. destruct (fb_ret b1); [done|].
  destruct (try_insert _ _ _); try done. cbn. by intros [= <-].
Qed.

Lemma finish_named p i b h c : fb_new i = Ret b -> map_get (pb_functions p) i = None ->
  (let! b := emit_header h b in let! b := emit c b in pb_finish_function p b) =
  let! f := build_function i h c in
  Ret (i, mkPB (pb_functions p ++ [(i, f)]) (pb_globals p) (pb_vtables p) (pb_traits p) (pb_next_fn p) (pb_next_global p) (pb_next_vtable p) (pb_next_trait p)).
Proof.
  intros E0 Hn. unfold build_function. rewrite E0. cbn [obind].
  destruct (new_total i) as (b0 & E0' & Hf0 & Hc0 & L0 & N0 & A0 & R0 & S0 & B0). rewrite E0 in E0'. injection E0' as <-.
  destruct (header_total h b _ Hf0 Hc0 L0 N0 A0 R0) as (b1 & E1 & Hf1 & Hc1 & _). rewrite E1. cbn [obind].
  apply header_name in E1. assert (En : fb_name b1 = i) by (rewrite E1; by injection E0 as <-).
  pose proof (proj1 (emit_total c) b1 _ Hf1 Hc1) as H. destruct (emit c b1) as [b2| | |]; try done. cbn [obind].
  destruct H as (_ & _ & (_ & _ & _ & (_ & _ & _ & _ & En') & _) & _).
  unfold pb_finish_function. destruct (finish_function b2); try done. cbn [obind]. rewrite En', En, try_insert_fresh by done. done.
Qed.

(** ** The invariant *)

Definition fn_inv (cs : list PbCall) (s : Session) : Prop :=
  length (se_fns s) = fns_of cs /\ pb_next_fn (se_pb s) = N.of_nat (fns_of cs) /\
  forall i, match se_fns s !! i with
  | Some None => exists f h c, map_get (pb_functions (se_pb s)) (N.of_nat i) = Some f /\ build_function (N.of_nat i) h c = Ret f /\
      forall h' c', PbFnDone i h' c' ∈ cs <-> h' = h /\ c' = c
  | x => (forall b, x = Some (Some b) -> fb_new (N.of_nat i) = Ret b) /\ map_get (pb_functions (se_pb s)) (N.of_nat i) = None /\ forall h c, PbFnDone i h c ∉ cs
  end.
Definition trait_inv (cs : list PbCall) (s : Session) : Prop :=
  length (se_traits s) = traits_of cs /\ pb_next_trait (se_pb s) = N.of_nat (traits_of cs) /\
  forall i, match se_traits s !! i with
  | Some None => PbTraitDone i ∈ cs /\ map_get (pb_traits (se_pb s)) (N.of_nat i) = Some (upto (methods_of cs i))
  | Some (Some b) => b = mkTB (N.of_nat i) (N.of_nat (methods_of cs i)) (upto (methods_of cs i)) /\
      map_get (pb_traits (se_pb s)) (N.of_nat i) = None /\ PbTraitDone i ∉ cs
  | None => methods_of cs i = 0%nat /\ map_get (pb_traits (se_pb s)) (N.of_nat i) = None /\ PbTraitDone i ∉ cs
  end.
Definition global_inv (T : Target) (cs : list PbCall) (s : Session) : Prop :=
  pb_next_global (se_pb s) = N.of_nat (length (globals_of cs)) /\
  forall i, match map_get (pb_globals (se_pb s)) (N.of_nat i) with
  | Some g => exists ty, globals_of cs !! i = Some ty /\ zero_global T ty = Ret g
  | None => globals_of cs !! i = None
  end.
Definition trait_complete (s : Session) (v : VTable) : Prop :=
  exists ms, map_get (pb_traits (se_pb s)) (vt_trait v) = Some ms /\ forall m, is_Some (map_get (vt_methods v) m) <-> m ∈ ms.
Definition vtable_inv (T : Target) (cs : list PbCall) (s : Session) : Prop :=
  length (se_vtables s) = length (vtables_of cs) /\ pb_next_vtable (se_pb s) = N.of_nat (length (vtables_of cs)) /\
  forall i, match se_vtables s !! i with
  | Some None => PbVTableDone i ∈ cs /\ exists v, map_get (pb_vtables (se_pb s)) (N.of_nat i) = Some v /\ vtable_is T cs i v /\ trait_complete s v
  | Some (Some b) => vb_name b = N.of_nat i /\ vtable_is T cs i (vb_vtable b) /\
      map_get (pb_vtables (se_pb s)) (N.of_nat i) = None /\ PbVTableDone i ∉ cs
  | None => (forall m, impl_of cs i m = None) /\ map_get (pb_vtables (se_pb s)) (N.of_nat i) = None /\ PbVTableDone i ∉ cs
  end.
Definition session_inv (T : Target) (cs : list PbCall) (s : Session) : Prop :=
  fn_inv cs s /\ trait_inv cs s /\ global_inv T cs s /\ vtable_inv T cs s.

(** ** Lists of calls *)

Lemma omap_snoc {A B} (f : A -> option B) l x : omap f (l ++ [x]) = omap f l ++ match f x with Some y => [y] | None => [] end.
Proof. rewrite omap_app. simpl. by destruct (f x). Qed.
Lemma in_snoc (c d : PbCall) cs : d ∈ cs ++ [c] <-> d ∈ cs \/ d = c.
Proof. rewrite elem_of_app, elem_of_list_singleton. done. Qed.

(** other calls do not matter *)
Lemma fn_frame cs s c s' : fn_inv cs s -> is_fn c = None -> (forall i h b, c <> PbFnDone i h b) ->
  se_fns s' = se_fns s -> pb_next_fn (se_pb s') = pb_next_fn (se_pb s) -> pb_functions (se_pb s') = pb_functions (se_pb s) -> fn_inv (cs ++ [c]) s'.
Proof.
  intros (H1 & H2 & H3) Hc Hd E1 E2 E3. unfold fn_inv. assert (En : fns_of (cs ++ [c]) = fns_of cs).
  { unfold fns_of. rewrite omap_snoc, Hc, app_nil_r. done. }
  rewrite E1, E2, E3, En. split; [done|]. split; [done|]. intros i. specialize (H3 i).
  assert (Hin : forall h b, PbFnDone i h b ∈ cs ++ [c] <-> PbFnDone i h b ∈ cs).
  { intros h b. rewrite in_snoc. split; [|by left]. intros [?|E]; [done|]. by destruct (Hd i h b). }
  destruct (se_fns s !! i) as [[b|]|].
  - destruct H3 as (A & B & C). split; [done|]. split; [done|]. intros h k. rewrite Hin. apply C.
  - destruct H3 as (f & h & k & A & B & C). exists f, h, k. split; [done|]. split; [done|]. intros h' k'. rewrite Hin. apply C.
  - destruct H3 as (A & B & C). split; [done|]. split; [done|]. intros h k. rewrite Hin. apply C.
Qed.
Lemma trait_frame cs s c s' : trait_inv cs s -> is_trait c = None -> (forall i, is_method i c = None) -> (forall i, c <> PbTraitDone i) ->
  se_traits s' = se_traits s -> pb_next_trait (se_pb s') = pb_next_trait (se_pb s) -> pb_traits (se_pb s') = pb_traits (se_pb s) -> trait_inv (cs ++ [c]) s'.
Proof.
  intros (H1 & H2 & H3) Hc Hm Hd E1 E2 E3. unfold trait_inv.
  assert (En : traits_of (cs ++ [c]) = traits_of cs).
  { unfold traits_of. rewrite omap_snoc, Hc, app_nil_r. done. }
  rewrite E1, E2, E3, En. split; [done|]. split; [done|]. intros i. specialize (H3 i).
  assert (Em : methods_of (cs ++ [c]) i = methods_of cs i).
  { unfold methods_of. rewrite omap_snoc, Hm, app_nil_r. done. }
  assert (Hin : PbTraitDone i ∈ cs ++ [c] <-> PbTraitDone i ∈ cs).
  { rewrite in_snoc. split; [|by left]. intros [?|E]; [done|]. by destruct (Hd i). }
  rewrite Em. destruct (se_traits s !! i) as [[b|]|]; rewrite Hin; done.
Qed.
Lemma global_frame T cs s c s' : global_inv T cs s -> is_global c = None ->
  pb_next_global (se_pb s') = pb_next_global (se_pb s) -> pb_globals (se_pb s') = pb_globals (se_pb s) -> global_inv T (cs ++ [c]) s'.
Proof.
  intros (H1 & H2) Hc E1 E2. unfold global_inv.
  assert (En : globals_of (cs ++ [c]) = globals_of cs).
  { unfold globals_of. rewrite omap_snoc, Hc, app_nil_r. done. }
  rewrite E1, E2, En. done.
Qed.
Lemma vtable_is_frame T cs c i v : is_vtable c = None -> (forall m, is_impl i m c = None) -> vtable_is T cs i v -> vtable_is T (cs ++ [c]) i v.
Proof.
  intros Hv Hi (h & H1 & H2 & H3). exists h. unfold vtables_of, impl_of in *.
  rewrite omap_snoc, Hv, app_nil_r. split; [done|]. split; [done|]. intros m. rewrite omap_snoc, Hi, app_nil_r. apply H3.
Qed.
Lemma vtable_is_later T cs c i v : (forall m, is_impl i m c = None) -> vtable_is T cs i v -> vtable_is T (cs ++ [c]) i v.
Proof.
  intros Hi (h & H1 & H2 & H3). exists h. unfold vtables_of, impl_of in *.
  rewrite omap_snoc. split; [by apply lookup_app_l_Some|]. split; [done|]. intros m. rewrite omap_snoc, Hi, app_nil_r. apply H3.
Qed.
Lemma vtable_frame T cs s c s' : vtable_inv T cs s -> is_vtable c = None -> (forall i m, is_impl i m c = None) -> (forall i, c <> PbVTableDone i) ->
  se_vtables s' = se_vtables s -> pb_next_vtable (se_pb s') = pb_next_vtable (se_pb s) -> pb_vtables (se_pb s') = pb_vtables (se_pb s) ->
  (forall n ms, map_get (pb_traits (se_pb s)) n = Some ms -> map_get (pb_traits (se_pb s')) n = Some ms) -> vtable_inv T (cs ++ [c]) s'.
Proof.
  intros (H1 & H2 & H3) Hc Hm Hd E1 E2 E3 Ht. unfold vtable_inv.
  assert (En : vtables_of (cs ++ [c]) = vtables_of cs).
  { unfold vtables_of. rewrite omap_snoc, Hc, app_nil_r. done. }
  rewrite E1, E2, E3, En. split; [done|]. split; [done|]. intros i. specialize (H3 i).
  assert (Hin : PbVTableDone i ∈ cs ++ [c] <-> PbVTableDone i ∈ cs).
  { rewrite in_snoc. split; [|by left]. intros [?|E]; [done|]. by destruct (Hd i). }
  destruct (se_vtables s !! i) as [[b|]|]; rewrite Hin.
  - destruct H3 as (A & B & C). split; [done|]. split; [|done]. apply vtable_is_frame; done.
  - destruct H3 as (A & v & B & C & ms & D & E). split; [done|]. exists v. split; [done|]. split; [by apply vtable_is_frame|].
    exists ms. auto.
  - destruct H3 as (A & B). split; [|done]. intros m. unfold impl_of in *. rewrite omap_snoc, Hm, app_nil_r. apply A.
Qed.

Lemma held_ret {A} (l : list (option A)) i b : held l i = Ret b <-> l !! i = Some (Some b).
Proof. unfold held. destruct (l !! i) as [[?|]|]; split; by intros [= <-]. Qed.

(** ** Functions *)

Lemma fn_declared cs s b p : fn_inv cs s -> declare_function (se_pb s) = Ret (b, p) ->
  fn_inv (cs ++ [PbFn]) (mkSession p (se_fns s ++ [Some b]) (se_traits s) (se_vtables s)).
Proof.
  intros (H1 & H2 & H3) E. unfold declare_function in E. cbv [fb_new obind] in E.
  assert (Eb : fb_new (pb_next_fn (se_pb s)) = Ret b) by by injection E as <- <-.
  assert (Ep : pb_functions p = pb_functions (se_pb s) /\ pb_next_fn p = (pb_next_fn (se_pb s) + 1)%N) by by injection E as <- <-.
  clear E. destruct Ep as [Ef Ec]. unfold fn_inv. simpl. rewrite Ef, Ec.
  assert (En : fns_of (cs ++ [PbFn]) = S (fns_of cs)).
  { unfold fns_of. rewrite omap_snoc, app_length. simpl. lia. }
  rewrite En, app_length. simpl. split; [lia|]. split; [lia|]. intros i.
  assert (Hin : forall h b, PbFnDone i h b ∈ cs ++ [PbFn] <-> PbFnDone i h b ∈ cs).
  { intros h k. rewrite in_snoc. naive_solver. }
  specialize (H3 i). destruct (se_fns s !! i) as [[b'|]|] eqn:Ei.
  - rewrite (lookup_app_l_Some _ _ _ _ Ei). destruct H3 as (A & B & C). split; [done|]. split; [done|]. intros h k. rewrite Hin. apply C.
  - rewrite (lookup_app_l_Some _ _ _ _ Ei). destruct H3 as (f & h & k & A & B & C). exists f, h, k. split; [done|]. split; [done|]. intros h' k'. rewrite Hin. apply C.
  - pose proof (lookup_ge_None_1 _ _ Ei). rewrite lookup_app_r by done. destruct H3 as (_ & B & C).
    assert (HC : forall h c, PbFnDone i h c ∉ cs ++ [PbFn]). { intros h k. rewrite Hin. apply C. }
    destruct (decide (i = length (se_fns s))) as [->|Hne].
    + rewrite Nat.sub_diag. simpl. split; [|done]. intros b' [= <-]. rewrite <- Eb, H2, H1. done.
    + rewrite lookup_ge_None_2 by (simpl; lia). split; [done|]. done.
Qed.

Lemma fn_done cs s i h c f b p : fn_inv cs s -> se_fns s !! i = Some (Some b) -> build_function (N.of_nat i) h c = Ret f ->
  p = mkPB (pb_functions (se_pb s) ++ [(N.of_nat i, f)]) (pb_globals (se_pb s)) (pb_vtables (se_pb s)) (pb_traits (se_pb s)) (pb_next_fn (se_pb s))
        (pb_next_global (se_pb s)) (pb_next_vtable (se_pb s)) (pb_next_trait (se_pb s)) ->
  fn_inv (cs ++ [PbFnDone i h c]) (mkSession p (<[i := None]> (se_fns s)) (se_traits s) (se_vtables s)).
Proof.
  intros (H1 & H2 & H3) Ei Ef ->. unfold fn_inv. simpl.
  assert (En : fns_of (cs ++ [PbFnDone i h c]) = fns_of cs).
  { unfold fns_of. rewrite omap_snoc, app_nil_r. done. }
  rewrite En, insert_length. split; [done|]. split; [done|]. intros j. destruct (decide (i = j)) as [<-|Hne].
  - rewrite list_lookup_insert by (by eapply lookup_lt_Some). specialize (H3 i). rewrite Ei in H3. destruct H3 as (_ & B & C).
    exists f, h, c. rewrite get_app, B, get_cons, bool_decide_true by done. split; [done|]. split; [done|]. intros h' c'. rewrite in_snoc. specialize (C h' c').
    split; [by intros [?|[= -> ->]]|]. intros [-> ->]. by right.
  - rewrite list_lookup_insert_ne by done. specialize (H3 j).
    assert (Hin : forall h' b, PbFnDone j h' b ∈ cs ++ [PbFnDone i h c] <-> PbFnDone j h' b ∈ cs).
    { intros h' k. rewrite in_snoc. naive_solver. }
    assert (Eg : map_get (pb_functions (se_pb s) ++ [(N.of_nat i, f)]) (N.of_nat j) = map_get (pb_functions (se_pb s)) (N.of_nat j)).
    { rewrite get_app, get_cons, bool_decide_false by lia. by destruct (map_get _ _). }
    rewrite Eg. destruct (se_fns s !! j) as [[b'|]|].
    + destruct H3 as (A & B & C). split; [done|]. split; [done|]. intros h' k. rewrite Hin. apply C.
    + destruct H3 as (f' & h' & k & A & B & C). exists f', h', k. split; [done|]. split; [done|]. intros h'' k'. rewrite Hin. apply C.
    + destruct H3 as (A & B & C). split; [done|]. split; [done|]. intros h' k. rewrite Hin. apply C.
Qed.

(** ** Traits *)

Lemma upto_S n : upto (S n) = upto n ++ [N.of_nat n].
Proof. unfold upto. rewrite seq_S, map_app. done. Qed.
Lemma in_upto m n : m ∈ upto n <-> (m < N.of_nat n)%N.
Proof.
  unfold upto. rewrite elem_of_list_In, in_map_iff. setoid_rewrite in_seq. split.
  - intros (x & <- & ?). lia.
  - intros ?. exists (N.to_nat m). lia.
Qed.

Lemma trait_declared cs s : trait_inv cs s ->
  let '(b, p) := declare_trait (se_pb s) in
  trait_inv (cs ++ [PbTrait]) (mkSession p (se_fns s) (se_traits s ++ [Some b]) (se_vtables s)).
Proof.
  intros (H1 & H2 & H3). unfold declare_trait, trait_inv. simpl.
  assert (En : traits_of (cs ++ [PbTrait]) = S (traits_of cs)).
  { unfold traits_of. rewrite omap_snoc, app_length. simpl. lia. }
  rewrite En, app_length. simpl. split; [lia|]. split; [lia|]. intros i.
  assert (Hin : PbTraitDone i ∈ cs ++ [PbTrait] <-> PbTraitDone i ∈ cs). { rewrite in_snoc. naive_solver. }
  assert (Em : methods_of (cs ++ [PbTrait]) i = methods_of cs i). { unfold methods_of. rewrite omap_snoc, app_nil_r. done. }
  rewrite Em. specialize (H3 i). destruct (se_traits s !! i) as [[b'|]|] eqn:Ei.
  - rewrite (lookup_app_l_Some _ _ _ _ Ei), Hin. done.
  - rewrite (lookup_app_l_Some _ _ _ _ Ei), Hin. done.
  - pose proof (lookup_ge_None_1 _ _ Ei). rewrite lookup_app_r by done.
    destruct (decide (i = length (se_traits s))) as [->|Hne].
    + rewrite Nat.sub_diag. simpl. rewrite Hin. destruct H3 as (A & B). split; [|done]. rewrite A, H2, H1. done.
    + rewrite lookup_ge_None_2 by (simpl; lia). rewrite Hin. done.
Qed.

Lemma trait_method cs s i b : trait_inv cs s -> se_traits s !! i = Some (Some b) ->
  trait_inv (cs ++ [PbMethod i]) (mkSession (se_pb s) (se_fns s) (<[i := Some (snd (declare_method b))]> (se_traits s)) (se_vtables s)).
Proof.
  intros (H1 & H2 & H3) Ei. unfold trait_inv. simpl.
  assert (En : traits_of (cs ++ [PbMethod i]) = traits_of cs).
  { unfold traits_of. rewrite omap_snoc, app_nil_r. done. }
  rewrite En, insert_length. split; [done|]. split; [done|]. intros j.
  assert (Hin : PbTraitDone j ∈ cs ++ [PbMethod i] <-> PbTraitDone j ∈ cs). { rewrite in_snoc. naive_solver. }
  specialize (H3 j). destruct (decide (i = j)) as [<-|Hne].
  - rewrite list_lookup_insert by (by eapply lookup_lt_Some). rewrite Hin. rewrite Ei in H3. destruct H3 as (-> & B).
    assert (Em : methods_of (cs ++ [PbMethod i]) i = S (methods_of cs i)).
    { unfold methods_of. rewrite omap_snoc. simpl. rewrite bool_decide_true, app_length by done. simpl. lia. }
    rewrite Em. split; [|done]. unfold declare_method. simpl. rewrite bool_decide_false by (rewrite in_upto; lia).
    rewrite upto_S. f_equal. lia.
  - rewrite list_lookup_insert_ne by done.
    assert (Em : methods_of (cs ++ [PbMethod i]) j = methods_of cs j).
    { unfold methods_of. rewrite omap_snoc. simpl. rewrite bool_decide_false, app_nil_r by done. done. }
    rewrite Em. destruct (se_traits s !! j) as [[b'|]|]; rewrite Hin; done.
Qed.

Lemma trait_done cs s i b p : trait_inv cs s -> se_traits s !! i = Some (Some b) ->
  p = mkPB (pb_functions (se_pb s)) (pb_globals (se_pb s)) (pb_vtables (se_pb s)) (pb_traits (se_pb s) ++ [(tb_name b, tb_methods b)]) (pb_next_fn (se_pb s))
        (pb_next_global (se_pb s)) (pb_next_vtable (se_pb s)) (pb_next_trait (se_pb s)) ->
  trait_inv (cs ++ [PbTraitDone i]) (mkSession p (se_fns s) (<[i := None]> (se_traits s)) (se_vtables s)).
Proof.
  intros (H1 & H2 & H3) Ei ->. unfold trait_inv. simpl.
  assert (En : traits_of (cs ++ [PbTraitDone i]) = traits_of cs).
  { unfold traits_of. rewrite omap_snoc, app_nil_r. done. }
  rewrite En, insert_length. split; [done|]. split; [done|]. intros j.
  assert (Em : methods_of (cs ++ [PbTraitDone i]) j = methods_of cs j). { unfold methods_of. rewrite omap_snoc, app_nil_r. done. }
  rewrite Em. pose proof (H3 i) as H3i. rewrite Ei in H3i. destruct H3i as (-> & B & C). simpl.
  specialize (H3 j). destruct (decide (i = j)) as [<-|Hne].
  - rewrite list_lookup_insert by (by eapply lookup_lt_Some). rewrite in_snoc, get_app, B, get_cons, bool_decide_true by done. split; [by right|done].
  - rewrite list_lookup_insert_ne by done.
    assert (Hin : PbTraitDone j ∈ cs ++ [PbTraitDone i] <-> PbTraitDone j ∈ cs). { rewrite in_snoc. naive_solver. }
    assert (Eg : forall f, map_get (pb_traits (se_pb s) ++ [(N.of_nat i, f)]) (N.of_nat j) = map_get (pb_traits (se_pb s)) (N.of_nat j)).
    { intros f. rewrite get_app, get_cons, bool_decide_false by lia. by destruct (map_get _ _). }
    rewrite Eg. destruct (se_traits s !! j) as [[b'|]|]; rewrite Hin; done.
Qed.

(** ** Globals *)

Lemma global_declared T cs s g ty p : global_inv T cs s -> zero_global T ty = Ret g ->
  map_get (pb_globals (se_pb s)) (pb_next_global (se_pb s)) = None /\
  (p = mkPB (pb_functions (se_pb s)) (pb_globals (se_pb s) ++ [(pb_next_global (se_pb s), g)]) (pb_vtables (se_pb s)) (pb_traits (se_pb s)) (pb_next_fn (se_pb s))
        (pb_next_global (se_pb s) + 1) (pb_next_vtable (se_pb s)) (pb_next_trait (se_pb s)) ->
   global_inv T (cs ++ [PbGlobal ty]) (mkSession p (se_fns s) (se_traits s) (se_vtables s))).
Proof.
  intros (H1 & H2) Eg. rewrite H1.
  assert (B : map_get (pb_globals (se_pb s)) (N.of_nat (length (globals_of cs))) = None).
  { specialize (H2 (length (globals_of cs))). destruct (map_get _ _) as [g'|]; [|done]. destruct H2 as (ty' & E & _). apply lookup_lt_Some in E. lia. }
  split; [done|]. intros ->. unfold global_inv. simpl.
  assert (En : globals_of (cs ++ [PbGlobal ty]) = globals_of cs ++ [ty]). { unfold globals_of. rewrite omap_snoc. done. }
  rewrite En, app_length. simpl. split; [lia|]. intros i. rewrite get_app, get_cons. specialize (H2 i).
  destruct (map_get (pb_globals (se_pb s)) (N.of_nat i)) as [g'|] eqn:E.
  - destruct H2 as (ty' & A & A'). exists ty'. split; [by apply lookup_app_l_Some|done].
  - pose proof (lookup_ge_None_1 _ _ H2). rewrite lookup_app_r by done. case_bool_decide as Hi.
    + apply Nat2N.inj in Hi as <-. exists ty. rewrite Nat.sub_diag. done.
    + simpl. apply lookup_ge_None_2. simpl. assert (i <> length (globals_of cs)) by (intros ->; done). lia.
Qed.

(** ** Vtables *)

Lemma vtable_declared T cs s c tn h vt b p : vtable_inv T cs s -> is_vtable c = Some (tn, h) -> (forall i m, is_impl i m c = None) -> (forall i, c <> PbVTableDone i) ->
  vt_trait vt = tn -> head_is T h vt -> vt_methods vt = [] -> b = mkVB (pb_next_vtable (se_pb s)) vt ->
  p = mkPB (pb_functions (se_pb s)) (pb_globals (se_pb s)) (pb_vtables (se_pb s)) (pb_traits (se_pb s)) (pb_next_fn (se_pb s))
        (pb_next_global (se_pb s)) (pb_next_vtable (se_pb s) + 1) (pb_next_trait (se_pb s)) ->
  vtable_inv T (cs ++ [c]) (mkSession p (se_fns s) (se_traits s) (se_vtables s ++ [Some b])).
Proof.
  intros (H1 & H2 & H3) Hc Hm Hd Ht Hh Hv -> ->. unfold vtable_inv. simpl.
  assert (En : vtables_of (cs ++ [c]) = vtables_of cs ++ [(tn, h)]).
  { unfold vtables_of. rewrite omap_snoc, Hc. done. }
  rewrite En, !app_length. simpl. split; [lia|]. split; [lia|]. intros i.
  assert (Hin : PbVTableDone i ∈ cs ++ [c] <-> PbVTableDone i ∈ cs).
  { rewrite in_snoc. split; [|by left]. intros [?|E]; [done|]. by destruct (Hd i). }
  assert (Ei : forall m, impl_of (cs ++ [c]) i m = impl_of cs i m).
  { intros m. unfold impl_of. rewrite omap_snoc, Hm, app_nil_r. done. }
  specialize (H3 i). destruct (se_vtables s !! i) as [[b'|]|] eqn:El.
  - rewrite (lookup_app_l_Some _ _ _ _ El), Hin. destruct H3 as (A & B & C). split; [done|]. split; [by apply vtable_is_later|done].
  - rewrite (lookup_app_l_Some _ _ _ _ El), Hin. destruct H3 as (A & v & B & C & D). split; [done|]. exists v. split; [done|]. split; [by apply vtable_is_later|done].
  - pose proof (lookup_ge_None_1 _ _ El). rewrite lookup_app_r by done. destruct H3 as (A & B).
    destruct (decide (i = length (se_vtables s))) as [->|Hne].
    + rewrite Nat.sub_diag. simpl. rewrite Hin. split; [lia|]. split; [|done]. exists h. rewrite En, Ht, lookup_app_r by lia. rewrite H1, Nat.sub_diag. split; [done|]. split; [done|].
      intros m. rewrite <- H1, Ei, A, Hv. done.
    + rewrite lookup_ge_None_2 by (simpl; lia). rewrite Hin. split; [|done]. intros m. rewrite Ei. apply A.
Qed.

Lemma insert_get {K V} `{EqDecision K} (m : list (K * V)) k v k' : map_get (map_insert m k v) k' = if bool_decide (k = k') then Some v else map_get m k'.
Proof.
  induction m as [|[k0 v0] r IH]; cbn [map_insert]; [by rewrite get_cons|]. destruct (bool_decide_reflect (k0 = k)) as [->|Hk].
  - rewrite !get_cons. by case_bool_decide.
  - rewrite !get_cons, IH. destruct (bool_decide_reflect (k0 = k')) as [->|]; [|done]. by rewrite bool_decide_false by done.
Qed.

Lemma vtable_impl T cs s i m f b : vtable_inv T cs s -> se_vtables s !! i = Some (Some b) ->
  vtable_inv T (cs ++ [PbImpl i m f]) (mkSession (se_pb s) (se_fns s) (se_traits s) (<[i := Some (add_method b m f)]> (se_vtables s))).
Proof.
  intros (H1 & H2 & H3) Ei. unfold vtable_inv. simpl.
  assert (En : vtables_of (cs ++ [PbImpl i m f]) = vtables_of cs).
  { unfold vtables_of. rewrite omap_snoc, app_nil_r. done. }
  rewrite En, insert_length. split; [done|]. split; [done|]. intros j.
  assert (Hin : PbVTableDone j ∈ cs ++ [PbImpl i m f] <-> PbVTableDone j ∈ cs). { rewrite in_snoc. naive_solver. }
  specialize (H3 j). destruct (decide (i = j)) as [<-|Hne].
  - rewrite list_lookup_insert by (by eapply lookup_lt_Some). rewrite Hin. rewrite Ei in H3. destruct H3 as (A & (h & B & C & D) & E).
    split; [done|]. split; [|done]. exists h. rewrite En. split; [done|]. split; [by destruct h|]. intros m'. simpl. rewrite insert_get, D.
    unfold impl_of. rewrite omap_snoc. simpl. case_bool_decide as Hm.
    + rewrite bool_decide_true by done. by rewrite last_snoc.
    + rewrite bool_decide_false by tauto. by rewrite app_nil_r.
  - rewrite list_lookup_insert_ne by done.
    assert (Hm : forall m', is_impl j m' (PbImpl i m f) = None). { intros m'. simpl. by rewrite bool_decide_false by tauto. }
    destruct (se_vtables s !! j) as [[b'|]|]; rewrite Hin.
    + destruct H3 as (A & B & C). split; [done|]. split; [by apply vtable_is_later|done].
    + destruct H3 as (A & v & B & C & D). split; [done|]. exists v. split; [done|]. split; [by apply vtable_is_later|done].
    + destruct H3 as (A & B). split; [|done]. intros m'. unfold impl_of. rewrite omap_snoc, Hm, app_nil_r. apply A.
Qed.

Lemma vtable_done T cs s i b p : vtable_inv T cs s -> se_vtables s !! i = Some (Some b) -> trait_complete s (vb_vtable b) ->
  p = mkPB (pb_functions (se_pb s)) (pb_globals (se_pb s)) (pb_vtables (se_pb s) ++ [(vb_name b, vb_vtable b)]) (pb_traits (se_pb s)) (pb_next_fn (se_pb s))
        (pb_next_global (se_pb s)) (pb_next_vtable (se_pb s)) (pb_next_trait (se_pb s)) ->
  vtable_inv T (cs ++ [PbVTableDone i]) (mkSession p (se_fns s) (se_traits s) (<[i := None]> (se_vtables s))).
Proof.
  intros (H1 & H2 & H3) Ei Ht ->. unfold vtable_inv. simpl.
  assert (En : vtables_of (cs ++ [PbVTableDone i]) = vtables_of cs).
  { unfold vtables_of. rewrite omap_snoc, app_nil_r. done. }
  rewrite En, insert_length. split; [done|]. split; [done|]. intros j.
  pose proof (H3 i) as H3i. rewrite Ei in H3i. destruct H3i as (-> & A & B & C).
  specialize (H3 j). destruct (decide (i = j)) as [<-|Hne].
  - rewrite list_lookup_insert by (by eapply lookup_lt_Some). rewrite in_snoc. split; [by right|]. exists (vb_vtable b).
    rewrite get_app, B, get_cons, bool_decide_true by done. split; [done|]. split; [by apply vtable_is_later|]. done.
  - rewrite list_lookup_insert_ne by done.
    assert (Hin : PbVTableDone j ∈ cs ++ [PbVTableDone i] <-> PbVTableDone j ∈ cs). { rewrite in_snoc. naive_solver. }
    assert (Eg : forall f, map_get (pb_vtables (se_pb s) ++ [(N.of_nat i, f)]) (N.of_nat j) = map_get (pb_vtables (se_pb s)) (N.of_nat j)).
    { intros f. rewrite get_app, get_cons, bool_decide_false by lia. by destruct (map_get _ _). }
    rewrite Eg. destruct (se_vtables s !! j) as [[b'|]|]; rewrite Hin.
    + destruct H3 as (A' & B' & C'). split; [done|]. split; [by apply vtable_is_later|done].
    + destruct H3 as (A' & v & B' & C' & D). split; [done|]. exists v. split; [done|]. split; [by apply vtable_is_later|done].
    + destruct H3 as (A' & B'). split; [|done]. intros m'. unfold impl_of. rewrite omap_snoc, app_nil_r. apply A'.
Qed.

(** ** Calls *)

Lemma layout_total T ty : (exists l, layout T ty = Ret l) \/ layout T ty = Panic.
Proof.
  induction ty using Ty_ind'; simpl; try (by left; eexists).
  - unfold int_align. destruct (align_from_bytes _); simpl; [by left; eexists|by right].
  - destruct (ptr_meta_kind _); by left; eexists.
  - destruct unsized as [t|]; [|by left; eexists]. destruct (H0 t eq_refl) as [[l ->]| ->]; [by left; eexists|by right].
  - destruct IHty as [[l ->]| ->]; [|by right]. cbn [obind]. destruct l; cbn; try by right. unfold size_mul. destruct (size_from_bytes _); cbn; [by left; eexists|by right].
  - destruct IHty as [[l ->]| ->]; [|by right]. cbn [obind]. destruct l; cbn; try by right. by left; eexists.
Qed.
Lemma sized_total T ty : (exists s a, size_of T ty = Ret s /\ align_of T ty = Ret a) \/ (size_of T ty = Panic /\ ~ sized_ty T ty).
Proof.
  unfold sized_ty, size_of, align_of. destruct (layout_total T ty) as [[l ->]| ->]; cbn [obind].
  - destruct l; simpl; [left; by do 2 eexists|right..]; (split; [done|]); by intros [[? ?] _].
  - right. split; [done|]. by intros [[? ?] _].
Qed.

(** what a call does *)
Definition answers (T : Target) (cs : list PbCall) (c : PbCall) (o : Outcome Session) : Prop :=
  match o with
  | Ret s' => handles cs c /\ allowed T cs c /\ session_inv T (cs ++ [c]) s'
  | Panic => handles cs c /\ ~ allowed T cs c
  | NoBehavior => ~ handles cs c
  | Stop _ => False
  end.

Lemma keys_in {K V} `{EqDecision K} (m : list (K * V)) k : k ∈ List.map fst m <-> is_Some (map_get m k).
Proof.
  rewrite elem_of_list_In. pose proof (get_none_in m k) as H. destruct (map_get m k) eqn:E.
  - split; [by eexists|]. intros _. destruct (in_dec EqDecision0 k (List.map fst m)) as [?|N]; [done|]. apply H in N. done.
  - split; [|by intros [? ?]]. intros Hin. by destruct (proj1 H eq_refl).
Qed.
Lemma same_set (a b : list N) : forallb (fun x => bool_decide (x ∈ b)) a && forallb (fun x => bool_decide (x ∈ a)) b = true <-> forall x, x ∈ b <-> x ∈ a.
Proof.
  rewrite andb_true_iff, !forallb_forall. setoid_rewrite <- elem_of_list_In. setoid_rewrite bool_decide_eq_true. split; [intros [? ?] x; split; auto|].
  intros H. split; intros x; apply H.
Qed.

Lemma fn_handles cs s i : fn_inv cs s ->
  match held (se_fns s) i with
  | Ret b => ((i < fns_of cs)%nat /\ forall h c, PbFnDone i h c ∉ cs) /\ se_fns s !! i = Some (Some b) /\ fb_new (N.of_nat i) = Ret b /\ map_get (pb_functions (se_pb s)) (N.of_nat i) = None
  | NoBehavior => ~ ((i < fns_of cs)%nat /\ forall h c, PbFnDone i h c ∉ cs)
  | _ => False
  end.
Proof.
  intros (H1 & H2 & H3). unfold held. specialize (H3 i). destruct (se_fns s !! i) as [[b|]|] eqn:E.
  - destruct H3 as (A & B & C). pose proof (lookup_lt_Some _ _ _ E). split; [split; [lia|done]|]. split; [done|]. split; [by apply A|done].
  - destruct H3 as (f & h & c & _ & _ & C). intros [_ N]. by apply (N h c), C.
  - apply lookup_ge_None_1 in E. lia.
Qed.
Lemma trait_handles cs s i : trait_inv cs s ->
  match held (se_traits s) i with
  | Ret b => ((i < traits_of cs)%nat /\ PbTraitDone i ∉ cs) /\ se_traits s !! i = Some (Some b) /\ tb_name b = N.of_nat i /\ map_get (pb_traits (se_pb s)) (N.of_nat i) = None
  | NoBehavior => ~ ((i < traits_of cs)%nat /\ PbTraitDone i ∉ cs)
  | _ => False
  end.
Proof.
  intros (H1 & H2 & H3). unfold held. specialize (H3 i). destruct (se_traits s !! i) as [[b|]|] eqn:E.
  - destruct H3 as (-> & B & C). pose proof (lookup_lt_Some _ _ _ E). split; [split; [lia|done]|]. done.
  - destruct H3 as (A & B). tauto.
  - apply lookup_ge_None_1 in E. lia.
Qed.
Lemma vtable_handles T cs s i : vtable_inv T cs s ->
  match held (se_vtables s) i with
  | Ret b => ((i < length (vtables_of cs))%nat /\ PbVTableDone i ∉ cs) /\ se_vtables s !! i = Some (Some b) /\ vb_name b = N.of_nat i /\
      map_get (pb_vtables (se_pb s)) (N.of_nat i) = None /\ vtable_is T cs i (vb_vtable b)
  | NoBehavior => ~ ((i < length (vtables_of cs))%nat /\ PbVTableDone i ∉ cs)
  | _ => False
  end.
Proof.
  intros (H1 & H2 & H3). unfold held. specialize (H3 i). destruct (se_vtables s !! i) as [[b|]|] eqn:E.
  - destruct H3 as (A & B & C & D). pose proof (lookup_lt_Some _ _ _ E). split; [split; [lia|done]|]. done.
  - destruct H3 as (A & B). tauto.
  - apply lookup_ge_None_1 in E. lia.
Qed.

(** the traits that are finished *)
Lemma trait_found cs s tn ms : trait_inv cs s -> map_get (pb_traits (se_pb s)) tn = Some ms <-> PbTraitDone (N.to_nat tn) ∈ cs /\ ms = upto (methods_of cs (N.to_nat tn)).
Proof.
  intros (H1 & H2 & H3). specialize (H3 (N.to_nat tn)). rewrite N2Nat.id in H3. destruct (se_traits s !! _) as [[b|]|].
  - destruct H3 as (_ & -> & B). naive_solver.
  - destruct H3 as (A & ->). naive_solver.
  - destruct H3 as (_ & -> & B). naive_solver.
Qed.

Ltac frames := repeat split; cbn [se_fns se_traits se_vtables se_pb pb_functions pb_globals pb_vtables pb_traits pb_next_fn pb_next_global pb_next_vtable pb_next_trait];
  first [done | by eapply fn_frame | by eapply trait_frame | by eapply global_frame | by eapply vtable_frame].

Lemma call_answers T cs s c : session_inv T cs s -> answers T cs c (pb_call T s c).
Proof.
  intros (HF & HT & HG & HV). destruct c as [|i h c|ty| |i|i|tn size align cells|tn ty|i m f|i]; simpl.
  - pose proof (fn_declared cs s _ _ HF eq_refl) as H. simpl. split; [done|]. split; [done|]. split; [exact H|].
    split; [by eapply trait_frame|]. split; [by eapply global_frame|by eapply vtable_frame].
  - pose proof (fn_handles cs s i HF) as H. destruct (held (se_fns s) i) as [b| | |]; cbn [obind]; try done. destruct H as (Hh & El & Eb & Em).
    pose proof (finish_named (se_pb s) _ b h c Eb Em) as E.
    assert (Eq : (let! b := emit_header h b in let! b := emit c b in let! '(_, p) := pb_finish_function (se_pb s) b in
                  Ret (mkSession p (<[i := None]> (se_fns s)) (se_traits s) (se_vtables s))) =
                 let! '(_, p) := (let! b := emit_header h b in let! b := emit c b in pb_finish_function (se_pb s) b) in
                  Ret (mkSession p (<[i := None]> (se_fns s)) (se_traits s) (se_vtables s))).
    { destruct (emit_header h b) as [b1| | |]; try done. cbn [obind]. destruct (emit c b1); done. }
    rewrite Eq, E. pose proof (build_total (N.of_nat i) h c) as Hb. destruct (build_function (N.of_nat i) h c) as [f| | |] eqn:Ef; try done; cbn [obind].
    + destruct Hb as [[Hp Hn%negb_true_iff]%andb_true_iff _]. split; [done|]. split; [done|].
      split; [by eapply fn_done|]. split; [by eapply trait_frame|]. split; [by eapply global_frame|by eapply vtable_frame].
    + split; [done|]. simpl in Hb. intros [H1 H2]. simpl in H1, H2. rewrite H1, H2 in Hb. done.
  - unfold declare_global_zero, zero_global. destruct (sized_total T ty) as [(z & a & Ez & Ea)|[Ez Hn]].
    + rewrite Ez, Ea. cbn [obind]. assert (Eg : zero_global T ty = Ret (mkGlobal (repeat (Some Byte.x00) (N.to_nat z)) [] a)). { unfold zero_global. by rewrite Ez, Ea. }
      destruct (global_declared T cs s _ ty (mkPB (pb_functions (se_pb s)) (pb_globals (se_pb s) ++ [(pb_next_global (se_pb s), mkGlobal (repeat (Some Byte.x00) (N.to_nat z)) [] a)]) (pb_vtables (se_pb s)) (pb_traits (se_pb s)) (pb_next_fn (se_pb s))
        (pb_next_global (se_pb s) + 1) (pb_next_vtable (se_pb s)) (pb_next_trait (se_pb s))) HG Eg) as [Hn H]. rewrite try_insert_fresh by done. cbn [obind]. split; [done|]. split; [split; by eexists|].
      split; [by eapply fn_frame|]. split; [by eapply trait_frame|]. split; [by apply H|by eapply vtable_frame].
    + rewrite Ez. cbn [obind]. split; [done|]. done.
  - pose proof (trait_declared cs s HT) as H. simpl in H. split; [done|]. split; [done|]. split; [by eapply fn_frame|].
    split; [exact H|]. split; [by eapply global_frame|by eapply vtable_frame].
  - pose proof (trait_handles cs s i HT) as H. destruct (held (se_traits s) i) as [b| | |]; cbn [obind]; try done. destruct H as (Hh & El & En & Em).
    split; [done|]. split; [done|]. split; [by eapply fn_frame|].
    split; [by apply trait_method|]. split; [by eapply global_frame|by eapply vtable_frame].
  - pose proof (trait_handles cs s i HT) as H. destruct (held (se_traits s) i) as [b| | |]; cbn [obind]; try done. destruct H as (Hh & El & En & Em).
    unfold finish_trait. rewrite try_insert_fresh by (by rewrite En). cbn [obind].
    split; [done|]. split; [done|]. split; [by eapply fn_frame|].
    split; [by eapply trait_done|]. split; [by eapply global_frame|]. eapply vtable_frame; try done. intros n ms. simpl. rewrite get_app. by intros ->.
  - split; [done|]. split; [done|]. split; [by eapply fn_frame|].
    split; [by eapply trait_frame|]. split; [by eapply global_frame|]. eapply (vtable_declared T cs s _ tn (VhGiven size align cells) (mkVTable tn size align cells [])); done.
  - unfold declare_vtable_for_frozen_ty. destruct (sized_total T ty) as [(z & a & Ez & Ea)|[Ez Hn]].
    + rewrite Ez, Ea. cbn [obind]. split; [done|]. split; [split; by eexists|]. split; [by eapply fn_frame|].
      split; [by eapply trait_frame|]. split; [by eapply global_frame|]. eapply (vtable_declared T cs s _ tn (VhFor ty) (mkVTable tn z a [] [])); done.
    + rewrite Ez. cbn [obind]. done.
  - pose proof (vtable_handles T cs s i HV) as H. destruct (held (se_vtables s) i) as [b| | |]; cbn [obind]; try done. destruct H as (Hh & El & En & Em & Ev).
    split; [done|]. split; [done|]. split; [by eapply fn_frame|]. split; [by eapply trait_frame|]. split; [by eapply global_frame|]. by apply vtable_impl.
  - pose proof (vtable_handles T cs s i HV) as H. destruct (held (se_vtables s) i) as [b| | |]; cbn [obind]; try done. destruct H as (Hh & El & En & Em & Ev).
    unfold finish_vtable. destruct Ev as (hd & V1 & V2 & V3). destruct (map_get (pb_traits (se_pb s)) (vt_trait (vb_vtable b))) as [ms|] eqn:Et; cbn [unwrap obind].
    + pose proof Et as Et'. apply (trait_found cs s _ _ HT) in Et as [T1 ->].
      destruct (forallb _ _ && _) eqn:Es; cbn [assert_ obind].
      * rewrite same_set in Es. setoid_rewrite keys_in in Es. rewrite try_insert_fresh by (by rewrite En). cbn [obind]. split; [done|]. split.
        { exists (vt_trait (vb_vtable b)), hd. split; [done|]. split; [done|]. intros m. rewrite <- V3, <- in_upto. apply Es. }
        split; [by eapply fn_frame|]. split; [by eapply trait_frame|]. split; [by eapply global_frame|].
        eapply vtable_done; [done|done| |done]. by eexists.
      * split; [done|]. intros (tn & h' & A1 & A2 & A3). rewrite V1 in A1. injection A1 as <- <-.
        apply not_true_iff_false in Es. apply Es. rewrite same_set. intros m. rewrite keys_in, V3, in_upto. apply A3.
    + split; [done|]. intros (tn & h' & A1 & A2 & A3). rewrite V1 in A1. injection A1 as <- <-.
      assert (Some (upto (methods_of cs (N.to_nat (vt_trait (vb_vtable b))))) = None); [|done]. rewrite <- Et. symmetry. by apply (trait_found cs s _ _ HT).
Qed.

(** ** Sessions *)

Lemma new_inv T : session_inv T [] (mkSession pb_new [] [] []).
Proof.
  split; [|split; [|split]].
  - split; [done|]. split; [done|]. intros i. simpl. split; [done|]. split; [done|]. intros h c. apply not_elem_of_nil.
  - split; [done|]. split; [done|]. intros i. simpl. split; [done|]. split; [done|]. apply not_elem_of_nil.
  - split; [done|]. intros i. done.
  - split; [done|]. split; [done|]. intros i. simpl. split; [done|]. split; [done|]. apply not_elem_of_nil.
Qed.

Definition fine_after (T : Target) (pre cs : list PbCall) : Prop := forall a c b, cs = a ++ c :: b -> handles (pre ++ a) c /\ allowed T (pre ++ a) c.
Lemma fine_nil T pre : fine_after T pre [].
Proof. intros a c b E. by destruct a. Qed.
Lemma fine_cons T pre c cs : fine_after T pre (c :: cs) <-> (handles pre c /\ allowed T pre c) /\ fine_after T (pre ++ [c]) cs.
Proof.
  split.
  - intros H. split.
    + specialize (H [] c cs eq_refl). by rewrite app_nil_r in H.
    + intros a d b ->. rewrite <- app_assoc. apply (H (c :: a) d b). done.
  - intros [H1 H2] [|d a] e b E; injection E as <- E.
    + by rewrite app_nil_r.
    + specialize (H2 a e b E). by rewrite <- app_assoc in H2.
Qed.
Lemma calls_inv T cs : forall pre s, session_inv T pre s ->
  match pb_calls T s cs with
  | Ret s' => fine_after T pre cs /\ session_inv T (pre ++ cs) s'
  | Panic => exists a c b, cs = a ++ c :: b /\ fine_after T pre a /\ handles (pre ++ a) c /\ ~ allowed T (pre ++ a) c
  | NoBehavior => exists a c b, cs = a ++ c :: b /\ fine_after T pre a /\ ~ handles (pre ++ a) c
  | Stop _ => False
  end.
Proof.
  induction cs as [|c r IH]; intros pre s Hs; simpl.
  - rewrite app_nil_r. split; [apply fine_nil|done].
  - pose proof (call_answers T pre s c Hs) as H. destruct (pb_call T s c) as [s'| | |]; cbn [obind]; try done.
    + destruct H as (H1 & H2 & H3). specialize (IH _ _ H3). destruct (pb_calls T s' r) as [s2| | |]; try done.
      * destruct IH as [A B]. rewrite fine_cons. rewrite <- app_assoc in B. done.
      * destruct IH as (a & d & b & -> & A & B & C). exists (c :: a), d, b. rewrite <- app_assoc in B, C. split; [done|]. rewrite fine_cons. done.
      * destruct IH as (a & d & b & -> & A & B). exists (c :: a), d, b. rewrite <- app_assoc in B. split; [done|]. rewrite fine_cons. done.
    + exists [], c, r. rewrite app_nil_r. split; [done|]. split; [apply fine_nil|done].
    + exists [], c, r. rewrite app_nil_r. split; [done|]. split; [apply fine_nil|done].
Qed.
Lemma session_inv_of T cs s : session T cs = Ret s -> session_inv T cs s.
Proof. intros E. pose proof (calls_inv T cs [] _ (new_inv T)) as H. unfold session in E. rewrite E in H. apply H. Qed.

Lemma program_parts T cs start prog : session_program T cs start = Ret prog -> exists s f, session T cs = Ret s /\
  map_get (pb_functions (se_pb s)) start = Some f /\
  prog = mkProgram (map_insert (pb_functions (se_pb s)) start (as_start f)) start (pb_globals (se_pb s)) (pb_traits (se_pb s)) (pb_vtables (se_pb s)).
Proof.
  unfold session_program. destruct (session T cs) as [s| | |]; try done. cbn [obind]. unfold finish_program.
  destruct (map_get _ start) as [f|] eqn:E; [|done]. intros [= <-]. by exists s, f.
Qed.

Lemma found_fn cs s n f : fn_inv cs s -> map_get (pb_functions (se_pb s)) n = Some f <-> exists h c, PbFnDone (N.to_nat n) h c ∈ cs /\ build_function n h c = Ret f.
Proof.
  intros (H1 & H2 & H3). specialize (H3 (N.to_nat n)). rewrite N2Nat.id in H3. destruct (se_fns s !! _) as [[b|]|].
  - destruct H3 as (_ & -> & C). naive_solver.
  - destruct H3 as (f' & h & c & -> & B & C). split.
    + intros [= <-]. exists h, c. split; [by apply C|done].
    + intros (h' & c' & [-> ->]%C & E). congruence.
  - destruct H3 as (_ & -> & C). naive_solver.
Qed.
Lemma found_global T cs s n g : global_inv T cs s -> map_get (pb_globals (se_pb s)) n = Some g <-> exists ty, globals_of cs !! N.to_nat n = Some ty /\ zeroed T ty g.
Proof.
  intros (H1 & H3). specialize (H3 (N.to_nat n)). rewrite N2Nat.id in H3.
  assert (Hz : forall ty g', zero_global T ty = Ret g' <-> zeroed T ty g').
  { intros ty g'. unfold zero_global, zeroed. destruct (size_of T ty) as [z| | |]; cbn [obind]; [|naive_solver..].
    destruct (align_of T ty) as [a| | |]; cbn [obind]; [|naive_solver..]. split.
    - intros [= <-]. by exists z, a.
    - destruct g' as [gb gr ga]. intros (? & ? & [= <-] & [= <-] & E1 & E2 & E3). simpl in *. by subst. }
  destruct (map_get _ n) as [g'|].
  - destruct H3 as (ty & -> & E). split.
    + intros [= <-]. exists ty. split; [done|by apply Hz].
    + intros (ty' & [= <-] & E'%Hz). congruence.
  - rewrite H3. naive_solver.
Qed.
Lemma found_vtable T cs s n v : vtable_inv T cs s -> map_get (pb_vtables (se_pb s)) n = Some v ->
  PbVTableDone (N.to_nat n) ∈ cs /\ vtable_is T cs (N.to_nat n) v /\ trait_complete s v.
Proof.
  intros (H1 & H2 & H3) E. specialize (H3 (N.to_nat n)). rewrite N2Nat.id in H3. destruct (se_vtables s !! _) as [[b|]|].
  - destruct H3 as (_ & _ & C & _). congruence.
  - destruct H3 as (A & v' & B & C). rewrite E in B. injection B as <-. done.
  - destruct H3 as (_ & C & _). congruence.
Qed.
Lemma found_vtable_done T cs s i : vtable_inv T cs s -> PbVTableDone i ∈ cs -> exists v, map_get (pb_vtables (se_pb s)) (N.of_nat i) = Some v.
Proof.
  intros (H1 & H2 & H3) E. specialize (H3 i). destruct (se_vtables s !! _) as [[b|]|]; [tauto| |tauto].
  destruct H3 as (A & v' & B & C). by exists v'.
Qed.

(** ** Every name once *)

Definition once (s : Session) : Prop :=
  List.NoDup (List.map fst (pb_vtables (se_pb s))) /\ List.NoDup (List.map fst (pb_globals (se_pb s))).
Lemma once_snoc {V} (m : list (N * V)) k v : List.NoDup (List.map fst m) -> map_get m k = None -> List.NoDup (List.map fst (m ++ [(k, v)])).
Proof.
  intros H1 H2%get_none_in. rewrite map_app. simpl. apply NoDup_ListNoDup, NoDup_app. split; [by apply NoDup_ListNoDup|]. split; [|apply NoDup_singleton].
  intros x Hx ->%elem_of_list_singleton. apply H2. by apply elem_of_list_In.
Qed.
Lemma call_once T s c s' : once s -> pb_call T s c = Ret s' -> once s'.
Proof.
  intros [H1 H2]. destruct c as [|i h c|ty| |i|i|tn size align cells|tn ty|i m f|i]; simpl; intros E.
  - by injection E as <-.
  - destruct (held _ _) as [b| | |]; try done. cbn [obind] in E. destruct (emit_header h b) as [b1| | |]; try done. cbn [obind] in E.
    destruct (emit c b1) as [b2| | |]; try done. cbn [obind] in E. unfold pb_finish_function in E. destruct (finish_function b2); try done. cbn [obind] in E.
    destruct (try_insert _ _ _); try done. by injection E as <-.
  - unfold declare_global_zero in E. destruct (zero_global T ty); try done. cbn [obind] in E. destruct (try_insert _ _ _) eqn:Ei; try done.
    apply try_insert_ret in Ei as [Ei ->]. injection E as <-. split; [done|]. by apply once_snoc.
  - by injection E as <-.
  - destruct (held _ _) as [b| | |]; try done. by injection E as <-.
  - destruct (held _ _) as [b| | |]; try done. cbn [obind] in E. unfold finish_trait in E. destruct (try_insert _ _ _); try done. by injection E as <-.
  - by injection E as <-.
  - unfold declare_vtable_for_frozen_ty in E. destruct (size_of T ty); try done. cbn [obind] in E. destruct (align_of T ty); try done. by injection E as <-.
  - destruct (held _ _) as [b| | |]; try done. by injection E as <-.
  - destruct (held _ _) as [b| | |]; try done. cbn [obind] in E. unfold finish_vtable in E. destruct (unwrap _); try done. cbn [obind] in E.
    destruct (assert_ _); try done. cbn [obind] in E. destruct (try_insert _ _ _) eqn:Ei; try done.
    apply try_insert_ret in Ei as [Ei ->]. injection E as <-. split; [|done]. by apply once_snoc.
Qed.
Lemma session_once T cs s : session T cs = Ret s -> once s.
Proof.
  unfold session. assert (H : once (mkSession pb_new [] [] [])) by (split; constructor). revert H. generalize (mkSession pb_new [] [] []).
  induction cs as [|c r IH]; intros s0 H; simpl; [by intros [= <-]|]. destruct (pb_call T s0 c) as [s1| | |] eqn:E; try done. cbn [obind]. apply IH. by eapply call_once.
Qed.
Lemma once_get {V} (m : list (N * V)) k v : List.NoDup (List.map fst m) -> (k, v) ∈ m -> map_get m k = Some v.
Proof.
  induction m as [|[k' v'] r IH]; [by intros _ ?%elem_of_nil|]. simpl. inversion 1 as [|? ? Hn Hr]; subst. rewrite elem_of_cons, get_cons.
  intros [[= -> ->]|Hin]; [by rewrite bool_decide_true|]. rewrite bool_decide_false; [auto|]. intros ->. apply Hn. apply in_map_iff. exists (k, v).
  split; [done|]. by apply elem_of_list_In.
Qed.
