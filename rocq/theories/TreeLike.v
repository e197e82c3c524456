(** Tree Borrows memory is built on the basic memory. *)
From Verif Require Export TreeBorrows BasicMemProofs.
From Coq Require Import ZifyBool ZifyN ZifyNat.

Notation TProv := (nat * list nat)%type.
Notation TMem := (BMem (list nat) Node).
Notation TFrame := (list (nat * list nat)).

Lemma mutate_at_ret {A B} (l l' : list A) i (f : A -> Outcome (A * B)) b :
  mutate_at l i f = Ret (l', b) <-> exists a a', l !! i = Some a /\ f a = Ret (a', b) /\ l' = <[i := a']> l.
Proof.
  unfold mutate_at. destruct (l !! i) as [a|].
  - split.
    + intros H. apply obind_ret in H as ([a' b'] & Hf & [= <- <-]). eauto.
    + intros (a0 & a' & [= <-] & -> & ->). done.
  - split; [done|]. intros (? & ? & ? & _). done.
Qed.

Lemma extra_change_trans {PE AE} (m1 m2 m3 : BMem PE AE) :
  extra_change m1 m2 -> extra_change m2 m3 -> extra_change m1 m3.
Proof.
  intros H1 H2. induction H2 as [m|m m1' id a ae Hc IH Ha]; [done|].
  eapply ec_step; [by apply IH|done].
Qed.

(** what changes in an allocation when only its tree does *)
Definition set_extra {PE AE} (a : Allocation PE AE) (ae : AE) : Allocation PE AE :=
  mkAlloc (al_data a) (al_addr a) (al_align a) (al_kind a) (al_live a) ae.

Lemma reborrow_alloc_ret a addr parent s a' cp :
  reborrow_alloc a addr parent s = Ret (a', cp) ->
  exists off perms root1 root2,
    addr = al_addr a + Z.of_N off /\
    length perms = length (al_data a) /\
    (if (0 <? length (rs_inside s))%nat
     then write_subslice (list_repeat (rs_outside s) (al_size a)) off (rs_inside s)
     else Ret (list_repeat (rs_outside s) (al_size a))) = Ret perms /\
    forallb (fun p => perm_matches p (rs_protected s)) perms = true /\
    add_node (al_extra a) parent (mkNode [] perms (rs_protected s)) = Ret (root1, cp) /\
    reborrow_accesses root1 cp (rs_inside s) off = Ret root2 /\
    a' = set_extra a root2.
Proof.
  unfold reborrow_alloc. intros H. apply obind_ret in H as (off & Hoff & H).
  apply obind_ret in H as (perms & Hperms & H). apply obind_ret in H as ([] & Has & H).
  apply obind_ret in H as ([root1 cp'] & Hadd & H). apply obind_ret in H as (root2 & Hacc & [= <- <-]).
  exists off, perms, root1, root2. split; [|split; [|split; [done|split; [|done]]]].
  - unfold size_from_bytes in Hoff. destruct (_ <? 0) eqn:E; [done|]. simpl in Hoff. injection Hoff as <-. lia.
  - destruct (_ <? _)%nat.
    + apply write_subslice_length in Hperms. rewrite Hperms, list_repeat_length. unfold al_size. lia.
    + injection Hperms as <-. rewrite list_repeat_length. unfold al_size. lia.
  - unfold assert_ in Has. by destruct (forallb _ _).
Qed.

Lemma reborrow_ret (m m' : TMem) (f f' : TFrame) ptr s p :
  reborrow m f ptr s = Ret (p, m', f') ->
  (tp_prov ptr = None /\ rs_inside s = [] /\ p = ptr /\ m' = m /\ f' = f) \/
  (exists id parent a a' cp, tp_prov ptr = Some (id, parent) /\ m !! id = Some a /\
     (rs_inside s <> [] -> al_live a = true /\ in_alloc a (tp_addr ptr) (N.of_nat (length (rs_inside s)))) /\
     reborrow_alloc a (tp_addr ptr) parent s = Ret (a', cp) /\
     p = mkThin (tp_addr ptr) (Some (id, cp)) /\ m' = <[id := a']> m /\
     f' = if prot_yes (rs_protected s) then f ++ [(id, cp)] else f).
Proof.
  unfold reborrow. intros H. apply obind_ret in H as (o & Hc & H).
  destruct (tp_prov ptr) as [[id parent]|] eqn:Hp.
  - right. apply obind_ret in H as ([m1 cp] & Hm & [= <- <- <-]).
    apply mutate_at_ret in Hm as (a & a' & Ha & Hr & ->).
    exists id, parent, a, a', cp. repeat (split; [done|]). split; [|done].
    intros Hne. destruct o as [[[id' pe'] off]|].
    + apply bm_check_ptr_some in Hc as (_ & Hp' & b & Hb & Hl & Hin & _).
      rewrite Hp in Hp'. injection Hp' as <- <-. rewrite Ha in Hb. injection Hb as <-. done.
    + apply bm_check_ptr_none in Hc. destruct (rs_inside s); [done|]. simpl in Hc. lia.
  - left. apply obind_ret in H as ([] & Has & [= <- <- <-]). repeat split; try done.
    unfold assert_ in Has. destruct (rs_inside s); [done|]. done.
Qed.

Lemma tb_retag_ret (m m' : TMem) (f f' : TFrame) ptr pt fe lookup p :
  tb_retag m f ptr pt fe lookup = Ret (p, m', f') ->
  (settings_new ptr pt fe lookup = Ret None /\ p = ptr /\ m' = m /\ f' = f) \/
  (exists s p', settings_new ptr pt fe lookup = Ret (Some s) /\
     reborrow m f (p_thin ptr) s = Ret (p', m', f') /\ p = mkPtr p' (p_meta ptr)).
Proof.
  unfold tb_retag. intros H. apply obind_ret in H as ([s|] & Hs & H).
  - right. apply obind_ret in H as ([[p' m1] f1] & Hr & [= <- <- <-]). exists s, p'. done.
  - left. injection H as <- <- <-. done.
Qed.

Lemma release_alloc_ret a path a' u :
  release_alloc a path = Ret (a', u) -> exists root, a' = set_extra a root.
Proof.
  unfold release_alloc. intros H. apply obind_ret in H as ([r1 acc] & _ & H).
  apply obind_ret in H as (r2 & _ & [= <- <-]). by eexists.
Qed.

Lemma reborrow_extra (m m' : TMem) f f' ptr s p :
  reborrow m f ptr s = Ret (p, m', f') -> extra_change m m'.
Proof.
  intros [(_ & _ & _ & -> & _)|(id & parent & a & a' & cp & _ & Ha & _ & Hr & _ & -> & _)]%reborrow_ret.
  - constructor.
  - apply reborrow_alloc_ret in Hr as (? & ? & ? & root & _ & _ & _ & _ & _ & _ & ->).
    eapply ec_step; [constructor|done].
Qed.

Lemma mem_release_extra (m m' : TMem) pr : mem_release_protector m pr = Ret m' -> extra_change m m'.
Proof.
  destruct pr as [id path]. unfold mem_release_protector. intros H.
  apply obind_ret in H as ([m1 []] & H & [= <-]). apply mutate_at_ret in H as (a & a' & Ha & Hr & ->).
  apply release_alloc_ret in Hr as [root ->]. eapply ec_step; [constructor|done].
Qed.

Lemma tree_like T : bm_like T (TreeOps T).
Proof.
  constructor; try done; intros; simpl; try (by eexists).
  - by exists [], (new_root size).
  - apply tb_retag_ret in H as [(_ & _ & -> & _)|(s & p' & _ & Hr & _)]; [constructor|].
    by eapply reborrow_extra.
  - simpl in H. revert m H. induction f as [|pr f IH]; intros m H; simpl in H.
    + injection H as <-. constructor.
    + apply obind_ret in H as (m1 & H1 & H). eapply extra_change_trans; [by eapply mem_release_extra|by apply IH].
Qed.
