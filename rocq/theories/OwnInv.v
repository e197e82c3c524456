(** Stack memory is exactly the locals of the frames: the invariant behind C49, and the shape of memory
    in every reachable state. *)
From Verif Require Export OwnProofs EnumsProofs.
From Coq Require Import Permutation.

(** ** Association lists *)
Section Maps.
  Context {K A : Type} `{EqDecision K}.
  Implicit Types (l : list (K * A)).

  Lemma map_remove_none l k : map_get l k = None -> map_remove l k = l.
  Proof.
    induction l as [|[k' x] l IH]; [done|]. rewrite map_get_cons. unfold map_remove. cbn [List.filter fst].
    destruct (bool_decide_reflect (k' = k)); [done|]. cbn [negb]. intros E. f_equal. by apply IH.
  Qed.
  Lemma map_get_none_in l k : map_get l k = None <-> ~ In k (List.map fst l).
  Proof.
    induction l as [|[k' x] l IH]; [by split; [intros _ []|]|]. rewrite map_get_cons. cbn [List.map fst In].
    destruct (bool_decide_reflect (k' = k)); [|rewrite IH; tauto]. split; [done|tauto].
  Qed.
  Lemma map_remove_perm l k x : NoDup (List.map fst l) -> map_get l k = Some x ->
    Permutation l ((k, x) :: map_remove l k).
  Proof.
    induction l as [|[k' y] l IH]; [done|]. rewrite map_get_cons. unfold map_remove. cbn [List.filter fst List.map].
    intros [Hn Hd]%NoDup_cons. destruct (bool_decide_reflect (k' = k)) as [->|Hne]; cbn [negb].
    - intros [= ->]. rewrite elem_of_list_In in Hn. apply map_get_none_in, map_remove_none in Hn.
      unfold map_remove in Hn. by rewrite Hn.
    - intros E. rewrite (IH Hd E) at 1. apply perm_swap.
  Qed.
  Lemma map_remove_get l k k' : map_get (map_remove l k) k' = if bool_decide (k' = k) then None else map_get l k'.
  Proof.
    induction l as [|[k1 y] l IH].
    - by destruct (bool_decide _).
    - unfold map_remove in *. cbn [List.filter fst]. rewrite map_get_cons.
      destruct (bool_decide_reflect (k1 = k)) as [->|H1]; cbn [negb].
      + rewrite IH. destruct (bool_decide_reflect (k' = k)) as [E2|H2]; [done|].
        by rewrite bool_decide_eq_false_2 by congruence.
      + rewrite map_get_cons, IH. destruct (bool_decide_reflect (k1 = k')) as [->|H2]; [|done].
        by rewrite bool_decide_eq_false_2.
  Qed.
  Lemma map_insert_none l k x : map_get l k = None -> map_insert l k x = l ++ [(k, x)].
  Proof.
    induction l as [|[k' y] l IH]; [done|]. rewrite map_get_cons. cbn.
    destruct (bool_decide (k' = k)); [done|]. intros E. by rewrite IH.
  Qed.
  Lemma map_insert_get l k x k' : map_get (map_insert l k x) k' = if bool_decide (k = k') then Some x else map_get l k'.
  Proof.
    induction l as [|[k1 y] l IH]; [apply map_get_cons|]. cbn [map_insert].
    destruct (bool_decide_reflect (k1 = k)) as [->|H1]; rewrite !map_get_cons.
    - by destruct (bool_decide _).
    - rewrite IH. destruct (bool_decide_reflect (k1 = k')) as [->|H2]; [|done].
      by rewrite bool_decide_eq_false_2.
  Qed.
End Maps.

Lemma concat_split {A} (L : list (list A)) a s : L !! a = Some s ->
  exists R, Permutation (concat L) (s ++ R) /\ forall s', Permutation (concat (<[a := s']> L)) (s' ++ R).
Proof.
  intros Ha. exists (concat (take a L) ++ concat (drop (S a) L)). split.
  - rewrite <-(take_drop_middle _ _ _ Ha) at 1. rewrite concat_app. cbn [concat].
    rewrite !app_assoc. apply Permutation_app_tail, Permutation_app_comm.
  - intros s'. rewrite insert_take_drop by (by eapply lookup_lt_Some). rewrite concat_app. cbn [concat].
    rewrite !app_assoc. apply Permutation_app_tail, Permutation_app_comm.
Qed.

Section Inv.
  Context {PE : Type}.
  Variable T : Target.
  Notation P := (nat * PE)%type.
  Notation V := (list AV).
  Notation FL := (Function * list (LocalName * ThinPtr P))%type.
  Implicit Types (v : V) (f : FL) (fs : list FL).

  Definition pid (p : ThinPtr P) : nat := match tp_prov p with Some (id, _) => id | None => 0%nat end.
  (** a local: the pointer to the start of a live stack allocation of the size and alignment of its type *)
  Definition slot v (fn : Function) (kv : LocalName * ThinPtr P) : Prop :=
    exists id pe ty s a, tp_prov (snd kv) = Some (id, pe) /\ map_get (fn_locals fn) (fst kv) = Some ty /\
      size_of T ty = Ret s /\ align_of T ty = Ret a /\ v !! id = Some (mkAV (tp_addr (snd kv)) s a AStack true).
  Definition fids f : list nat := List.map (fun kv => pid (snd kv)) (snd f).
  Definition locals_ok v f : Prop := Forall (slot v (fst f)) (snd f) /\ NoDup (List.map fst (snd f)).
  Definition owned fs : list nat := concat (List.map fids fs).
  Record owns v fs : Prop := {
    ow_locals : Forall (locals_ok v) fs;
    ow_nodup : NoDup (owned fs);
    ow_all : forall id x, v !! id = Some x -> v_live x = true -> v_kind x = AStack -> In id (owned fs) }.

  Lemma owned_perm fs fs' : Permutation fs fs' -> Permutation (owned fs) (owned fs').
  Proof. intros Hp. apply concat_Permutation || (unfold owned; by rewrite Hp). Qed.
  Lemma owns_perm v fs fs' : Permutation fs fs' -> owns v fs -> owns v fs'.
  Proof.
    intros Hp [H1 H2 H3]. pose proof (owned_perm _ _ Hp) as Ho. split.
    - by rewrite <-Hp.
    - by rewrite <-Ho.
    - intros id x Hx Hl Hk. eapply Permutation_in; [exact Ho|]. eauto.
  Qed.

  Lemma slot_id v fn kv : slot v fn kv -> exists x, v !! pid (snd kv) = Some x /\ v_live x = true /\ v_kind x = AStack.
  Proof. intros (id & pe & ty & s & a & Hp & _ & _ & _ & Hv). unfold pid. rewrite Hp. eauto. Qed.
  Lemma slot_mono v v' fn kv : slot v fn kv -> v' !! pid (snd kv) = v !! pid (snd kv) -> slot v' fn kv.
  Proof.
    intros (id & pe & ty & s & a & Hp & Ht & Hs & Ha & Hv) E. exists id, pe, ty, s, a.
    unfold pid in E. rewrite Hp in E. repeat (split; [done|]). by rewrite E.
  Qed.
  Lemma slots_mono v v' fs : Forall (locals_ok v) fs ->
    (forall id, In id (owned fs) -> v' !! id = v !! id) -> Forall (locals_ok v') fs.
  Proof.
    intros H Hv. rewrite Forall_forall in H |- *. intros f Hf. destruct (H f Hf) as [H1 H2]. split; [|done].
    rewrite Forall_forall in H1 |- *. intros kv Hkv. eapply slot_mono; [by apply H1|]. apply Hv.
    unfold owned. apply in_concat. exists (fids f). split.
    - apply in_map. by apply elem_of_list_In.
    - apply (in_map (fun kv => pid (snd kv))). by apply elem_of_list_In.
  Qed.

  (** changing allocations that are not stack memory *)
  Lemma owns_app v fs x : v_kind x <> AStack -> owns v fs -> owns (v ++ [x]) fs.
  Proof.
    intros Hx [H1 H2 H3].
    assert (Hlk : forall id, In id (owned fs) -> (v ++ [x]) !! id = v !! id).
    { intros id Hid. unfold owned in Hid. apply in_concat in Hid as (ids & Hi & Hid). apply in_map_iff in Hi as (f & <- & Hf).
      apply in_map_iff in Hid as (kv & <- & Hkv). rewrite List.Forall_forall in H1. apply H1 in Hf as [Hf _].
      rewrite List.Forall_forall in Hf. apply Hf, slot_id in Hkv as (y & Hy & _).
      rewrite lookup_app_l; [done|]. by eapply lookup_lt_Some. }
    split; [by eapply slots_mono|done|].
    intros id y Hy Hl Hk. apply lookup_app_Some in Hy as [Hy|[_ Hy]]; [by eapply H3|].
    destruct (id - length v)%nat; [|done]. injection Hy as <-. done.
  Qed.
  Lemma owns_update v fs id x y : v !! id = Some x -> v_kind x <> AStack -> v_kind y <> AStack -> owns v fs ->
    owns (<[id := y]> v) fs.
  Proof.
    intros Hx Hkx Hky [H1 H2 H3].
    assert (Hlk : forall i, In i (owned fs) -> <[id := y]> v !! i = v !! i).
    { intros i Hid. unfold owned in Hid. apply in_concat in Hid as (ids & Hi & Hid). apply in_map_iff in Hi as (f & <- & Hf).
      apply in_map_iff in Hid as (kv & <- & Hkv). rewrite List.Forall_forall in H1. apply H1 in Hf as [Hf _].
      rewrite List.Forall_forall in Hf. apply Hf, slot_id in Hkv as (z & Hz & _ & Hk).
      rewrite list_lookup_insert_ne; [done|]. intros Eid. rewrite <-Eid in Hz. congruence. }
    split; [by eapply slots_mono|done|].
    intros i z Hz Hl Hk. destruct (decide (i = id)) as [->|Hne].
    - rewrite list_lookup_insert in Hz by (by eapply lookup_lt_Some). injection Hz as <-. done.
    - rewrite list_lookup_insert_ne in Hz by done. by eapply H3.
  Qed.

  (** ** Locals *)

  Lemma kill_fst f v l f' v' : kill T f v l f' v' -> fst f' = fst f /\ snd f' = map_remove (snd f) l.
  Proof. intros [fn ls v1 l1 Hg|]; [|done]. cbn [fst snd]. by rewrite map_remove_none. Qed.

  Lemma owned_cons f fs : owned (f :: fs) = fids f ++ owned fs.
  Proof. done. Qed.

  Lemma kill_owns f v l f' v' rest : kill T f v l f' v' -> owns v (f :: rest) -> owns v' (f' :: rest).
  Proof.
    intros Hk Ho. destruct Hk as [|fn ls v l p id pe ty s a Hg Hty Hs Ha Hp Hv]; [done|].
    destruct Ho as [H1 H2 H3]. inversion H1 as [|? ? [Hf Hd] Hrest]; subst. cbn [fst snd] in *.
    pose proof (map_remove_perm _ _ _ Hd Hg) as Hperm.
    assert (Hids : Permutation (fids (fn, ls)) (id :: fids (fn, map_remove ls l))).
    { unfold fids. cbn [snd]. rewrite Hperm at 1. cbn [List.map snd]. unfold pid at 1. by rewrite Hp. }
    rewrite owned_cons, Hids in H2. cbn [app] in H2. apply NoDup_cons in H2 as [Hnin H2].
    rewrite elem_of_list_In in Hnin.
    assert (Hne : forall i, In i (owned ((fn, map_remove ls l) :: rest)) ->
      <[id := mkAV (tp_addr p) s a AStack false]> v !! i = v !! i).
    { intros i Hi. apply list_lookup_insert_ne. intros ->. done. }
    split.
    - eapply slots_mono; [|exact Hne]. constructor; [|done]. rewrite Hperm in Hf, Hd.
      inversion Hf; subst. cbn [List.map fst] in Hd. apply NoDup_cons in Hd as [_ Hd]. by split.
    - done.
    - intros i x Hx Hl Hkx. destruct (decide (i = id)) as [->|Hni].
      + rewrite list_lookup_insert in Hx by (by eapply lookup_lt_Some). by injection Hx as <-.
      + rewrite list_lookup_insert_ne in Hx by done. specialize (H3 _ _ Hx Hl Hkx).
        rewrite owned_cons in H3. apply in_app_or in H3 as [H3|H3].
        * eapply Permutation_in in H3; [|exact Hids]. destruct H3 as [->|H3]; [done|]. rewrite owned_cons. apply in_or_app. by left.
        * rewrite owned_cons. apply in_or_app. by right.
  Qed.

  Lemma live_owns f v l f' v' rest : live T f v l f' v' -> owns v (f :: rest) -> owns v' (f' :: rest).
  Proof.
    intros Hl Ho. destruct Hl as [fn ls ls1 v v1 l ty s a ad pe Hk Hty Hs Ha Hfr].
    apply kill_fst in Hk as Hk'. eapply kill_owns in Ho; [|exact Hk]. destruct Hk' as [_ Els]. cbn [snd] in Els. subst ls1.
    assert (Hnone : map_get (map_remove ls l) l = None).
    { rewrite map_remove_get. by rewrite bool_decide_eq_true_2. }
    revert Ho Hnone. generalize (map_remove ls l). clear Hk ls. intros ls Ho Hnone.
    rewrite map_insert_none by done. destruct Ho as [H1 H2 H3].
    set (p := mkThin ad (Some (length v1, pe))). set (x := mkAV ad s a AStack true).
    assert (Hids : fids (fn, ls ++ [(l, p)]) = fids (fn, ls) ++ [length v1]).
    { unfold fids. cbn [snd]. by rewrite map_app. }
    assert (Hlt : forall i, In i (owned ((fn, ls) :: rest)) -> (i < length v1)%nat).
    { intros i Hid. unfold owned in Hid. apply in_concat in Hid as (ids & Hi & Hid). apply in_map_iff in Hi as (f & <- & Hf).
      apply in_map_iff in Hid as (kv & <- & Hkv). rewrite List.Forall_forall in H1. apply H1 in Hf as [Hf _].
      rewrite List.Forall_forall in Hf. apply Hf, slot_id in Hkv as (z & Hz & _). by eapply lookup_lt_Some. }
    assert (Hsame : forall i, In i (owned ((fn, ls) :: rest)) -> (v1 ++ [x]) !! i = v1 !! i).
    { intros i Hi. apply lookup_app_l. by apply Hlt. }
    pose proof (slots_mono _ _ _ H1 Hsame) as H1'. inversion H1' as [|? ? [Hf Hd] Hrest]; subst. cbn [fst snd] in *.
    split.
    - constructor; [|done]. split; cbn [fst snd].
      + apply Forall_app. split; [done|]. constructor; [|constructor]. exists (length v1), pe, ty, s, a.
        cbn [snd fst]. repeat (split; [done|]). subst p x. cbn. by rewrite lookup_app_r, Nat.sub_diag by lia.
      + rewrite map_app. cbn [List.map fst]. apply NoDup_app. split; [done|]. split.
        * intros k Hk Hk2. apply elem_of_list_singleton in Hk2 as ->. apply map_get_none_in in Hnone.
          rewrite elem_of_list_In in Hk. done.
        * apply NoDup_singleton.
    - rewrite owned_cons, Hids. rewrite <-app_assoc. cbn [app].
      rewrite <-Permutation_middle. apply NoDup_cons. split; [|done].
      rewrite elem_of_list_In. intros Hin. apply Hlt in Hin. lia.
    - intros i y Hy Hly Hky. rewrite owned_cons, Hids. apply lookup_app_Some in Hy as [Hy|[Hge Hy]].
      + specialize (H3 _ _ Hy Hly Hky). rewrite owned_cons in H3.
        apply in_app_or in H3 as [H3|H3]; apply in_or_app; [left; apply in_or_app; by left|by right].
      + destruct (i - length v1)%nat eqn:E; [|done]. apply in_or_app. left. apply in_or_app. right. left. lia.
  Qed.

  Lemma iter_owns (R : FL -> V -> LocalName -> FL -> V -> Prop) f v ls f' v' rest :
    (forall f v l f' v', R f v l f' v' -> owns v (f :: rest) -> owns v' (f' :: rest)) ->
    iterl R f v ls f' v' -> owns v (f :: rest) -> owns v' (f' :: rest).
  Proof. intros HR. induction 1; eauto. Qed.
  Lemma owns_empty v fn rest : owns v rest <-> owns v ((fn, []) :: rest).
  Proof.
    split; intros [H1 H2 H3].
    - split; [|done|done]. constructor; [|done]. split; constructor.
    - split; [by inversion H1|done|done].
  Qed.
  Lemma kills_snd f v ls f' v' : iterl (kill T) f v ls f' v' ->
    fst f' = fst f /\ forall k, map_get (snd f') k = if bool_decide (k ∈ ls) then None else map_get (snd f) k.
  Proof.
    induction 1 as [f v|f v l f1 v1 ls f2 v2 Hk Hi [IH1 IH2]].
    - split; [done|]. intros k. by rewrite bool_decide_eq_false_2 by apply not_elem_of_nil.
    - apply kill_fst in Hk as [E1 E2]. rewrite E1 in IH1. split; [done|]. intros k. rewrite IH2, E2, map_remove_get.
      destruct (bool_decide_reflect (k ∈ ls)) as [Hin|Hin].
      + rewrite bool_decide_eq_true_2; [done|]. apply elem_of_cons. by right.
      + destruct (bool_decide_reflect (k = l)) as [->|Hne].
        * rewrite bool_decide_eq_true_2; [done|]. apply elem_of_cons. by left.
        * rewrite bool_decide_eq_false_2; [done|]. rewrite elem_of_cons. tauto.
  Qed.
  Lemma kills_all f v f' v' : iterl (kill T) f v (List.map fst (snd f)) f' v' -> snd f' = [].
  Proof.
    intros [_ H]%kills_snd. destruct (snd f') as [|[k p] r]; [done|]. specialize (H k).
    rewrite map_get_cons, bool_decide_eq_true_2 in H by done.
    destruct (bool_decide_reflect (k ∈ List.map fst (snd f))) as [|Hn]; [done|].
    rewrite elem_of_list_In in Hn. apply map_get_none_in in Hn. congruence.
  Qed.
  Lemma live_snd f v l f' v' : live T f v l f' v' -> fst f' = fst f /\ is_Some (map_get (snd f') l) /\
    forall k, is_Some (map_get (snd f) k) -> is_Some (map_get (snd f') k).
  Proof.
    intros [fn ls ls1 v0 v1 l0 ty s a ad pe Hk _ _ _ _]. apply kill_fst in Hk as [_ E]. cbn [fst snd] in *. subst ls1.
    split; [done|]. split; [|intros k Hk]; rewrite map_insert_get.
    - by rewrite bool_decide_eq_true_2.
    - destruct (bool_decide_reflect (l0 = k)) as [|Hne]; [done|]. rewrite map_remove_get.
      by rewrite bool_decide_eq_false_2 by congruence.
  Qed.
  Lemma lives_snd f v ls f' v' : iterl (live T) f v ls f' v' -> fst f' = fst f /\
    forall k, is_Some (map_get (snd f) k) \/ k ∈ ls -> is_Some (map_get (snd f') k).
  Proof.
    induction 1 as [f v|f v l f1 v1 ls f2 v2 Hk Hi [IH1 IH2]].
    - split; [done|]. intros k [?|?%elem_of_nil]; done.
    - apply live_snd in Hk as (E1 & E2 & E3). rewrite E1 in IH1. split; [done|].
      intros k [Hk|Hk]; [by apply IH2; left; apply E3|].
      apply elem_of_cons in Hk as [->|Hk]; apply IH2; [by left|by right].
  Qed.

  (** ** Address ranges *)

  Definition vfit v : Prop :=
    (forall i x, v !! i = Some x ->
       0 < v_addr x /\ v_addr x mod Z.of_N (align_bytes (v_align x)) = 0 /\
       v_addr x + Z.of_N (v_size x) < 2 ^ (8 * Z.of_N (PTR_SIZE T)) /\
       Z.of_N (v_size x) <= 2 ^ (8 * Z.of_N (PTR_SIZE T) - 1) - 1) /\
    (forall i j x y, v !! i = Some x -> v !! j = Some y -> i <> j -> v_live x = true -> v_live y = true ->
       v_addr x <> v_addr y /\ ranges_apart (v_addr x) (v_size x) (v_addr y) (v_size y)).
  Lemma vfit_nil : vfit [].
  Proof. by split. Qed.
  Lemma vfit_app v s a ad k : vfit v -> vacant T v s a ad -> vfit (v ++ [mkAV ad s a k true]).
  Proof.
    intros [H1 H2] (F1 & F2 & F3 & F4 & F5).
    assert (Hlk : forall i x, (v ++ [mkAV ad s a k true]) !! i = Some x ->
      v !! i = Some x \/ (i = length v /\ x = mkAV ad s a k true)).
    { intros i x [?|[Hge Hx]]%lookup_app_Some; [by left|right].
      destruct (i - length v)%nat as [|n] eqn:E; [|done]. injection Hx as <-. split; [lia|done]. }
    split.
    - intros i x [Hx|[-> ->]]%Hlk; [by eapply H1|]. done.
    - intros i j x y [Hx|[-> ->]]%Hlk [Hy|[-> ->]]%Hlk Hne Hlx Hly.
      + by eapply H2.
      + by eapply F5.
      + destruct (F5 _ _ Hy Hly) as [? Hr]. split; [cbn; congruence|]. unfold ranges_apart in *. cbn. tauto.
      + done.
  Qed.
  Lemma vfit_dead v id ad s a k b : vfit v -> v !! id = Some (mkAV ad s a k b) ->
    vfit (<[id := mkAV ad s a k false]> v).
  Proof.
    intros [H1 H2] Hid.
    assert (Hlk : forall i x, <[id := mkAV ad s a k false]> v !! i = Some x ->
      exists y, v !! i = Some y /\ v_addr x = v_addr y /\ v_size x = v_size y /\ v_align x = v_align y /\
        (v_live x = true -> v_live y = true)).
    { intros i x Hx. destruct (decide (i = id)) as [->|Hne].
      - rewrite list_lookup_insert in Hx by (by eapply lookup_lt_Some). injection Hx as <-. eexists. split; [done|]. done.
      - rewrite list_lookup_insert_ne in Hx by done. exists x. done. }
    split.
    - intros i x (y & Hy & -> & -> & -> & _)%Hlk. by eapply H1.
    - intros i j x x' (y & Hy & -> & -> & _ & Hl)%Hlk (y' & Hy' & -> & -> & _ & Hl')%Hlk Hne Hlx Hlx'.
      eapply H2; eauto.
  Qed.
  Lemma kill_fit f v l f' v' : kill T f v l f' v' -> vfit v -> vfit v'.
  Proof. intros [|fn ls v1 l1 p id pe ty s a Hg Hty Hs Ha Hp Hv] Hf; [done|]. by eapply vfit_dead. Qed.
  Lemma live_fit f v l f' v' : live T f v l f' v' -> vfit v -> vfit v'.
  Proof. intros [fn ls ls1 v0 v1 l0 ty s a ad pe Hk _ _ _ Hfr] Hf. apply vfit_app; [by eapply kill_fit|done]. Qed.
  Lemma iter_fit (R : FL -> V -> LocalName -> FL -> V -> Prop) f v ls f' v' : (forall f v l f' v', R f v l f' v' -> vfit v -> vfit v') ->
    iterl R f v ls f' v' -> vfit v -> vfit v'.
  Proof. intros HR. induction 1; eauto. Qed.

  (** ** The invariant *)

  Definition full f : Prop := forall l, l = fn_ret (fst f) \/ In l (fn_args (fst f)) -> is_Some (map_get (snd f) l).
  Record own_inv (prog : Program) (L : list (list FL)) v : Prop := {
    oi_owns : owns v (concat L);
    oi_prog : Forall (fun f => exists n, map_get (pr_functions prog) n = Some (fst f)) (concat L);
    oi_full : Forall full (concat L);
    oi_fit : vfit v }.

  Definition keeps_args (L : list (list FL)) (a : nat) (x : Statement + Terminator) : Prop :=
    match x with
    | inl (SStorageDead l) => forall f r, L !! a = Some (f :: r) -> l <> fn_ret (fst f) /\ ~ In l (fn_args (fst f))
    | _ => True
    end.

  Lemma new_frame_inv prog v n func f' v' rest :
    map_get (pr_functions prog) n = Some func ->
    iterl (live T) (func, []) v (fn_ret func :: fn_args func) f' v' ->
    owns v rest -> vfit v ->
    owns v' (f' :: rest) /\ (exists n, map_get (pr_functions prog) n = Some (fst f')) /\ full f' /\ vfit v'.
  Proof.
    intros Hn Hi Ho Hf. apply lives_snd in Hi as Hs. destruct Hs as [E Hs]. cbn [fst] in E. split; [|split; [|split]].
    - eapply iter_owns; [|exact Hi|by apply owns_empty]. intros. by eapply live_owns.
    - exists n. by rewrite E.
    - intros l Hl. rewrite E in Hl. apply Hs. right. apply elem_of_cons. destruct Hl as [->|Hl]; [by left|right].
      by apply elem_of_list_In.
    - eapply iter_fit; [|exact Hi|done]. apply live_fit.
  Qed.

  Theorem own_step_inv prog L v a x L' v' : own_inv prog L v -> keeps_args L a x ->
    own_step T prog L v a x L' v' -> own_inv prog L' v'.
  Proof.
    intros [H1 H2 H3 H4] Hx Hs.
    destruct Hs as [x _|l f r f' v' Ha Hk|l f r f' v' Ha Hk|callee conv args ret nb ub func n st f' v' Ha Hn Hi
      |tm f r f' v' Htm Ha Hi|args ret nb func n f' v' Hn Hi|args ret nb ad s al Hfr|args ret nb id ad s al Hid].
    - done.
    - apply concat_split in Ha as HR. destruct HR as (R & E & E'). specialize (E' (f' :: r)). cbn [app] in E, E'.
      rewrite E in H2, H3. inversion H2 as [|? ? P1 P2]; subst. inversion H3 as [|? ? F1 F2]; subst.
      apply kill_fst in Hk as Hk'. destruct Hk' as [K1 K2]. split.
      + eapply owns_perm; [symmetry; exact E'|]. eapply kill_owns; [exact Hk|]. by eapply owns_perm.
      + rewrite E'. constructor; [by rewrite K1|done].
      + rewrite E'. constructor; [|done]. intros k Hk'. rewrite K1 in Hk'. rewrite K2, map_remove_get.
        rewrite bool_decide_eq_false_2; [by apply F1|]. intros ->. destruct (Hx _ _ Ha). tauto.
      + by eapply kill_fit.
    - apply concat_split in Ha as HR. destruct HR as (R & E & E'). specialize (E' (f' :: r)). cbn [app] in E, E'.
      rewrite E in H2, H3. inversion H2 as [|? ? P1 P2]; subst. inversion H3 as [|? ? F1 F2]; subst.
      apply live_snd in Hk as Hk'. destruct Hk' as (K1 & K2 & K3). split.
      + eapply owns_perm; [symmetry; exact E'|]. eapply live_owns; [exact Hk|]. by eapply owns_perm.
      + rewrite E'. constructor; [by rewrite K1|done].
      + rewrite E'. constructor; [|done]. intros k Hk'. rewrite K1 in Hk'. by apply K3, F1.
      + by eapply live_fit.
    - apply concat_split in Ha as HR. destruct HR as (R & E & E'). specialize (E' (f' :: st)). cbn [app] in E'.
      eapply new_frame_inv in Hi as (N1 & N2 & N3 & N4); [|exact Hn|exact H1|exact H4].
      split; [|rewrite E'; constructor; [done|by rewrite <-E]..|done].
      eapply owns_perm; [|exact N1]. rewrite E'. by constructor.
    - apply concat_split in Ha as HR. destruct HR as (R & E & E'). specialize (E' r). cbn [app] in E.
      rewrite E in H2, H3. inversion H2 as [|? ? P1 P2]; subst. inversion H3 as [|? ? F1 F2]; subst. split.
      + eapply owns_perm; [symmetry; exact E'|]. apply (owns_empty _ (fst f')).
        replace (fst f', []) with f'; [|destruct f' as [fn ls]; apply kills_all in Hi; cbn in *; by rewrite Hi].
        eapply iter_owns; [|exact Hi|by eapply owns_perm]. intros. by eapply kill_owns.
      + by rewrite E'.
      + by rewrite E'.
      + eapply iter_fit; [|exact Hi|done]. apply kill_fit.
    - eapply new_frame_inv in Hi as (N1 & N2 & N3 & N4); [|exact Hn|exact H1|exact H4].
      assert (E : Permutation (concat (L ++ [[f']])) (f' :: concat L)).
      { rewrite concat_app. cbn [concat app]. symmetry. apply Permutation_cons_append. }
      split; [|rewrite E; by constructor..|done]. by eapply owns_perm.
    - split; [by apply owns_app|done|done|by apply vfit_app].
    - split; [by eapply owns_update|done|done|by eapply vfit_dead].
  Qed.
End Inv.
