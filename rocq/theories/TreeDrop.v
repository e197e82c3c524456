(** Trees that have seen more reads: such a tree allows no more than the one without those reads. *)
From Verif Require Export XSim TreeSpec DropSpec.
From Verif Require Import SimRepr Wp BaseProofs StopProofs TreeProofs TreeLike SimInst.
From Coq Require Import ZifyBool ZifyN ZifyNat.

(** ** Permissions *)

(** [q] is [p] after some more reads *)
Inductive more : Perm -> Perm -> Prop :=
| more_refl p : more p p
| more_unique : more (Unprot UFrozen) (Unprot UUnique)
| more_reserved a b a' b' : (a = true -> a' = true) -> (b = true -> b' = true) ->
    more (Prot (PReserved a' b')) (Prot (PReserved a b))
| more_frozen a a' : (a = true -> a' = true) -> more (Prot (PFrozen a')) (Prot (PFrozen a)).

Lemma more_trans p q r : more p q -> more q r -> more p r.
Proof. intros H1 H2. destruct H1; inversion H2; subst; try done; constructor; auto. Qed.
Lemma more_step q p ak rel q' : more q p -> perm_transition q ak rel = Ret q' ->
  exists p', perm_transition p ak rel = Ret p' /\ more q' p'.
Proof.
  intros H. destruct H as [p| |a b a' b' Ha Hb|a a' Ha].
  - intros E. exists q'. split; [done|constructor].
  - destruct ak, rel; simpl; intros [= <-]; eexists; (split; [done|constructor]).
  - destruct a', b', a, b; try (by specialize (Ha eq_refl)); try (by specialize (Hb eq_refl)); destruct ak, rel; simpl;
      intros [= <-]; eexists; (split; [done|first [apply more_refl|by apply more_reserved]]).
  - destruct a', a; try (by specialize (Ha eq_refl)); destruct ak, rel; simpl;
      intros [= <-]; eexists; (split; [done|first [apply more_refl|by apply more_frozen]]).
Qed.
Lemma more_read p rel q : perm_transition p AkRead rel = Ret q -> more q p.
Proof.
  destruct p as [[]|[|[] []| |[]|]], rel; simpl; intros [= <-]; try constructor; auto.
Qed.
Lemma more_matches q p pr : more q p -> perm_matches q pr = perm_matches p pr.
Proof. by destruct 1. Qed.
Lemma more_prevents q p : more q p -> perm_prevents_deallocation p = true -> perm_prevents_deallocation q = true.
Proof. destruct 1; simpl; auto. Qed.
(** an access done at the end of a protector, where there may be one more of them *)
Definition omore (q p : option AccessKind) : Prop := q = p \/ (q = Some AkRead /\ p = None).
Lemma more_unprotect q p x : more q p -> perm_unprotect q = Ret x ->
  exists y, perm_unprotect p = Ret y /\ fst x = fst y /\ omore (snd x) (snd y).
Proof.
  unfold omore. destruct 1 as [p| |a b a' b' Ha Hb|a a' Ha]; simpl; intros E; try done; [eauto|..].
  - destruct a, a'; injection E as <-; eexists; (split; [done|]); simpl; auto. by specialize (Ha eq_refl).
  - destruct a, a'; injection E as <-; eexists; (split; [done|]); simpl; auto. by specialize (Ha eq_refl).
Qed.

(** ** Lists of permissions *)
Notation mores := (Forall2 more).
Lemma mores_refl ps : mores ps ps.
Proof. induction ps; constructor; [constructor|done]. Qed.
Lemma mores_trans a b c : mores a b -> mores b c -> mores a c.
Proof.
  intros H. revert c. induction H; intros c Hc; inversion Hc; subst; constructor; [by eapply more_trans|auto].
Qed.
Lemma perm_at_more ps rs o ak rel : mores ps rs -> sim mores (perm_at ps o ak rel) (perm_at rs o ak rel).
Proof.
  intros H ps' E. unfold perm_at in *. apply obind_ret in E as (q & Hq & E). apply unwrap_ret in Hq.
  apply obind_ret in E as (q' & Ht & [= <-]). destruct (Forall2_lookup_l _ _ _ _ _ H Hq) as (p & Hp & Hm).
  destruct (more_step _ _ _ _ _ Hm Ht) as (p' & Hp' & Hm'). exists (<[o:=p']> rs). rewrite Hp. simpl. rewrite Hp'. split; [done|].
  by apply Forall2_insert.
Qed.
Lemma perm_at_read ps o rel ps' : perm_at ps o AkRead rel = Ret ps' -> mores ps' ps.
Proof.
  intros E. unfold perm_at in *. apply obind_ret in E as (q & Hq & E). apply unwrap_ret in Hq.
  apply obind_ret in E as (q' & Ht & [= <-]). rewrite <-(list_insert_id ps o q) at 2 by done.
  apply Forall2_insert; [apply mores_refl|]. by eapply more_read.
Qed.
Lemma sim_fold {A B S} (R : A -> B -> Prop) f g (l : list S) a b : R a b ->
  (forall a b x, R a b -> sim R (f a x) (g b x)) -> sim R (fold_m f l a) (fold_m g l b).
Proof.
  intros H K. revert a b H. induction l as [|x l IH]; intros a b H; simpl; [by apply sim_ret|].
  eapply sim_bind; [by apply K|]. intros. by apply IH.
Qed.
Lemma fold_inv {A S} (R : A -> Prop) f (l : list S) a a' : R a -> (forall a x a', R a -> f a x = Ret a' -> R a') ->
  fold_m f l a = Ret a' -> R a'.
Proof.
  intros H K. revert a H. induction l as [|x l IH]; intros a H; simpl; [by intros [= <-]|].
  intros E. apply obind_ret in E as (b & Hb & E). eauto.
Qed.
Lemma perms_transition_more ps rs rel ak off size : mores ps rs ->
  sim mores (perms_transition ps rel ak off size) (perms_transition rs rel ak off size).
Proof. intros H. apply sim_fold; [done|]. intros. by apply perm_at_more. Qed.
Lemma perms_transition_read ps rel off size ps' : perms_transition ps rel AkRead off size = Ret ps' -> mores ps' ps.
Proof.
  intros E. eapply (fold_inv (fun x => mores x ps)); [..|exact E]; [apply mores_refl|]. intros a o a' Ha Ho.
  exact (mores_trans _ _ _ (perm_at_read _ _ _ _ Ho) Ha).
Qed.
Lemma perms_release_more ps rs rel acc acc' : mores ps rs -> Forall2 omore acc acc' ->
  sim mores (perms_release ps rel acc) (perms_release rs rel acc').
Proof.
  intros H Ha. unfold perms_release. generalize 0%nat. revert ps rs H.
  induction Ha as [|x y acc acc' Hxy Ha IH]; intros ps rs H i; [by apply sim_ret|].
  cbn. intros ps' E. apply obind_ret in E as (ps1 & H1 & E). destruct Hxy as [->|[-> ->]].
  - destruct y as [ak|]; [|injection H1 as <-; exact (IH _ _ H _ _ E)].
    destruct (perm_at_more _ _ _ _ _ H _ H1) as (rs1 & Hr & Hm). rewrite Hr. exact (IH _ _ Hm _ _ E).
  - eapply (IH ps1); [|exact E]. eapply mores_trans; [by eapply perm_at_read|done].
Qed.

(** ** Trees *)

(** the same tree, where the permissions have seen more reads *)
Fixpoint tmore (a b : Node) : Prop :=
  match a, b with
  | mkNode cs ps pr, mkNode ds rs pr' =>
      (fix go cs ds := match cs, ds with
                       | [], [] => True
                       | c :: cs, d :: ds => tmore c d /\ go cs ds
                       | _, _ => False
                       end) cs ds /\ mores ps rs /\ pr = pr'
  end.
Lemma tmore_eq cs ps pr ds rs pr' :
  tmore (mkNode cs ps pr) (mkNode ds rs pr') <-> Forall2 tmore cs ds /\ mores ps rs /\ pr = pr'.
Proof.
  simpl. assert (forall cs ds, ((fix go cs ds := match cs, ds with
                       | [], [] => True
                       | c :: cs, d :: ds => tmore c d /\ go cs ds
                       | _, _ => False
                       end) cs ds) <-> Forall2 tmore cs ds) as H.
  { clear. induction cs as [|c cs IH]; intros [|d ds]; split; intros H; try done; try (by inversion H); try constructor.
    - apply H. - apply IH, H. - by inversion H. - apply IH. by inversion H. }
  by rewrite H.
Qed.
Lemma tmore_refl n : tmore n n.
Proof.
  induction n as [cs ps pr IH] using Node_ind'. apply tmore_eq. split; [|split; [apply mores_refl|done]].
  induction IH; constructor; auto.
Qed.
#[local] Arguments tmore : simpl never.

Lemma map_idx_more (f g : nat -> Node -> Outcome Node) i cs ds : Forall2 tmore cs ds ->
  Forall (fun c => forall d i, tmore c d -> sim tmore (f i c) (g i d)) cs ->
  sim (Forall2 tmore) (map_idx_m f i cs) (map_idx_m g i ds).
Proof.
  intros H HF. revert i. induction H as [|c d cs ds Hc H IH]; intros i; simpl; [apply sim_ret; constructor|].
  inversion HF; subst. eapply sim_bind; [by eauto|]. intros c' d' _ _ Hc'. eapply sim_bind; [by apply IH|]. intros cs' ds' _ _ Hcs'.
  apply sim_ret. by constructor.
Qed.
Lemma node_access_more n k path ak off size : tmore n k ->
  sim tmore (node_access n path ak off size) (node_access k path ak off size).
Proof.
  revert k path. induction n as [cs ps pr IH] using Node_ind'. intros [ds rs pr'] path H.
  apply tmore_eq in H as (Hc & Hp & <-). cbn [node_access]. eapply sim_bind; [by apply perms_transition_more|].
  intros ps' rs' _ _ Hp'. eapply sim_bind; [apply map_idx_more; [exact Hc|]|].
  - eapply Forall_impl; [exact IH|]. cbn beta. auto.
  - intros cs' ds' _ _ Hc'. apply sim_ret. by apply tmore_eq.
Qed.
Lemma node_access_read n path off size n' : node_access n path AkRead off size = Ret n' -> tmore n' n.
Proof.
  revert n' path. induction n as [cs ps pr IH] using Node_ind'. intros n' path E. cbn [node_access] in E.
  apply obind_ret in E as (ps' & Hp & E). apply obind_ret in E as (cs' & Hc & [= <-]). apply tmore_eq.
  split; [|split; [by eapply perms_transition_read|done]].
  revert cs' Hc. generalize 0%nat. induction IH as [|c cs Hc0 IHc IH]; intros i cs' Hc; simpl in Hc; [injection Hc as <-; constructor|].
  apply obind_ret in Hc as (c' & H1 & Hc). apply obind_ret in Hc as (cs1 & H2 & [= <-]). constructor; eauto.
Qed.
Lemma node_release_more n k path acc acc' : tmore n k -> Forall2 omore acc acc' ->
  sim tmore (node_release n path acc) (node_release k path acc').
Proof.
  intros H Ha. revert k path H. induction n as [cs ps pr IH] using Node_ind'. intros [ds rs pr'] path H.
  apply tmore_eq in H as (Hc & Hp & <-). cbn [node_release].
  assert (sim tmore (let! ps' := perms_release ps (relation_of path) acc in
    let! cs' := map_idx_m (fun i c => node_release c (sub_path path i) acc) 0 cs in Ret (mkNode cs' ps' pr))
    (let! ps' := perms_release rs (relation_of path) acc' in
    let! cs' := map_idx_m (fun i c => node_release c (sub_path path i) acc') 0 ds in Ret (mkNode cs' ps' pr))) as K.
  { eapply sim_bind; [by apply perms_release_more|].
    intros ps' rs' _ _ Hp'. eapply sim_bind; [apply map_idx_more; [exact Hc|]|].
    - eapply Forall_impl; [exact IH|]. cbn beta. auto.
    - intros cs' ds' _ _ Hc'. apply sim_ret. by apply tmore_eq. }
  destruct path as [[|]|]; [|exact K|exact K]. apply sim_ret. by apply tmore_eq.
Qed.
Lemma blocks_more n k : tmore n k -> node_blocks_dealloc k = true -> node_blocks_dealloc n = true.
Proof.
  revert k. induction n as [cs ps pr IH] using Node_ind'. intros [ds rs pr'] H.
  apply tmore_eq in H as (Hc & Hp & <-). cbn [node_blocks_dealloc]. rewrite !orb_true_iff. intros [H|H]; [left|right].
  - destruct pr; try done. clear -Hp H. induction Hp as [|p q ps rs Hpq Hp IH]; [done|]. simpl in *.
    apply orb_true_iff in H as [H|H]; [by rewrite (more_prevents _ _ Hpq H)|]. rewrite IH by done. apply orb_true_r.
  - clear -Hc IH H. induction Hc as [|c d cs ds Hcd Hc IHc]; [done|]. simpl in *. inversion IH; subst.
    apply orb_true_iff in H as [H|H]; [by rewrite (H2 _ Hcd H)|]. rewrite IHc by done. apply orb_true_r.
Qed.
Lemma access_node_more {O} (Q : O -> O -> Prop) path (f g : Node -> Outcome (Node * O)) n k : tmore n k ->
  (forall n k, tmore n k -> sim (fun x y => tmore (fst x) (fst y) /\ Q (snd x) (snd y)) (f n) (g k)) ->
  sim (fun x y => tmore (fst x) (fst y) /\ Q (snd x) (snd y)) (access_node path f n) (access_node path g k).
Proof.
  intros H K. revert n k H. induction path as [|i path IH]; intros [cs ps pr] [ds rs pr'] H; cbn [access_node]; [by apply K|].
  apply tmore_eq in H as (Hc & Hp & <-). intros x E. apply obind_ret in E as (c & Hi & E). apply unwrap_ret in Hi.
  destruct (Forall2_lookup_l _ _ _ _ _ Hc Hi) as (d & Hd & Hcd). rewrite Hd. simpl.
  apply obind_ret in E as ([c' o] & Hc' & [= <-]). destruct (IH _ _ Hcd _ Hc') as ([d' o'] & -> & Hm & HQ). simpl.
  eexists. split; [done|]. split; [|done]. apply tmore_eq. split; [by apply Forall2_insert|done].
Qed.
Lemma add_node_more n k path c : tmore n k ->
  sim (fun x y => tmore (fst x) (fst y) /\ snd x = snd y) (add_node n path c) (add_node k path c).
Proof.
  intros H. unfold add_node. eapply sim_bind; [apply (access_node_more eq); [exact H|]|].
  - intros [cs ps pr] [ds rs pr'] Hn. apply tmore_eq in Hn as (Hc & Hp & <-). apply sim_ret. simpl. split.
    + apply tmore_eq. split; [|done]. apply Forall2_app; [done|]. constructor; [apply tmore_refl|constructor].
    + by rewrite (Forall2_length _ _ _ Hc).
  - intros [n' i] [k' j] _ _ [Hn Hi]. simpl in *. subst. by apply sim_ret.
Qed.

(** ** Memories *)

Definition amore (a b : Allocation (list nat) Node) : Prop := same_but_tree a b /\ tmore (al_extra a) (al_extra b).
Notation mmore := (Forall2 amore).
Lemma amore_refl a : amore a a.
Proof. split; [done|apply tmore_refl]. Qed.
Lemma mmore_refl m : mmore m m.
Proof. induction m; constructor; [apply amore_refl|done]. Qed.
Lemma amore_size a b : amore a b -> al_size a = al_size b.
Proof. intros [(H & _) _]. unfold al_size. by rewrite H. Qed.

Lemma check_more m n p l : mmore m n -> bm_check_ptr n p l = bm_check_ptr m p l.
Proof.
  intros Hm. unfold bm_check_ptr. destruct (l =? 0)%N; [done|].
  destruct (tp_prov p) as [[i pe]|] eqn:Ep; [|done]. destruct (m !! i) as [a|] eqn:Ea.
  - destruct (Forall2_lookup_l _ _ _ _ _ Hm Ea) as (b & -> & Hab). simpl.
    rewrite (amore_size _ _ Hab). by destruct Hab as [(_ & -> & _ & _ & ->) _].
  - by rewrite (proj1 (Forall2_lookup_None_l _ _ _ _ Hm) Ea) || (destruct (n !! i) eqn:En; [|done]; destruct (Forall2_lookup_r _ _ _ _ _ Hm En) as (? & ? & _); congruence).
Qed.
Lemma mutate_more {B} (f g : Allocation (list nat) Node -> Outcome (Allocation (list nat) Node * B)) m n i : mmore m n ->
  (forall a b, amore a b -> sim (fun x y => amore (fst x) (fst y) /\ snd x = snd y) (f a) (g b)) ->
  sim (fun x y => mmore (fst x) (fst y) /\ snd x = snd y) (mutate_at m i f) (mutate_at n i g).
Proof.
  intros H K [m' b] E. unfold mutate_at in *. destruct (m !! i) as [a|] eqn:Ha; [|done].
  destruct (Forall2_lookup_l _ _ _ _ _ H Ha) as (a2 & -> & Hab). simpl. apply obind_ret in E as ([a' b'] & Hf & [= <- <-]).
  destruct (K _ _ Hab _ Hf) as ([a2' ?] & -> & Hm & Hb). simpl in *. subst. eexists. split; [done|]. split; [|done]. by apply Forall2_insert.
Qed.
Lemma reborrow_alloc_more a b addr path s : amore a b ->
  sim (fun x y => amore (fst x) (fst y) /\ snd x = snd y) (reborrow_alloc a addr path s) (reborrow_alloc b addr path s).
Proof.
  intros H. pose proof (amore_size _ _ H) as Hs. destruct H as [(Hd & Had & Hal & Hk & Hl) Ht]. unfold reborrow_alloc.
  rewrite Hs, Hd, Had, Hal, Hk, Hl. eapply sim_bind; [apply sim_eq|]. intros o ? _ _ <-.
  eapply sim_bind; [apply sim_eq|]. intros ps ? _ _ <-. cbv zeta. eapply sim_bind; [apply sim_eq|]. intros _ _ _ _ _.
  eapply sim_bind; [by apply add_node_more|]. intros [r cp] [r' cp'] _ _ [Hr Hcp]. simpl in Hr, Hcp. subst.
  eapply sim_bind.
  - unfold reborrow_accesses. apply (sim_fold tmore); [exact Hr|]. intros r1 r2 [i pm] H12. destruct (perm_init_access pm); [|by apply sim_ret].
    by apply node_access_more.
  - intros r1 r2 _ _ H12. apply sim_ret. done.
Qed.
Lemma release_alloc_more a b path : amore a b ->
  sim (fun x y => amore (fst x) (fst y) /\ snd x = snd y) (release_alloc a path) (release_alloc b path).
Proof.
  intros [(Hd & Had & Hal & Hk & Hl) Ht]. unfold release_alloc. rewrite Hd, Had, Hal, Hk, Hl.
  eapply sim_bind; [apply (access_node_more (Forall2 omore)); [exact Ht|]|].
  - intros [cs ps pr] [ds rs pr'] Hn. apply tmore_eq in Hn as (Hc & Hp & <-). eapply sim_bind; [apply sim_eq|]. intros _ _ _ _ _.
    intros x E. apply obind_ret in E as (l & Hml & [= <-]).
    assert (exists k, map_m perm_unprotect rs = Ret k /\ List.map fst l = List.map fst k /\ Forall2 omore (List.map snd l) (List.map snd k))
      as (k & -> & Hf & Ho).
    { clear -Hp Hml. revert l Hml. induction Hp as [|q p ps rs Hqp Hp IH]; intros l E; simpl in E; [injection E as <-; exists []; split; [done|]; split; [done|constructor]|].
      apply obind_ret in E as (x & Hx & E). apply obind_ret in E as (l1 & Hl & [= <-]). destruct (IH _ Hl) as (k & Hk & H1 & H2).
      destruct (more_unprotect _ _ _ Hqp Hx) as (y & Hy & H3 & H4). exists (y :: k). simpl. rewrite Hy. simpl. rewrite Hk.
      split; [done|]. split; [by rewrite H3, H1|]. by constructor. }
    simpl. eexists. split; [done|]. split; [|done]. cbn [fst]. apply tmore_eq. rewrite Hf. split; [done|]. split; [apply mores_refl|done].
  - intros [r acc] [r' acc'] _ _ [Hr Ha]. cbn [fst snd] in *. eapply (sim_bind tmore).
    + destruct (al_live b); [by apply node_release_more|by apply sim_ret].
    + intros. by apply sim_ret.
Qed.

(** the bytes of a load are the same, and its memory has seen more reads *)
Lemma load_more T m p l a b m' : mo_load (TreeOps T) m p l a = Ret (b, m') -> mmore m' m.
Proof.
  cbn. unfold bm_load. destruct (negb _); [done|]. intros E. apply obind_ret in E as (o & _ & E).
  destruct o as [[[i pe] o]|]; [|injection E as <- <-; apply mmore_refl]. apply obind_ret in E as (x & Hx & E). apply unwrap_ret in Hx.
  apply obind_ret in E as (t & Ht & E). apply obind_ret in E as (d & _ & [= <- <-]).
  rewrite <-(list_insert_id m i x) at 2 by done. apply Forall2_insert; [apply mmore_refl|]. split; [done|]. by eapply node_access_read.
Qed.

Theorem tree_drop T : mem_xsim (TreeOps T) mmore.
Proof.
  pose proof (tree_ub T) as UB. split.
  - intros m n k s a ad H. cbn. unfold bm_allocate. destruct (negb _); [apply xsim_ub|].
    assert (bm_addr_ok T m s a ad = bm_addr_ok T n s a ad) as ->.
    { unfold bm_addr_ok. do 2 f_equal. induction H as [|x y m n Hab H IH]; [done|]. simpl. rewrite IH.
      unfold al_overlaps. rewrite (amore_size _ _ Hab). by destruct Hab as [(_ & -> & _ & _ & ->) _]. }
    destruct (negb _); [done|]. apply xsim_ret. cbn [fst snd]. rewrite (Forall2_length _ _ _ H).
    split; [done|]. apply Forall2_app; [done|]. constructor; [apply amore_refl|constructor].
  - intros m n p k s a H. apply sim_xsim; [|apply UB]. cbn. unfold bm_deallocate. destruct (tp_prov p) as [[i pe]|]; [|apply sim_stop].
    eapply sim_bind; [apply sim_unwrap; intros x; by apply (Forall2_lookup_l _ _ _ _ _ H)|]. intros x y _ _ Hab.
    pose proof (amore_size _ _ Hab) as ->. destruct Hab as [(Hd & Ha & Hal & Hk & Hl) Ht]. rewrite Hd, Ha, Hal, Hk, Hl.
    do 5 (destruct (negb _); [apply sim_stop|]). eapply (sim_bind tmore).
    + unfold tb_dealloc. eapply sim_bind; [by apply node_access_more|]. intros r r' _ _ Hr. 
      destruct (node_blocks_dealloc r) eqn:Eb; [apply sim_stop|]. destruct (node_blocks_dealloc r') eqn:Eb'; [|by apply sim_ret].
      rewrite (blocks_more _ _ Hr Eb') in Eb. done.
    + intros r r' _ _ Hr. apply sim_ret. by apply Forall2_insert.
  - intros m n p b a H. apply sim_xsim; [|apply UB]. cbn. unfold bm_store. destruct (negb _); [apply sim_stop|].
    rewrite (check_more _ _ _ _ H). eapply sim_bind; [apply sim_eq|]. intros [[[i pe] o]|] ? _ _ <-; [|by apply sim_ret].
    eapply sim_bind; [apply sim_unwrap; intros x; by apply (Forall2_lookup_l _ _ _ _ _ H)|]. intros x y _ _ Hab.
    destruct Hab as [(Hd & Ha & Hal & Hk & Hl) Ht]. rewrite Hd, Ha, Hal, Hk, Hl. eapply sim_bind; [by apply node_access_more|].
    intros r r' _ _ Hr. eapply sim_bind; [apply sim_eq|]. intros d ? _ _ <-. apply sim_ret. by apply Forall2_insert.
  - intros m n p l a H. apply sim_xsim; [|apply UB]. cbn. unfold bm_load. destruct (negb _); [apply sim_stop|].
    rewrite (check_more _ _ _ _ H). eapply sim_bind; [apply sim_eq|]. intros [[[i pe] o]|] ? _ _ <-; [|by apply sim_ret].
    eapply sim_bind; [apply sim_unwrap; intros x; by apply (Forall2_lookup_l _ _ _ _ _ H)|]. intros x y _ _ Hab.
    destruct Hab as [(Hd & Ha & Hal & Hk & Hl) Ht]. rewrite Hd, Ha, Hal, Hk, Hl. eapply sim_bind; [by apply node_access_more|].
    intros r r' _ _ Hr. eapply sim_bind; [apply sim_eq|]. intros d ? _ _ <-. apply sim_ret. split; [done|]. by apply Forall2_insert.
  - intros m n p l H. cbn. by rewrite (check_more _ _ _ _ H).
  - intros m n f p pt fe lk H. cbn. unfold tb_retag. apply xsim_same. intros [s|]; [|by apply xsim_ret].
    assert (only_ub (reborrow m f (p_thin p) s)) as Hu.
    { unfold reborrow. apply ub_bind; [apply ub_bm_check_ptr|]. intros _. destruct (tp_prov _) as [[id path]|]; [|ub_go].
      apply ub_bind; [|ub_go]. apply ub_mutate_at. intros a. unfold reborrow_alloc.
      apply ub_bind; [ub_go|]. intros off. apply ub_bind; [ub_go|]. intros perms. apply ub_bind; [ub_go|]. intros _.
      apply ub_bind.
      * unfold add_node. apply ub_bind; [apply ub_access_node; ub_go|ub_go].
      * intros [root cp]. apply ub_bind; [|ub_go]. unfold reborrow_accesses. apply ub_fold_m.
        intros r [i pm]. ub_go. }
    eapply xsim_bind; [apply sim_xsim; [|exact Hu]|].
    + instantiate (1 := fun x y => fst (fst x) = fst (fst y) /\ snd x = snd y /\ mmore (snd (fst x)) (snd (fst y))).
      unfold reborrow. cbv zeta. rewrite (check_more _ _ _ _ H). eapply sim_bind; [apply sim_eq|]. intros _ _ _ _ _.
      destruct (tp_prov (p_thin p)) as [[i pe]|].
      * eapply sim_bind; [apply mutate_more; [exact H|]; intros; by apply reborrow_alloc_more|]. intros [m' c] [n' d] _ _ [Hm Hc]. simpl in *. subst. by apply sim_ret.
      * eapply sim_bind; [apply sim_eq|]. intros _ _ _ _ _. by apply sim_ret.
    + intros [[p1 m1] f1] [[p2 m2] f2] (H1 & H2 & H3). cbn [fst snd] in *. subst. by apply xsim_ret.
  - intros m n f H. apply sim_xsim; [|apply UB]. cbn. apply sim_fold; [done|]. intros a b [i path] Hab. unfold mem_release_protector.
    eapply sim_bind; [apply mutate_more; [exact Hab|]; intros; by apply release_alloc_more|]. intros [m' c] [n' d] _ _ [Hm Hc]. by apply sim_ret.
  - intros m n H. cbn. unfold bm_leak_check. induction H as [|a b m n [(_ & _ & _ & Hk & Hl) _] H IH]; [done|]. simpl.
    by rewrite Hk, Hl, IH.
Qed.

Theorem basic_drop T : mem_xsim (BasicOps T) eq.
Proof.
  split; intros; subst; try done; (eapply xsim_impl; [apply xsim_eq|]); by intros ? ? <-.
Qed.
Lemma basic_load T m p l a b m' : mo_load (BasicOps T) m p l a = Ret (b, m') -> m' = m.
Proof.
  cbn. unfold bm_load. destruct (negb _); [done|]. intros E. apply obind_ret in E as (o & _ & E).
  destruct o as [[[i pe] o]|]; [|by injection E as <- <-]. apply obind_ret in E as (x & Hx & E). apply unwrap_ret in Hx.
  simpl in E. apply obind_ret in E as (d & _ & [= <- <-]). apply list_insert_id. rewrite Hx. by destruct x as [? ? ? ? ? []].
Qed.
