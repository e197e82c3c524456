(** The memory models are related: Tree Borrows to the basic memory by forgetting the trees, and the
    basic memory to itself by forgetting the contents of bytes. *)
From Verif Require Export SimSpec SimStep TreeRefine.
From Coq Require Import ZifyBool ZifyN ZifyNat.
Local Open Scope Z_scope.

(** ** Memories made of allocations *)
Section Bm.
  Context {PE1 AE1 PE2 AE2 : Type}.
  Variable T : Target.
  Variable h : nat * PE1 -> nat * PE2.
  Hypothesis h_id : forall p, fst (h p) = fst p.
  Notation M1 := (BMem PE1 AE1).
  Notation M2 := (BMem PE2 AE2).
  Notation alloc_sim := (alloc_sim (AE1 := AE1) (AE2 := AE2) h).
  Notation bmem_sim := (bmem_sim (AE1 := AE1) (AE2 := AE2) h).
  Notation thin_sim := (thin_sim h).
  Notation bytes_sim := (bytes_sim h).

  Lemma alloc_size a b : alloc_sim a b -> al_size a = al_size b.
  Proof. intros (H & _). unfold al_size. by rewrite (Forall2_length _ _ _ H). Qed.
  Lemma bm_lookup m n i a : bmem_sim m n -> m !! i = Some a -> exists b, n !! i = Some b /\ alloc_sim a b.
  Proof. intros H Hi. by apply (Forall2_lookup_l _ _ _ _ _ H). Qed.
  Lemma thin_id p q i pe : thin_sim p q -> tp_prov p = Some (i, pe) -> exists pe', tp_prov q = Some (i, pe').
  Proof.
    intros [_ H] Hp. rewrite Hp in H. apply prov_some in H. rewrite H. pose proof (h_id (i, pe)).
    destruct (h (i, pe)) as [j pe']. simpl in *. subst. eauto.
  Qed.

  Lemma bm_check_sim m n p q l : bmem_sim m n -> thin_sim p q ->
    sim (fun x y => match x, y with
                    | None, None => True
                    | Some (i, _, o), Some (j, _, o') => i = j /\ o = o'
                    | _, _ => False end) (bm_check_ptr m p l) (bm_check_ptr n q l).
  Proof.
    intros Hm Hp. unfold bm_check_ptr. destruct (l =? 0)%N; [by apply sim_ret|].
    destruct (tp_prov p) as [[i pe]|] eqn:Ep; [|apply sim_stop].
    destruct (thin_id _ _ _ _ Hp Ep) as [pe' ->].
    eapply sim_bind; [apply sim_unwrap; intros a; by apply bm_lookup|]. intros a b _ _ Hab.
    pose proof (alloc_size _ _ Hab) as ->. destruct Hab as (_ & -> & _ & _ & ->). rewrite (proj1 Hp).
    destruct (negb _); [apply sim_stop|]. destruct (_ || _); [apply sim_stop|].
    eapply sim_bind; [apply sim_eq|]. intros o ? _ _ <-. by apply sim_ret.
  Qed.

  Lemma bm_insert_sim m n i a b : bmem_sim m n -> alloc_sim a b -> bmem_sim (<[i := a]> m) (<[i := b]> n).
  Proof. intros. by apply Forall2_insert. Qed.

  Lemma bm_allocate_sim m n k s al pe pe' ae ae' ad : bmem_sim m n ->
    sim (fun x y => bmem_sim (snd x) (snd y) /\ fst x = mkThin ad (Some (length m, pe)) /\ fst y = mkThin ad (Some (length m, pe')))
      (bm_allocate T m k s al pe ae ad) (bm_allocate T n k s al pe' ae' ad).
  Proof.
    intros H. unfold bm_allocate. destruct (negb _); [apply sim_stop|].
    assert (bm_addr_ok T m s al ad = bm_addr_ok T n s al ad) as ->.
    { unfold bm_addr_ok. do 2 f_equal. induction H as [|a b m n Hab H IH]; [done|]. simpl. rewrite IH.
      unfold al_overlaps. rewrite (alloc_size _ _ Hab). by destruct Hab as (_ & -> & _ & _ & ->). }
    destruct (negb _); [apply sim_nobeh|]. apply sim_ret. cbn [fst snd]. rewrite (Forall2_length _ _ _ H).
    split; [|done]. apply Forall2_app; [done|]. repeat constructor. unfold list_repeat. simpl.
    induction (N.to_nat s) as [|j IH]; simpl; constructor; [constructor|done].
  Qed.

  Lemma bm_deallocate_sim m n p q k s al f g : bmem_sim m n -> thin_sim p q -> (forall ae pe, exists ae', g ae pe = Ret ae') ->
    sim bmem_sim (bm_deallocate m p k s al f) (bm_deallocate n q k s al g).
  Proof.
    intros Hm Hp Hg. unfold bm_deallocate. destruct (tp_prov p) as [[i pe]|] eqn:Ep; [|apply sim_stop].
    destruct (thin_id _ _ _ _ Hp Ep) as [pe' ->].
    eapply sim_bind; [apply sim_unwrap; intros a; by apply bm_lookup|]. intros a b _ _ Hab.
    pose proof (alloc_size _ _ Hab) as ->. pose proof Hab as (Hd & Ha & Hal & Hk & Hl). rewrite Ha, Hal, Hk, Hl, (proj1 Hp).
    do 5 (destruct (negb _); [apply sim_stop|]).
    destruct (Hg (al_extra b) pe') as [ae' ->]. intros r Hr. apply obind_ret in Hr as (ae & _ & [= <-]). simpl.
    eexists. split; [done|]. by apply bm_insert_sim.
  Qed.

  Lemma bm_store_sim m n p q x y al f g : bmem_sim m n -> thin_sim p q -> bytes_sim x y ->
    (forall ae pe o, exists ae', g ae pe o = Ret ae') -> sim bmem_sim (bm_store m p x al f) (bm_store n q y al g).
  Proof.
    intros Hm Hp Hb Hg. unfold bm_store. rewrite (proj1 Hp), (Forall2_length _ _ _ Hb). destruct (negb _); [apply sim_stop|].
    eapply sim_bind; [by apply bm_check_sim|]. intros [[[i pe] o]|] [[[j pe'] o']|] _ _; try done; [|intros; by apply sim_ret].
    intros [<- <-]. eapply sim_bind; [apply sim_unwrap; intros a; by apply bm_lookup|]. intros a b _ _ Hab.
    destruct (Hg (al_extra b) pe' o) as [ae' ->].
    intros r Hr. apply obind_ret in Hr as (ae & _ & Hr). revert r Hr. simpl. pose proof Hab as (Hd & Ha & Hal & Hk & Hl).
    eapply sim_bind; [by apply (write_subslice_sim h)|]. intros d e _ _ Hde. apply sim_ret.
    by apply bm_insert_sim.
  Qed.

  Lemma bm_load_sim m n p q l al f g : bmem_sim m n -> thin_sim p q ->
    (forall ae pe o, exists ae', g ae pe o = Ret ae') ->
    sim (fun x y => bytes_sim (fst x) (fst y) /\ bmem_sim (snd x) (snd y)) (bm_load m p l al f) (bm_load n q l al g).
  Proof.
    intros Hm Hp Hg. unfold bm_load. rewrite (proj1 Hp). destruct (negb _); [apply sim_stop|].
    eapply sim_bind; [by apply bm_check_sim|]. intros [[[i pe] o]|] [[[j pe'] o']|] _ _; try done.
    2: { intros _. apply sim_ret. split; [constructor|done]. }
    intros [<- <-]. eapply sim_bind; [apply sim_unwrap; intros a; by apply bm_lookup|]. intros a b _ _ Hab.
    destruct (Hg (al_extra b) pe' o) as [ae' ->].
    intros r Hr. apply obind_ret in Hr as (ae & _ & Hr). revert r Hr. simpl. pose proof Hab as (Hd & Ha & Hal & Hk & Hl).
    eapply sim_bind; [by apply (subslice_sim h)|]. intros d e _ _ Hde. apply sim_ret. split; [done|].
    by apply bm_insert_sim.
  Qed.

  Lemma bm_leak_sim m n : bmem_sim m n -> bm_leak_check m = bm_leak_check n.
  Proof.
    intros H. unfold bm_leak_check. induction H as [|a b m n (_ & _ & _ & Hk & Hl) H IH]; [done|]. simpl.
    rewrite Hl, Hk. destruct (al_live b); [destruct (al_kind b)|]; simpl; done.
  Qed.

  (** a change of the extra data of an allocation is not seen *)
  Lemma bm_extra_sim m n i a ae : bmem_sim m n -> m !! i = Some a -> bmem_sim (<[i := set_extra a ae]> m) n.
  Proof.
    intros H Hi. destruct (bm_lookup _ _ _ _ H Hi) as (b & Hb & Hab). rewrite <-(list_insert_id n i b) by done.
    apply bm_insert_sim; [done|]. by destruct Hab as (? & ? & ? & ? & ?).
  Qed.
End Bm.

(** ** The instances *)

(** provenances with the empty path *)
Definition is_root (p : TProv) : Prop := snd p = [].

Lemma extra_change_sim {PE1 AE1 PE2 AE2} (h : nat * PE1 -> nat * PE2) (m m' : BMem PE1 AE1) (n : BMem PE2 AE2) :
  extra_change m m' -> bmem_sim h m n -> bmem_sim h m' n.
Proof. induction 1 as [m|m m1 id a ae H IH Ha]; [done|]. intros Hm. apply bm_extra_sim; auto. Qed.

Lemma tree_retag_ptr T m f ptr pt fe lk p m' f' :
  mo_retag (TreeOps T) m f ptr pt fe lk = Ret (p, m', f') ->
  p_meta p = p_meta ptr /\ tp_addr (p_thin p) = tp_addr (p_thin ptr) /\
  option_map er_prov (tp_prov (p_thin p)) = option_map er_prov (tp_prov (p_thin ptr)).
Proof.
  intros H. simpl in H. apply tb_retag_ret in H as [(_ & -> & _)|(s & p' & Hs & Hr & ->)]; [done|].
  apply reborrow_ret in Hr as [(_ & _ & -> & _)|(id & parent & a & a' & cp & Hp & _ & _ & _ & -> & _)]; [done|].
  by rewrite Hp.
Qed.

Theorem tree_basic T : mem_sim (TreeOps T) (BasicOps T) er_prov (bmem_sim er_prov) is_root.
Proof.
  split.
  - intros [i p] [j q]. unfold is_root, er_prov. simpl. by intros -> -> [= ->].
  - constructor.
  - intros m n k s a ad H. eapply sim_impl; [by apply bm_allocate_sim|].
    intros [p m'] [q n'] (Hm & Hp & Hq). simpl in *. subst. split; [done|]. split; [done|]. simpl. by exists (length m, []).
  - intros. by apply bm_deallocate_sim; eauto.
  - intros. by apply bm_store_sim; eauto.
  - intros. by apply bm_load_sim; eauto.
  - intros m n p q l Hm Hp. eapply sim_bind; [by apply (bm_check_sim er_prov)|]. intros. by apply sim_ret.
  - intros m n f g p q pt fe l1 l2 Hm Hp [[p' m'] f'] H. exists (q, n, g). split; [done|]. simpl.
    pose proof (bl_retag _ _ (tree_like T) _ _ _ _ _ _ _ _ _ H) as He. split; [|by eapply extra_change_sim].
    destruct (tree_retag_ptr _ _ _ _ _ _ _ _ _ _ H) as (H1 & H2 & H3). destruct Hp as [[Ha Hpr] Hmt].
    split; [|by rewrite H1]. split; [congruence|]. destruct (tp_prov (p_thin p)) as [x|], (tp_prov (p_thin p')) as [x'|]; try done; try constructor.
    apply prov_some in Hpr as ->. injection H3 as H3. assert (er_prov x = er_prov x') as -> by (unfold er_prov; congruence). constructor.
  - intros m n f g Hm m' H. exists n. split; [done|]. eapply extra_change_sim; [|done]. by eapply (bl_end _ _ (tree_like T)).
  - intros m n H. by apply (bm_leak_sim er_prov).
Qed.

Theorem basic_basic T : mem_sim (BasicOps T) (BasicOps T) (fun p => p) (bmem_sim (fun p => p)) (fun _ => True).
Proof.
  split.
  - done.
  - constructor.
  - intros m n k s a ad H. eapply sim_impl; [by apply bm_allocate_sim|].
    intros [p m'] [q n'] (Hm & Hp & Hq). simpl in *. subst. split; [done|]. split; [done|]. simpl. by exists (length m, tt).
  - intros. by apply bm_deallocate_sim; eauto.
  - intros. by apply bm_store_sim; eauto.
  - intros. by apply bm_load_sim; eauto.
  - intros m n p q l Hm Hp. eapply sim_bind; [by apply (bm_check_sim (fun p => p))|]. intros. by apply sim_ret.
  - intros m n f g p q pt fe l1 l2 Hm Hp. by apply sim_ret.
  - intros m n f g Hm. by apply sim_ret.
  - intros m n H. by apply (bm_leak_sim (fun p => p)).
Qed.
