(** Proofs about borrow trees. *)
From Verif Require Export TreeSpec.
From Coq Require Import ZifyBool ZifyN ZifyNat.

(** ** Permissions *)

Lemma perm_transition_cases p ak rel :
  (exists p', perm_transition p ak rel = Ret p') \/ is_ub (perm_transition p ak rel).
Proof.
  destruct p as [p|p], ak, rel; destruct p; simpl;
    repeat match goal with b : bool |- _ => destruct b end; simpl;
    (left; by eexists) || (right; by eexists).
Qed.

Lemma perm_transition_matches p ak rel p' pr :
  perm_transition p ak rel = Ret p' -> perm_matches p' pr = perm_matches p pr.
Proof.
  destruct p as [p|p]; simpl; intros H; apply obind_ret in H as (x & _ & [= <-]); done.
Qed.

(** ** Lists of permissions *)

Lemma perms_fold_ret rel ak os ps ps' :
  NoDup os ->
  fold_m (fun ps o => perm_at ps o ak rel) os ps = Ret ps' ->
  length ps' = length ps /\
  forall o, (o ∈ os -> exists p p', ps !! o = Some p /\ perm_transition p ak rel = Ret p' /\ ps' !! o = Some p') /\
            (o ∉ os -> ps' !! o = ps !! o).
Proof.
  revert ps. induction os as [|o os IH]; intros ps Hnd H; simpl in H.
  - injection H as <-. split; [done|]. intros o. split; [|done]. by intros ?%elem_of_nil.
  - apply NoDup_cons in Hnd as [Hno Hnd]. apply obind_ret in H as (ps1 & H1 & H).
    unfold perm_at in H1. apply obind_ret in H1 as (p & Hp & H1). apply obind_ret in H1 as (p' & Hp' & [= <-]).
    apply unwrap_ret in Hp. pose proof (lookup_lt_Some _ _ _ Hp) as Hlt.
    destruct (IH _ Hnd H) as [Hl Ho]. rewrite insert_length in Hl. split; [done|]. intros o1.
    destruct (Ho o1) as [Hin Hout]. split.
    + intros [->|H1]%elem_of_cons.
      * exists p, p'. split; [done|]. split; [done|]. rewrite Hout by done. by apply list_lookup_insert.
      * destruct (Hin H1) as (x & x' & Hx & Hx' & Hps). exists x, x'. split; [|done].
        rewrite list_lookup_insert_ne in Hx; [done|]. by intros ->.
    + intros [Hne Hn]%not_elem_of_cons. rewrite Hout by done. apply list_lookup_insert_ne. congruence.
Qed.

Lemma perms_fold_total rel ak os ps :
  NoDup os -> (forall o, o ∈ os -> exists p p', ps !! o = Some p /\ perm_transition p ak rel = Ret p') ->
  exists ps', fold_m (fun ps o => perm_at ps o ak rel) os ps = Ret ps'.
Proof.
  revert ps. induction os as [|o os IH]; intros ps Hnd H; simpl; [eauto|].
  apply NoDup_cons in Hnd as [Hno Hnd].
  destruct (H o) as (p & p' & Hp & Hp'); [by constructor|]. unfold perm_at at 1. rewrite Hp. simpl. rewrite Hp'. simpl.
  apply IH; [done|]. intros o1 H1. destruct (H o1) as (x & x' & Hx & Hx'); [by constructor|].
  exists x, x'. split; [|done]. rewrite list_lookup_insert_ne; [done|]. by intros ->.
Qed.

Lemma perms_fold_cases rel ak os ps :
  (forall o, o ∈ os -> (o < length ps)%nat) ->
  (exists ps', fold_m (fun ps o => perm_at ps o ak rel) os ps = Ret ps') \/
  is_ub (fold_m (fun ps o => perm_at ps o ak rel) os ps).
Proof.
  revert ps. induction os as [|o os IH]; intros ps H; simpl; [eauto|].
  destruct (lookup_lt_is_Some_2 ps o) as [p Hp]; [apply H; by constructor|].
  unfold perm_at at 1 3. rewrite Hp. simpl.
  destruct (perm_transition_cases p ak rel) as [[p' Hp']|[msg Hp']]; rewrite Hp'; simpl.
  - apply IH. intros o1 H1. rewrite insert_length. apply H. by constructor.
  - right. by eexists.
Qed.

Lemma elem_of_range off size o : o ∈ seq (N.to_nat off) (N.to_nat size) <-> off_in off size o.
Proof. rewrite elem_of_list_In, in_seq. done. Qed.

Lemma perms_transition_ret ps rel ak off size ps' :
  perms_transition ps rel ak off size = Ret ps' ->
  length ps' = length ps /\
  forall o, (off_in off size o ->
              exists p p', ps !! o = Some p /\ perm_transition p ak rel = Ret p' /\ ps' !! o = Some p') /\
            (~ off_in off size o -> ps' !! o = ps !! o).
Proof.
  intros H. apply perms_fold_ret in H as [Hl Ho]; [|apply NoDup_ListNoDup, seq_NoDup]. split; [done|].
  intros o. specialize (Ho o). rewrite elem_of_range in Ho. done.
Qed.
Lemma perms_transition_total ps rel ak off size :
  (forall o, off_in off size o -> exists p p', ps !! o = Some p /\ perm_transition p ak rel = Ret p') ->
  exists ps', perms_transition ps rel ak off size = Ret ps'.
Proof.
  intros H. apply perms_fold_total; [apply NoDup_ListNoDup, seq_NoDup|]. intros o Ho. apply H. by apply elem_of_range.
Qed.
Lemma perms_transition_cases ps rel ak off size :
  (N.to_nat off + N.to_nat size <= length ps)%nat ->
  (exists ps', perms_transition ps rel ak off size = Ret ps') \/ is_ub (perms_transition ps rel ak off size).
Proof.
  intros H. apply perms_fold_cases. intros o Ho. apply elem_of_range in Ho. unfold off_in in Ho. lia.
Qed.
Lemma perms_transition_iff ps rel ak off size ps' :
  perms_transition ps rel ak off size = Ret ps' <->
  length ps' = length ps /\
  forall o, (off_in off size o ->
              exists p p', ps !! o = Some p /\ perm_transition p ak rel = Ret p' /\ ps' !! o = Some p') /\
            (~ off_in off size o -> ps' !! o = ps !! o).
Proof.
  split; [apply perms_transition_ret|]. intros [Hl Ho].
  destruct (perms_transition_total ps rel ak off size) as [ps1 H1].
  { intros o Hr. destruct (Ho o) as [Hi _]. destruct (Hi Hr) as (p & p' & ? & ? & ?). eauto. }
  rewrite H1. f_equal. apply perms_transition_ret in H1 as [Hl1 Ho1]. apply list_eq. intros o.
  destruct (Ho o) as [Hi Hout], (Ho1 o) as [Hi1 Hout1]. destruct (decide (off_in off size o)) as [Hr|Hr].
  - destruct (Hi Hr) as (p & p' & Hp & Hp' & ->). destruct (Hi1 Hr) as (p1 & p1' & Hp1 & Hp1' & ->). congruence.
  - rewrite Hout, Hout1 by done. done.
Qed.

(** ** Mapping over children *)

Lemma map_idx_m_ret {A B} (f : nat -> A -> Outcome B) i l l' :
  map_idx_m f i l = Ret l' <->
  length l' = length l /\
  forall k x, l !! k = Some x -> exists y, f (i + k)%nat x = Ret y /\ l' !! k = Some y.
Proof.
  revert i l'. induction l as [|x l IH]; intros i l'; simpl.
  - split.
    + intros [= <-]. split; [done|]. intros k x Hk. by rewrite lookup_nil in Hk.
    + intros [Hl _]. by destruct l'.
  - split.
    + intros H. apply obind_ret in H as (y & Hy & H). apply obind_ret in H as (r & Hr & [= <-]).
      apply IH in Hr as [Hl Hr]. split; [simpl; lia|]. intros [|k] x1 Hk; simpl in Hk.
      * injection Hk as <-. exists y. by rewrite Nat.add_0_r.
      * destruct (Hr k x1 Hk) as (y1 & Hy1 & Hk1). exists y1. split; [|done].
        by replace (i + S k)%nat with (S i + k)%nat by lia.
    + intros [Hl H]. destruct l' as [|y l']; [done|]. simpl in Hl.
      destruct (H 0%nat x eq_refl) as (y0 & Hy0 & [= <-]). rewrite Nat.add_0_r in Hy0. rewrite Hy0. simpl.
      assert (map_idx_m f (S i) l = Ret l') as ->; [|done].
      apply IH. split; [lia|]. intros k x1 Hk. destruct (H (S k) x1 Hk) as (y1 & Hy1 & Hk1).
      exists y1. split; [|done]. by replace (S i + k)%nat with (i + S k)%nat by lia.
Qed.

Lemma map_idx_m_cases {A B} (f : nat -> A -> Outcome B) i l :
  (forall k x, l !! k = Some x -> (exists y, f (i + k)%nat x = Ret y) \/ is_ub (f (i + k)%nat x)) ->
  (exists l', map_idx_m f i l = Ret l') \/ is_ub (map_idx_m f i l).
Proof.
  revert i. induction l as [|x l IH]; intros i H; simpl; [eauto|].
  destruct (H 0%nat x eq_refl) as [[y Hy]|[msg Hy]]; rewrite Nat.add_0_r in Hy; rewrite Hy; simpl;
    [|right; by eexists].
  destruct (IH (S i)) as [[l' ->]|[msg ->]]; simpl.
  - intros k x1 Hk. specialize (H (S k) x1 Hk). rewrite Nat.add_succ_r in H. exact H.
  - left. by eexists.
  - right. by eexists.
Qed.

Lemma map_idx_m_total {A B} (f : nat -> A -> Outcome B) i l :
  (forall k x, l !! k = Some x -> exists y, f (i + k)%nat x = Ret y) ->
  exists l', map_idx_m f i l = Ret l'.
Proof.
  revert i. induction l as [|x l IH]; intros i H; simpl; [eauto|].
  destruct (H 0%nat x eq_refl) as [y Hy]; rewrite Nat.add_0_r in Hy; rewrite Hy; simpl.
  destruct (IH (S i)) as [l' ->]; simpl; [|by eexists].
  intros k x1 Hk. specialize (H (S k) x1 Hk). rewrite Nat.add_succ_r in H. exact H.
Qed.

(** ** Paths and views *)

Section NodeInd.
  Variable Q : Node -> Prop.
  Hypothesis Hnode : forall cs ps pr, Forall Q cs -> Q (mkNode cs ps pr).
  Fixpoint Node_ind' (n : Node) : Q n :=
    match n with
    | mkNode cs ps pr =>
        Hnode cs ps pr ((fix go (l : list Node) : Forall Q l :=
                           match l with
                           | [] => List.Forall_nil Q
                           | c :: r => List.Forall_cons Q c r (Node_ind' c) (go r)
                           end) cs)
    end.
End NodeInd.

Lemma node_at_app n p q :
  node_at n (p ++ q) = match node_at n p with Some m => node_at m q | None => None end.
Proof.
  revert n. induction p as [|i p IH]; intros n; simpl; [done|].
  destruct (n_children n !! i); [apply IH|done].
Qed.
Lemma ninfo_nil n : ninfo n [] = Some (n_perms n, n_prot n).
Proof. done. Qed.
Lemma ninfo_cons n i r :
  ninfo n (i :: r) = match n_children n !! i with Some c => ninfo c r | None => None end.
Proof. unfold ninfo. simpl. by destruct (n_children n !! i). Qed.
Lemma ninfo_prefix n p q : p `prefix_of` q -> is_Some (ninfo n q) -> is_Some (ninfo n p).
Proof.
  intros [k ->]. unfold ninfo. rewrite node_at_app. destruct (node_at n p); [done|]. by intros [? ?].
Qed.

(** trees are equal when their views are *)
Lemma ninfo_ext n1 n2 : (forall path, ninfo n1 path = ninfo n2 path) -> n1 = n2.
Proof.
  revert n2. induction n1 as [cs ps pr IH] using Node_ind'. intros [cs2 ps2 pr2] H.
  pose proof (H []) as H0. rewrite !ninfo_nil in H0. simpl in H0. injection H0 as -> ->. f_equal.
  apply list_eq. intros i. rewrite Forall_lookup in IH.
  destruct (cs !! i) as [c|] eqn:E, (cs2 !! i) as [c2|] eqn:E2.
  - f_equal. apply (IH i c E). intros path. specialize (H (i :: path)). rewrite !ninfo_cons in H. simpl in H.
    by rewrite E, E2 in H.
  - specialize (H [i]). rewrite !ninfo_cons in H. simpl in H. rewrite E, E2 in H. done.
  - specialize (H [i]). rewrite !ninfo_cons in H. simpl in H. rewrite E, E2 in H. done.
  - done.
Qed.

Lemma rel_at_nil q : rel_at q [] = relation_of q.
Proof. unfold rel_at. destruct q; [|done]. rewrite decide_True; [done|apply prefix_nil]. Qed.
Lemma rel_at_cons q i r : rel_at q (i :: r) = rel_at (sub_path q i) r.
Proof.
  unfold rel_at, sub_path. destruct q as [[|h t]|]; [rewrite decide_False; [done|apply prefix_nil_not]| |done].
  destruct (Nat.eqb_spec h i) as [->|Hn].
  - destruct (decide (r `prefix_of` t)).
    + rewrite decide_True; [done|]. by apply prefix_cons.
    + rewrite decide_False; [done|]. intros H. by apply prefix_cons_inv_2 in H.
  - rewrite decide_False; [done|]. intros H. apply prefix_cons_inv_1 in H. congruence.
Qed.

Lemma tree_len_cons cs ps pr len :
  tree_len (mkNode cs ps pr) len <-> length ps = len /\ Forall (fun c => tree_len c len) cs.
Proof.
  unfold tree_len. rewrite Forall_lookup. split.
  - intros H. split; [by apply (H [] ps pr)|]. intros i c Hi path ps' pr' Hp. apply (H (i :: path) ps' pr').
    rewrite ninfo_cons. simpl. by rewrite Hi.
  - intros [H1 H2] [|i path] ps' pr' Hp.
    + rewrite ninfo_nil in Hp. simpl in Hp. by injection Hp as <- <-.
    + rewrite ninfo_cons in Hp. simpl in Hp. destruct (cs !! i) as [c|] eqn:E; [|done]. by eapply H2.
Qed.

(** ** Accesses *)

(** view of an access: every node makes the transition its position asks for *)
Lemma node_access_view n q ak off size n' path :
  node_access n q ak off size = Ret n' ->
  match ninfo n path, ninfo n' path with
  | Some (ps, pr), Some (ps', pr') => pr' = pr /\ perms_transition ps (rel_at q path) ak off size = Ret ps'
  | None, None => True
  | _, _ => False
  end.
Proof.
  revert n n' q. induction path as [|i path IH]; intros n n' q H; destruct n as [cs ps pr]; simpl in H;
    apply obind_ret in H as (ps' & Hps & H); apply obind_ret in H as (cs' & Hcs & [= <-]).
  - rewrite !ninfo_nil. simpl. rewrite rel_at_nil. done.
  - rewrite !ninfo_cons. simpl. apply map_idx_m_ret in Hcs as [Hl Hcs]. simpl in Hcs.
    destruct (cs !! i) as [c|] eqn:E.
    + destruct (Hcs i c E) as (c' & Hc' & ->). rewrite rel_at_cons. by apply IH.
    + apply lookup_ge_None in E. rewrite lookup_ge_None_2 by lia. done.
Qed.

Lemma node_access_iff n q ak off size n' :
  node_access n q ak off size = Ret n' <->
  forall path, match ninfo n path, ninfo n' path with
  | Some (ps, pr), Some (ps', pr') => pr' = pr /\ perms_transition ps (rel_at q path) ak off size = Ret ps'
  | None, None => True
  | _, _ => False
  end.
Proof.
  split; [intros H path; by apply node_access_view|].
  revert n' q. induction n as [cs ps pr IH] using Node_ind'. intros [cs' ps' pr'] q H. simpl.
  pose proof (H []) as H0. rewrite !ninfo_nil in H0. simpl in H0. destruct H0 as [-> H0].
  rewrite rel_at_nil in H0. rewrite H0. simpl.
  assert (map_idx_m (fun i c => node_access c (sub_path q i) ak off size) 0 cs = Ret cs') as ->; [|done].
  apply map_idx_m_ret. split.
  - destruct (decide (length cs' = length cs)) as [|Hne]; [done|exfalso].
    destruct (decide (length cs' < length cs)%nat).
    + specialize (H [length cs']). rewrite !ninfo_cons in H. simpl in H.
      rewrite (lookup_ge_None_2 cs') in H by lia.
      destruct (lookup_lt_is_Some_2 cs (length cs')) as [c Hc]; [lia|]. rewrite Hc in H. done.
    + specialize (H [length cs]). rewrite !ninfo_cons in H. simpl in H.
      rewrite (lookup_ge_None_2 cs) in H by lia.
      destruct (lookup_lt_is_Some_2 cs' (length cs)) as [c Hc]; [lia|]. rewrite Hc in H. done.
  - intros k c Hk. pose proof (H [k]) as Hk'. rewrite !ninfo_cons in Hk'. simpl in Hk'. rewrite Hk in Hk'.
    destruct (cs' !! k) as [c'|] eqn:E; [|done]. exists c'. split; [|done]. simpl.
    rewrite Forall_lookup in IH. apply (IH k c Hk). intros path. specialize (H (k :: path)).
    rewrite !ninfo_cons in H. simpl in H. rewrite Hk, E in H. rewrite rel_at_cons in H. done.
Qed.

(** an access is never a panic when all nodes cover the range *)
Lemma node_access_cases n q ak off size len :
  tree_len n len -> (N.to_nat off + N.to_nat size <= len)%nat ->
  (exists n', node_access n q ak off size = Ret n') \/ is_ub (node_access n q ak off size).
Proof.
  intros Hlen Hr. revert q. induction n as [cs ps pr IH] using Node_ind'. intros q.
  apply tree_len_cons in Hlen as [Hl Hcs]. simpl.
  destruct (perms_transition_cases ps (relation_of q) ak off size) as [[ps' ->]|[msg ->]]; [lia| |right; by eexists].
  simpl. destruct (map_idx_m_cases (fun i c => node_access c (sub_path q i) ak off size) 0 cs)
    as [[cs' ->]|[msg ->]]; simpl; [| |right; by eexists].
  - intros k c Hk. rewrite Forall_lookup in IH, Hcs. apply (IH k c Hk). by eapply Hcs.
  - left. by eexists.
Qed.

(** an access succeeds when every node permits it *)
Lemma node_access_total n q ak off size :
  (forall path ps pr o, ninfo n path = Some (ps, pr) -> off_in off size o ->
     exists p p', ps !! o = Some p /\ perm_transition p ak (rel_at q path) = Ret p') ->
  exists n', node_access n q ak off size = Ret n'.
Proof.
  revert q. induction n as [cs ps pr IH] using Node_ind'. intros q H. simpl.
  destruct (perms_transition_total ps (relation_of q) ak off size) as [ps' ->].
  { intros o Ho. rewrite <- rel_at_nil. apply (H [] ps pr o); done. }
  simpl. destruct (map_idx_m_total (fun i c => node_access c (sub_path q i) ak off size) 0 cs) as [cs' ->];
    [|simpl; by eexists].
  intros k c Hk. rewrite Forall_lookup in IH. apply (IH k c Hk). intros path ps1 pr1 o Hp Ho.
  simpl. rewrite <- rel_at_cons. apply (H (k :: path) ps1 pr1 o); [|done]. rewrite ninfo_cons. simpl. by rewrite Hk.
Qed.

(** an access is undefined behaviour as soon as one node forbids it *)
Lemma node_access_ub n q ak off size len path ps pr o p :
  tree_len n len -> (N.to_nat off + N.to_nat size <= len)%nat ->
  ninfo n path = Some (ps, pr) -> off_in off size o -> ps !! o = Some p ->
  is_ub (perm_transition p ak (rel_at q path)) ->
  is_ub (node_access n q ak off size).
Proof.
  intros Hlen Hr Hp Ho Hpo [msg Hub].
  destruct (node_access_cases n q ak off size len Hlen Hr) as [[n' Hn]|?]; [|done]. exfalso.
  apply (node_access_view _ _ _ _ _ _ path) in Hn. rewrite Hp in Hn.
  destruct (ninfo n' path) as [[ps' pr']|]; [|done]. destruct Hn as [_ Hn].
  apply perms_transition_ret in Hn as [_ Hn]. destruct (Hn o) as [Hi _].
  destruct (Hi Ho) as (p1 & p1' & Hp1 & Ht & _). congruence.
Qed.

Lemma node_access_len n q ak off size n' len :
  node_access n q ak off size = Ret n' -> tree_len n len -> tree_len n' len.
Proof.
  intros H Hl path ps pr Hp. apply (node_access_view _ _ _ _ _ _ path) in H. rewrite Hp in H.
  destruct (ninfo n path) as [[ps0 pr0]|] eqn:E; [|done]. destruct H as [_ H].
  apply perms_transition_ret in H as [-> _]. by eapply Hl.
Qed.

(** what happens to one permission *)
Lemma node_access_perm n q ak off size n' path ps pr o p :
  node_access n q ak off size = Ret n' -> ninfo n path = Some (ps, pr) -> ps !! o = Some p ->
  exists ps' p', ninfo n' path = Some (ps', pr) /\ ps' !! o = Some p' /\
    (off_in off size o -> perm_transition p ak (rel_at q path) = Ret p') /\
    (~ off_in off size o -> p' = p).
Proof.
  intros H Hp Ho. apply (node_access_view _ _ _ _ _ _ path) in H. rewrite Hp in H.
  destruct (ninfo n' path) as [[ps' pr']|]; [|done]. destruct H as [-> H].
  apply perms_transition_ret in H as [_ H]. destruct (H o) as [Hi Hn]. exists ps'.
  destruct (decide (off_in off size o)) as [Hr|Hr].
  - destruct (Hi Hr) as (p1 & p1' & Hp1 & Ht & Ho'). exists p1'. rewrite Ho in Hp1. injection Hp1 as ->. done.
  - exists p. rewrite Hn by done. done.
Qed.

(** ** Changing one node *)

Lemma access_node_view {O} path (f : Node -> Outcome (Node * O)) n n' o :
  access_node path f n = Ret (n', o) ->
  exists nd nd', node_at n path = Some nd /\ f nd = Ret (nd', o) /\
    node_at n' path = Some nd' /\
    forall p, match node_at n' p with
              | Some m' => path `prefix_of` p \/
                  exists m, node_at n p = Some m /\ n_perms m' = n_perms m /\ n_prot m' = n_prot m
              | None => path `prefix_of` p \/ node_at n p = None
              end.
Proof.
  revert n n'. induction path as [|i path IH]; intros n n' H; simpl in H.
  - exists n, n'. repeat split; try done. intros p. destruct (node_at n' p); left; apply prefix_nil.
  - destruct n as [cs ps pr]. apply obind_ret in H as (c & Hc & H). apply unwrap_ret in Hc.
    apply obind_ret in H as ([c' o'] & Ha & [= <- <-]).
    destruct (IH _ _ Ha) as (nd & nd' & H1 & H2 & H3 & H4). simpl. rewrite Hc.
    exists nd, nd'. split; [done|]. split; [done|].
    rewrite list_lookup_insert by (by eapply lookup_lt_Some). split; [done|].
    intros [|j p]; simpl; [right; by exists (mkNode cs ps pr)|].
    destruct (decide (j = i)) as [->|Hn].
    + rewrite list_lookup_insert by (by eapply lookup_lt_Some). rewrite Hc.
      specialize (H4 p). destruct (node_at c' p).
      * destruct H4 as [?|H4]; [left; by apply prefix_cons|by right].
      * destruct H4 as [?|H4]; [left; by apply prefix_cons|by right].
    + rewrite list_lookup_insert_ne by done. destruct (cs !! j) as [c1|]; simpl; [|by right].
      destruct (node_at c1 p) as [m|] eqn:E; [|by right]. right. exists m. done.
Qed.

(** when f replaces the node's own data and keeps its children *)
Lemma access_node_update {O} path (f : Node -> Outcome (Node * O)) n n' o :
  access_node path f n = Ret (n', o) ->
  (forall nd nd' o, f nd = Ret (nd', o) -> n_children nd' = n_children nd) ->
  exists nd nd', node_at n path = Some nd /\ f nd = Ret (nd', o) /\
    forall p, ninfo n' p = if decide (p = path) then Some (n_perms nd', n_prot nd') else ninfo n p.
Proof.
  intros H Hf. revert n n' H. induction path as [|i path IH]; intros n n' H; simpl in H.
  - exists n, n'. split; [done|]. split; [done|]. intros [|j p].
    + rewrite decide_True by done. done.
    + rewrite decide_False by done. rewrite !ninfo_cons. by rewrite (Hf _ _ _ H).
  - destruct n as [cs ps pr]. apply obind_ret in H as (c & Hc & H). apply unwrap_ret in Hc.
    apply obind_ret in H as ([c' o'] & Ha & [= <- <-]).
    destruct (IH _ _ Ha) as (nd & nd' & H1 & H2 & H4). simpl. rewrite Hc.
    exists nd, nd'. split; [done|]. split; [done|]. intros [|j p].
    + rewrite decide_False by done. done.
    + rewrite !ninfo_cons. cbn [n_children]. destruct (decide (j = i)) as [->|Hn].
      * rewrite list_lookup_insert by (by eapply lookup_lt_Some). rewrite Hc, H4.
        destruct (decide (p = path)) as [->|]; [by rewrite decide_True|]. rewrite decide_False; [done|congruence].
      * rewrite list_lookup_insert_ne by done. rewrite decide_False; [done|congruence].
Qed.

(** adding a leaf *)
Lemma add_node_view n parent ps pr n' cp :
  add_node n parent (mkNode [] ps pr) = Ret (n', cp) ->
  exists nd, node_at n parent = Some nd /\ cp = parent ++ [length (n_children nd)] /\
  ninfo n cp = None /\
  forall p, ninfo n' p = if decide (p = cp) then Some (ps, pr) else ninfo n p.
Proof.
  unfold add_node. intros H. apply obind_ret in H as ([n1 idx] & H & [= <- <-]).
  revert n n1 H. induction parent as [|i parent IH]; intros n n1 H; simpl in H.
  - destruct n as [cs ps0 pr0]. injection H as <- <-. exists (mkNode cs ps0 pr0). split; [done|]. split; [done|].
    split. { simpl. rewrite ninfo_cons. simpl. by rewrite lookup_ge_None_2. }
    cbn [app n_children]. intros [|j p].
    + rewrite decide_False by done. done.
    + rewrite !ninfo_cons. cbn [n_children]. destruct (decide (j < length cs)%nat) as [Hj|Hj].
      * rewrite lookup_app_l by done. rewrite decide_False; [done|]. intros [= -> ->]. lia.
      * rewrite lookup_app_r by lia. rewrite (lookup_ge_None_2 cs) by lia.
        destruct (decide (j = length cs)) as [->|Hne].
        -- rewrite Nat.sub_diag. cbn [lookup list_lookup]. destruct p as [|k p].
           ++ rewrite decide_True by done. done.
           ++ rewrite decide_False by done. rewrite ninfo_cons. simpl. done.
        -- destruct (j - length cs)%nat eqn:E; [lia|]. cbn [lookup list_lookup].
           rewrite decide_False; [done|]. congruence.
  - destruct n as [cs ps0 pr0]. apply obind_ret in H as (c & Hc & H). apply unwrap_ret in Hc.
    apply obind_ret in H as ([c' o'] & Ha & [= <- <-]).
    destruct (IH _ _ Ha) as (nd & H1 & H2 & H3 & H4). exists nd. cbn [node_at n_children app]. rewrite Hc. split; [done|].
    split; [congruence|]. split. { rewrite ninfo_cons. simpl. rewrite Hc. done. }
    intros [|j p].
    + rewrite decide_False by done. done.
    + rewrite !ninfo_cons. cbn [n_children]. destruct (decide (j = i)) as [->|Hn].
      * rewrite list_lookup_insert by (by eapply lookup_lt_Some). rewrite Hc, H4.
        destruct (decide (p = parent ++ [o'])) as [->|]; [by rewrite decide_True|].
        rewrite decide_False; [done|congruence].
      * rewrite list_lookup_insert_ne by done. rewrite decide_False; [done|congruence].
Qed.

Lemma add_node_total n parent child nd :
  node_at n parent = Some nd -> exists n', add_node n parent child = Ret (n', parent ++ [length (n_children nd)]).
Proof.
  intros H. unfold add_node.
  assert (exists n', access_node parent (fun n => match n with
    | mkNode cs ps prot => Ret (mkNode (cs ++ [child]) ps prot, length cs) end) n
      = Ret (n', length (n_children nd))) as [n' ->]; [|by eexists].
  revert n H. induction parent as [|i parent IH]; intros n H; destruct n as [cs ps pr]; simpl in *.
  - injection H as <-. by eexists.
  - destruct (cs !! i) as [c|]; [|done]. simpl. destruct (IH c H) as [n' ->]. simpl. by eexists.
Qed.

(** ** Releasing protectors *)

Lemma perms_release_gen rel accs k ps ps' :
  fold_m (fun ps '(o, acc) => match acc with None => Ret ps | Some ak => perm_at ps o ak rel end)
    (zip (seq k (length accs)) accs) ps = Ret ps' ->
  length ps' = length ps /\
  forall o, match (if (k <=? o)%nat then accs !! (o - k)%nat else None) with
            | Some (Some ak) => exists p p', ps !! o = Some p /\ perm_transition p ak rel = Ret p' /\ ps' !! o = Some p'
            | _ => ps' !! o = ps !! o
            end.
Proof.
  revert k ps. induction accs as [|acc accs IH]; intros k ps H; simpl in H.
  - injection H as <-. split; [done|]. intros o. destruct (_ <=? _)%nat; done.
  - apply obind_ret in H as (ps1 & H1 & H). destruct (IH _ _ H) as [Hl Ho].
    assert (length ps1 = length ps /\ (forall o, o <> k -> ps1 !! o = ps !! o) /\
      match acc with Some ak => exists p p', ps !! k = Some p /\ perm_transition p ak rel = Ret p' /\ ps1 !! k = Some p'
                   | None => ps1 !! k = ps !! k end) as (Hl1 & Hne & Hk).
    { destruct acc as [ak|].
      - unfold perm_at in H1. apply obind_ret in H1 as (p & Hp & H1). apply obind_ret in H1 as (p' & Hp' & [= <-]).
        apply unwrap_ret in Hp. rewrite insert_length. split; [done|]. split.
        + intros o Hn. apply list_lookup_insert_ne. congruence.
        + exists p, p'. split; [done|]. split; [done|]. apply list_lookup_insert. by eapply lookup_lt_Some.
      - injection H1 as <-. done. }
    split; [lia|]. intros o. specialize (Ho o). destruct (decide (o = k)) as [->|Hn].
    + destruct (Nat.leb_spec k k); [|lia]. rewrite Nat.sub_diag. simpl.
      destruct (Nat.leb_spec (S k) k); [lia|]. rewrite Ho. destruct acc; done.
    + destruct (Nat.leb_spec (S k) o), (Nat.leb_spec k o); try lia.
      * replace (o - k)%nat with (S (o - S k)) by lia. simpl.
        destruct (accs !! (o - S k)%nat) as [[ak|]|].
        -- destruct Ho as (p & p' & Hp & ?). exists p, p'. rewrite Hne in Hp by done. done.
        -- rewrite Ho. by apply Hne.
        -- rewrite Ho. by apply Hne.
      * rewrite Ho. by apply Hne.
Qed.

Lemma perms_release_ret rel accs ps ps' :
  perms_release ps rel accs = Ret ps' ->
  length ps' = length ps /\
  forall o, match accs !! o with
            | Some (Some ak) => exists p p', ps !! o = Some p /\ perm_transition p ak rel = Ret p' /\ ps' !! o = Some p'
            | _ => ps' !! o = ps !! o
            end.
Proof.
  intros H. apply perms_release_gen in H as [Hl H]. split; [done|]. intros o. specialize (H o). simpl in H.
  by rewrite Nat.sub_0_r in H.
Qed.

Lemma perms_release_cases rel accs ps :
  length accs = length ps ->
  (exists ps', perms_release ps rel accs = Ret ps') \/ is_ub (perms_release ps rel accs).
Proof.
  intros Hl. unfold perms_release.
  assert (forall k accs ps, (k + length accs <= length ps)%nat ->
    (exists ps', fold_m (fun ps '(o, acc) => match acc with None => Ret ps | Some ak => perm_at ps o ak rel end)
       (zip (seq k (length accs)) accs) ps = Ret ps') \/
    is_ub (fold_m (fun ps '(o, acc) => match acc with None => Ret ps | Some ak => perm_at ps o ak rel end)
       (zip (seq k (length accs)) accs) ps)) as Hg; [|apply Hg; lia].
  clear. intros k accs. revert k. induction accs as [|acc accs IH]; intros k ps Hl; simpl; [eauto|].
  destruct acc as [ak|].
  - simpl in Hl. destruct (lookup_lt_is_Some_2 ps k) as [p Hp]; [lia|].
    unfold perm_at at 1 3. rewrite Hp. simpl.
    destruct (perm_transition_cases p ak rel) as [[p' ->]|[msg ->]]; simpl; [|right; by eexists].
    apply IH. rewrite insert_length. lia.
  - simpl. apply IH. simpl in Hl. lia.
Qed.

Lemma node_release_view n q accs n' path :
  node_release n q accs = Ret n' ->
  match ninfo n path, ninfo n' path with
  | Some (ps, pr), Some (ps', pr') =>
      match q with
      | Some q =>
          if decide (path = q) then ps' = ps /\ pr' = ProtNo
          else if decide (q `prefix_of` path) then ps' = ps /\ pr' = pr
          else pr' = pr /\ perms_release ps (rel_at (Some q) path) accs = Ret ps'
      | None => pr' = pr /\ perms_release ps Foreign accs = Ret ps'
      end
  | None, None => True
  | _, _ => False
  end.
Proof.
  revert n n' q. induction path as [|i path IH]; intros n n' q H; destruct n as [cs ps pr].
  - rewrite !ninfo_nil. cbn [node_release] in H. destruct q as [[|h t]|].
    + injection H as <-. rewrite decide_True by done. done.
    + apply obind_ret in H as (ps' & Hps & H). apply obind_ret in H as (cs' & Hcs & [= <-]).
      cbn [n_perms n_prot rel_at].
      rewrite decide_False by done. rewrite (decide_False (P := h :: t `prefix_of` [])) by apply prefix_nil_not.
      rewrite decide_True by apply prefix_nil. done.
    + apply obind_ret in H as (ps' & Hps & H). apply obind_ret in H as (cs' & Hcs & [= <-]). done.
  - rewrite !ninfo_cons. cbn [node_release] in H. destruct q as [[|h t]|].
    + injection H as <-. cbn [n_children]. destruct (cs !! i) as [c|]; [|done].
      destruct (ninfo c path) as [[ps' pr']|]; [|done]. rewrite decide_False by done.
      rewrite decide_True by apply prefix_nil. done.
    + apply obind_ret in H as (ps' & Hps & H). apply obind_ret in H as (cs' & Hcs & [= <-]). cbn [n_children].
      apply map_idx_m_ret in Hcs as [Hl Hcs]. cbn [Nat.add] in Hcs. destruct (cs !! i) as [c|] eqn:E.
      2:{ apply lookup_ge_None in E. rewrite lookup_ge_None_2 by lia. done. }
      destruct (Hcs i c E) as (c' & Hc' & ->). apply IH in Hc'.
      destruct (ninfo c path) as [[ps1 pr1]|], (ninfo c' path) as [[ps1' pr1']|]; try done.
      cbn [sub_path] in Hc'. destruct (Nat.eqb_spec h i) as [->|Hn].
      * destruct (decide (path = t)) as [->|Hne].
        { rewrite decide_True by done. done. }
        rewrite decide_False by congruence. destruct (decide (t `prefix_of` path)).
        { rewrite decide_True by (by apply prefix_cons). done. }
        rewrite decide_False by (intros ?%prefix_cons_inv_2; done). cbn [rel_at] in *.
        destruct (decide (path `prefix_of` t)).
        { rewrite decide_True by (by apply prefix_cons). done. }
        rewrite decide_False by (intros ?%prefix_cons_inv_2; done). done.
      * rewrite decide_False by congruence. rewrite decide_False by (intros ?%prefix_cons_inv_1; congruence).
        cbn [rel_at]. rewrite decide_False by (intros ?%prefix_cons_inv_1; congruence). done.
    + apply obind_ret in H as (ps' & Hps & H). apply obind_ret in H as (cs' & Hcs & [= <-]). cbn [n_children].
      apply map_idx_m_ret in Hcs as [Hl Hcs]. cbn [Nat.add] in Hcs. destruct (cs !! i) as [c|] eqn:E.
      2:{ apply lookup_ge_None in E. rewrite lookup_ge_None_2 by lia. done. }
      destruct (Hcs i c E) as (c' & Hc' & ->). by apply IH in Hc'.
Qed.

Lemma node_release_cases n q accs len :
  tree_len n len -> length accs = len ->
  (exists n', node_release n q accs = Ret n') \/ is_ub (node_release n q accs).
Proof.
  intros Hlen Hr. revert q. induction n as [cs ps pr IH] using Node_ind'. intros q.
  apply tree_len_cons in Hlen as [Hl Hcs]. simpl.
  assert ((exists n', (let! ps' := perms_release ps (relation_of q) accs in
     let! cs' := map_idx_m (fun i c => node_release c (sub_path q i) accs) 0 cs in Ret (mkNode cs' ps' pr)) = Ret n') \/
     is_ub (let! ps' := perms_release ps (relation_of q) accs in
     let! cs' := map_idx_m (fun i c => node_release c (sub_path q i) accs) 0 cs in Ret (mkNode cs' ps' pr))) as Hg.
  { destruct (perms_release_cases (relation_of q) accs ps) as [[ps' ->]|[msg ->]]; [lia| |right; by eexists].
    simpl. destruct (map_idx_m_cases (fun i c => node_release c (sub_path q i) accs) 0 cs)
      as [[cs' ->]|[msg ->]]; simpl; [| |right; by eexists].
    - intros k c Hk. rewrite Forall_lookup in IH, Hcs. apply (IH k c Hk). by eapply Hcs.
    - left. by eexists. }
  destruct q as [[|h t]|]; [left; by eexists|done|done].
Qed.
