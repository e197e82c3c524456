(** Protector bookkeeping: which nodes are protected, and which calls list them. *)
From Verif Require Export TreeMore.
From stdpp Require Import relations sorting.
From Coq Require Import ZifyBool ZifyN ZifyNat.
Local Open Scope Z_scope.

(** ** Histories with calls *)

(** Histories with open calls. The calls of all threads are kept in one list; any of them may retag or
    end. *)
Inductive CallOp :=
| CMem (op : MemOp TProv TFrame)
| CCall
| CRetag (i : nat) (ptr : Pointer TProv) (pt : PtrType) (fn_entry : bool) (lookup : ThinPtr TProv -> Outcome VTable)
| CEnd (i : nat).

(** memory operations that do not involve frames *)
Definition plain_op (op : MemOp TProv TFrame) : bool :=
  match op with OpRetag _ _ _ _ _ | OpEndCall _ => false | _ => true end.

(** one operation on memory and open calls *)
Definition call_op (T : Target) (s : TMem * list TFrame) (op : CallOp) : Outcome (TMem * list TFrame) :=
  let '(m, fs) := s in
  match op with
  | CMem op => if plain_op op then let! m' := mem_op (TreeOps T) m op in Ret (m', fs) else NoBehavior
  | CCall => Ret (m, fs ++ [mo_new_call (TreeOps T)])
  | CRetag i ptr pt fe lookup =>
      match fs !! i with
      | Some f => let! '(_, m', f') := mo_retag (TreeOps T) m f ptr pt fe lookup in Ret (m', <[i := f']> fs)
      | None => NoBehavior
      end
  | CEnd i =>
      match fs !! i with
      | Some f => let! m' := mo_end_call (TreeOps T) m f in Ret (m', delete i fs)
      | None => NoBehavior
      end
  end.
Definition call_run (T : Target) (s : TMem * list TFrame) (ops : list CallOp) : Outcome (TMem * list TFrame) :=
  fold_m (call_op T) ops s.

Definition is_prot (p : Perm) : Prop := exists x, p = Prot x.
Definition is_unprot (p : Perm) : Prop := exists x, p = Unprot x.

(** [L] lists the protectors that are to be released *)
Definition prot_inv (m : TMem) (L : list TProv) : Prop :=
  NoDup L /\
  (forall id path, (id, path) ∈ L -> exists a ps pr, m !! id = Some a /\ ninfo (al_extra a) path = Some (ps, pr) /\
     prot_yes pr = true /\ Forall is_prot ps) /\
  (forall id a path ps pr, m !! id = Some a -> al_live a = true -> ninfo (al_extra a) path = Some (ps, pr) ->
     (id, path) ∉ L -> pr = ProtNo /\ Forall is_unprot ps).

Lemma prot_inv_perm m L L' : L ≡ₚ L' -> prot_inv m L -> prot_inv m L'.
Proof.
  intros HP (H1 & H2 & H3). split; [|split].
  - by rewrite <- HP.
  - intros id path H. apply H2. by rewrite HP.
  - intros id a path ps pr Ha Hl Hi Hn. eapply H3; try done. by rewrite HP.
Qed.

Lemma matches_prot p pr : perm_matches p pr = true -> if prot_yes pr then is_prot p else is_unprot p.
Proof. destruct p; simpl; destruct (prot_yes pr); try done; intros _; by eexists. Qed.

Lemma transition_prot p ak rel p' : perm_transition p ak rel = Ret p' -> (is_prot p -> is_prot p') /\ (is_unprot p -> is_unprot p').
Proof.
  destruct p as [p|p]; simpl; intros H; apply obind_ret in H as (x & _ & [= <-]); split; intros [y Hy]; try done; by eexists.
Qed.

(** accesses keep protectors and the kind of permissions *)
Lemma access_kinds n q ak off size n' path :
  node_access n q ak off size = Ret n' ->
  match ninfo n path, ninfo n' path with
  | Some (ps, pr), Some (ps', pr') => pr' = pr /\ (Forall is_prot ps -> Forall is_prot ps') /\ (Forall is_unprot ps -> Forall is_unprot ps')
  | None, None => True
  | _, _ => False
  end.
Proof.
  intros H. apply (node_access_view _ _ _ _ _ _ path) in H.
  destruct (ninfo n path) as [[ps pr]|], (ninfo n' path) as [[ps' pr']|]; try done.
  destruct H as [-> H]. split; [done|]. apply perms_transition_ret in H as [Hl H].
  split; intros Hf; apply Forall_lookup; intros o p' Hp'; destruct (H o) as [H1 H2];
    (destruct (decide (off_in off size o)) as [Hr|Hr];
     [destruct (H1 Hr) as (p & p1 & Hp & Ht & Hp1); assert (p1 = p') as -> by congruence;
      apply transition_prot in Ht; apply Ht; by eapply (proj1 (Forall_lookup _ _) Hf)
     |rewrite H2 in Hp' by done; by eapply (proj1 (Forall_lookup _ _) Hf)]).
Qed.

(** a change of one allocation that keeps the shape, protectors and kinds *)
Lemma prot_inv_same m L id a a' :
  m !! id = Some a -> (al_live a' = true -> al_live a = true) ->
  (forall path, match ninfo (al_extra a) path, ninfo (al_extra a') path with
  | Some (ps, pr), Some (ps', pr') => pr' = pr /\ (Forall is_prot ps -> Forall is_prot ps') /\ (Forall is_unprot ps -> Forall is_unprot ps')
  | None, None => True
  | _, _ => False
  end) ->
  prot_inv m L -> prot_inv (<[id := a']> m) L.
Proof.
  intros Ha Hli Hv (H1 & H2 & H3). split; [done|]. split.
  - intros id1 path Hin. destruct (H2 _ _ Hin) as (a1 & ps & pr & Ha1 & Hi & Hy & Hp).
    destruct (decide (id1 = id)) as [->|Hn].
    + rewrite Ha in Ha1. injection Ha1 as <-. specialize (Hv path). rewrite Hi in Hv.
      destruct (ninfo (al_extra a') path) as [[ps' pr']|] eqn:E; [|done]. destruct Hv as (-> & Hv & _).
      exists a', ps', pr. rewrite list_lookup_insert by (by eapply lookup_lt_Some). auto.
    + exists a1, ps, pr. rewrite list_lookup_insert_ne by done. done.
  - intros id1 a1 path ps' pr' Ha1 Hl1 Hi Hn. destruct (decide (id1 = id)) as [->|Hne].
    + rewrite list_lookup_insert in Ha1 by (by eapply lookup_lt_Some). injection Ha1 as <-.
      specialize (Hv path). rewrite Hi in Hv. destruct (ninfo (al_extra a) path) as [[ps pr]|] eqn:E; [|done].
      destruct Hv as (-> & _ & Hv). destruct (H3 _ _ _ _ _ Ha (Hli Hl1) E Hn). auto.
    + rewrite list_lookup_insert_ne in Ha1 by done. by eapply H3.
Qed.

Lemma prot_inv_access m L id a q ak off size root data live :
  m !! id = Some a -> al_live a = true -> node_access (al_extra a) q ak off size = Ret root ->
  prot_inv m L ->
  prot_inv (<[id := mkAlloc data (al_addr a) (al_align a) (al_kind a) live root]> m) L.
Proof.
  intros Ha Hl Hacc. apply (prot_inv_same m L id a); [done|done|]. intros path. simpl. by eapply access_kinds.
Qed.

Lemma prot_inv_add m L id a parent perms prot cp root :
  m !! id = Some a -> add_node (al_extra a) parent (mkNode [] perms prot) = Ret (root, cp) ->
  forallb (fun p => perm_matches p prot) perms = true ->
  prot_inv m L ->
  prot_inv (<[id := set_extra a root]> m) (if prot_yes prot then (id, cp) :: L else L).
Proof.
  intros Ha Hadd Hm (H1 & H2 & H3). apply add_node_view in Hadd as (nd & _ & _ & Hnone & Hv).
  assert ((id, cp) ∉ L) as Hnew.
  { intros Hin. destruct (H2 _ _ Hin) as (a1 & ps & pr & Ha1 & Hi & _). congruence. }
  assert (if prot_yes prot then Forall is_prot perms else Forall is_unprot perms) as Hk.
  { rewrite forallb_forall in Hm. destruct (prot_yes prot) eqn:E; apply Forall_forall; intros x Hx;
      apply elem_of_list_In, Hm, matches_prot in Hx; by rewrite E in Hx. }
  assert (forall id1 path, (id1, path) ∈ (if prot_yes prot then (id, cp) :: L else L) ->
    (id1, path) ∈ L \/ (prot_yes prot = true /\ id1 = id /\ path = cp)) as HL.
  { intros id1 path Hin. destruct (prot_yes prot); [|by left].
    apply elem_of_cons in Hin as [[= -> ->]|?]; [by right|by left]. }
  split; [destruct (prot_yes prot); [by constructor|done]|]. split.
  - intros id1 path [Hin|(Hy & -> & ->)]%HL.
    + destruct (H2 _ _ Hin) as (a1 & ps & pr & Ha1 & Hi & Hp). destruct (decide (id1 = id)) as [->|Hn].
      * rewrite Ha in Ha1. injection Ha1 as <-. exists (set_extra a root), ps, pr.
        rewrite list_lookup_insert by (by eapply lookup_lt_Some). split; [done|]. split; [|done].
        simpl. rewrite Hv, decide_False by congruence. done.
      * exists a1, ps, pr. rewrite list_lookup_insert_ne by done. done.
    + rewrite Hy in Hk. exists (set_extra a root), perms, prot.
      rewrite list_lookup_insert by (by eapply lookup_lt_Some). split; [done|]. split; [|done].
      simpl. rewrite Hv, decide_True by done. done.
  - intros id1 a1 path ps pr Ha1 Hl1 Hi Hn.
    assert ((id1, path) ∉ L) as HnL.
    { intros Hin. apply Hn. destruct (prot_yes prot); [by right|done]. }
    destruct (decide (id1 = id)) as [->|Hne].
    + rewrite list_lookup_insert in Ha1 by (by eapply lookup_lt_Some). injection Ha1 as <-. simpl in *.
      rewrite Hv in Hi. destruct (decide (path = cp)) as [->|Hnp].
      * injection Hi as <- <-. destruct (prot_yes prot) eqn:E; [exfalso; apply Hn; by left|].
        split; [by destruct prot|done].
      * by eapply H3.
    + rewrite list_lookup_insert_ne in Ha1 by done. by eapply H3.
Qed.

Lemma unprotect_unprot p p' acc : perm_unprotect p = Ret (p', acc) -> is_unprot p'.
Proof. destruct p as [p|p]; [done|]. simpl. destruct (p_unprotect p) as [u ac]. intros [= <- _]. by eexists. Qed.

Lemma prot_inv_release m L id path a a' :
  m !! id = Some a -> release_alloc a path = Ret (a', tt) ->
  prot_inv m ((id, path) :: L) -> prot_inv (<[id := a']> m) L.
Proof.
  intros Ha Hrel (H1 & H2 & H3). apply release_alloc_view in Hrel as (ps1 & pr1 & l & root & -> & Hi1 & Hy1 & Hl & Hv).
  apply map_m_unprotect_ret in Hl as [Hll Hl].
  assert (Forall is_unprot (List.map fst l)) as Hul.
  { apply Forall_lookup. intros o p Ho. rewrite list_lookup_fmap in Ho. destruct (l !! o) as [[pu au]|] eqn:El; [|done].
    injection Ho as <-. destruct (lookup_lt_is_Some_2 ps1 o) as [p1 Hp1]. { rewrite <- Hll. by eapply lookup_lt_Some. }
    destruct (Hl _ _ Hp1) as (r & Hu & Hlo). rewrite El in Hlo. injection Hlo as <-. by eapply unprotect_unprot. }
  assert (forall p, p <> path -> match ninfo (al_extra a) p, ninfo root p with
  | Some (ps, pr), Some (ps', pr') => pr' = pr /\ (Forall is_prot ps -> Forall is_prot ps') /\ (Forall is_unprot ps -> Forall is_unprot ps')
  | None, None => True
  | _, _ => False
  end) as Hother.
  { intros p Hne. specialize (Hv p). destruct (ninfo (al_extra a) p) as [[ps0 pr0]|], (ninfo root p) as [[ps2 pr2]|]; try done.
    rewrite decide_False in Hv by done. destruct (decide _).
    - destruct Hv as [-> ->]. done.
    - destruct Hv as [-> Hv]. split; [done|]. apply perms_release_ret in Hv as [_ Hv].
      split; intros Hf; apply Forall_lookup; intros o p' Hp'; specialize (Hv o);
        (destruct (List.map snd l !! o) as [[ak|]|];
         [destruct Hv as (p0 & p1 & Hp & Ht & Hp1); assert (p1 = p') as -> by congruence;
          apply transition_prot in Ht; apply Ht; by eapply (proj1 (Forall_lookup _ _) Hf)
         |rewrite Hv in Hp'; by eapply (proj1 (Forall_lookup _ _) Hf)..]). }
  apply NoDup_cons in H1 as [Hnin Hnd]. split; [done|]. split.
  - intros id1 p1 Hin. destruct (H2 id1 p1) as (a1 & ps & pr & Ha1 & Hi & Hp); [by right|].
    destruct (decide (id1 = id)) as [->|Hn].
    + rewrite Ha in Ha1. injection Ha1 as <-. assert (p1 <> path) as Hne by (intros ->; done).
      specialize (Hother _ Hne). rewrite Hi in Hother. destruct (ninfo root p1) as [[ps2 pr2]|] eqn:E; [|done].
      destruct Hother as (-> & Ho & _). exists (set_extra a root), ps2, pr.
      rewrite list_lookup_insert by (by eapply lookup_lt_Some). destruct Hp. auto.
    + exists a1, ps, pr. rewrite list_lookup_insert_ne by done. done.
  - intros id1 a1 p1 ps pr Ha1 Hl1 Hi Hn. destruct (decide (id1 = id)) as [->|Hne].
    + rewrite list_lookup_insert in Ha1 by (by eapply lookup_lt_Some). injection Ha1 as <-. simpl in *.
      destruct (decide (p1 = path)) as [->|Hnp].
      * specialize (Hv path). rewrite Hi1, Hi, decide_True in Hv by done. rewrite Hl1 in Hv. destruct Hv as [-> ->]. done.
      * specialize (Hother _ Hnp). rewrite Hi in Hother. destruct (ninfo (al_extra a) p1) as [[ps0 pr0]|] eqn:E; [|done].
        destruct Hother as (-> & _ & Ho). destruct (H3 _ _ _ _ _ Ha Hl1 E) as [-> Hu]; [|auto].
        intros [[= Hx]|Hx]%elem_of_cons; done.
    + rewrite list_lookup_insert_ne in Ha1 by done. eapply H3; try done. intros [[= -> ->]|Hx]%elem_of_cons; done.
Qed.

Section Frames.
  Variable T : Target.
  Notation TO := (TreeOps T).

  Lemma prot_inv_reads m L id a cp len r1 r2 :
    m !! id = Some (set_extra a r1) -> al_live a = true -> rtc (reads cp len) r1 r2 ->
    prot_inv m L -> prot_inv (<[id := set_extra a r2]> m) L.
  Proof.
    intros Hm Hl Hr. revert m Hm. induction Hr as [r|r1 r r2 (o & H1 & Ho) H2 IH]; intros m Hm Hp.
    - by rewrite list_insert_id.
    - rewrite <- (list_insert_insert m id (set_extra a r2) (set_extra a r)).
      apply IH; [apply list_lookup_insert; by eapply lookup_lt_Some|].
      replace (set_extra a r) with (mkAlloc (al_data (set_extra a r1)) (al_addr (set_extra a r1)) (al_align (set_extra a r1))
        (al_kind (set_extra a r1)) (al_live a) r) by done.
      eapply prot_inv_access; [exact Hm|done|exact H1|done].
  Qed.

  Lemma prot_inv_plain m L op m' :
    plain_op op = true -> mem_op TO m op = Ret m' -> prot_inv m L -> prot_inv m' L.
  Proof.
    destruct op as [kind size align addr|ptr kind size align|ptr bytes align|ptr len align|f ptr pt fe vl|f];
      simpl; intros Hpl H Hp; try done.
    - apply obind_ret in H as ([p m1] & Ha & [= <-]). apply bm_allocate_ret in Ha as (_ & _ & _ & ->).
      destruct Hp as (H1 & H2 & H3). split; [done|]. split.
      + intros id path Hin. destruct (H2 _ _ Hin) as (a & ps & pr & Ha & Hi & Hp). exists a, ps, pr.
        split; [by apply lookup_app_l_Some|done].
      + intros id a path ps pr Ha Hl Hi Hn. apply lookup_app_Some in Ha as [Ha|[_ Ha]]; [by eapply H3|].
        destruct (id - length m)%nat; [|done]. injection Ha as <-. simpl in Hi. destruct path as [|i path].
        * injection Hi as <- <-. split; [done|]. unfold list_repeat. apply Forall_replicate. by eexists.
        * unfold ninfo in Hi. simpl in Hi. done.
    - apply bm_deallocate_ret in H as (id & path & a & root & Hpp & Ha & Hl & _ & _ & Hs & _ & Hh & ->).
      unfold tb_dealloc in Hh. apply obind_ret in Hh as (root' & Hacc & Hh).
      destruct (node_blocks_dealloc root') eqn:Eb; [done|]. injection Hh as ->.
      by eapply prot_inv_access.
    - apply bm_store_ret in H as (_ & [(-> & ->)|(Hne & id & path & off & a & root & data & Hpp & Ha & Hl & _ & Ho & Hh & Hd & ->)]);
        [done|]. by eapply prot_inv_access.
    - apply obind_ret in H as ([p m1] & H & [= <-]).
      apply bm_load_ret in H as (_ & [(_ & _ & ->)|(Hne & id & path & off & a & root & Hpp & Ha & Hl & _ & Ho & Hh & Hd & ->)]);
        [done|]. by eapply prot_inv_access.
  Qed.

  Lemma retag_frame m f ptr pt fe lk p m' f' :
    mo_retag TO m f ptr pt fe lk = Ret (p, m', f') ->
    exists new, f' = f ++ new /\ (forall L, prot_inv m L -> prot_inv m' (new ++ L)).
  Proof.
    intros H. simpl in H. apply tb_retag_ret in H as [(_ & _ & -> & ->)|(s & p' & Hs & Hr & ->)].
    { exists []. by rewrite app_nil_r. }
    apply reborrow_ret in Hr as [(_ & _ & _ & -> & ->)|(id & parent & a & a' & cp & Hpp & Ha & Hin & Hr & -> & -> & ->)].
    { exists []. by rewrite app_nil_r. }
    exists (if prot_yes (rs_protected s) then [(id, cp)] else []). split.
    { destruct (prot_yes _); [done|]. by rewrite app_nil_r. }
    intros L HL.
    apply reborrow_alloc_ret in Hr as (off & perms & root1 & root2 & Hoff & Hlen & Hperms & Hm & Hadd & Hacc & ->).
    pose proof (prot_inv_add _ _ _ _ _ _ _ _ _ Ha Hadd Hm HL) as H1.
    assert ((if prot_yes (rs_protected s) then [(id, cp)] else []) ++ L =
      (if prot_yes (rs_protected s) then (id, cp) :: L else L)) as -> by (by destruct (prot_yes _)).
    rewrite <- (list_insert_insert m id (set_extra a root2) (set_extra a root1)).
    unfold reborrow_accesses in Hacc. destruct (decide (rs_inside s = [])) as [He|Hne].
    { rewrite He in Hacc. injection Hacc as <-. by rewrite list_insert_insert. }
    apply reborrow_reads in Hacc. eapply prot_inv_reads; [|by apply Hin|exact Hacc|exact H1].
    apply list_lookup_insert. by eapply lookup_lt_Some.
  Qed.

  Lemma end_call_inv m f m' L :
    mo_end_call TO m f = Ret m' -> prot_inv m (f ++ L) -> prot_inv m' L.
  Proof.
    simpl. revert m. induction f as [|[id path] f IH]; intros m H Hp; simpl in H.
    - injection H as <-. done.
    - apply obind_ret in H as (m1 & H1 & H). apply (IH m1 H).
      unfold mem_release_protector in H1. apply obind_ret in H1 as ([m2 []] & H1 & [= <-]).
      apply mutate_at_ret in H1 as (a & a' & Ha & Hr & ->). by eapply prot_inv_release.
  Qed.

  Lemma call_op_inv m fs op m' fs' :
    call_op T (m, fs) op = Ret (m', fs') -> prot_inv m (concat fs) -> prot_inv m' (concat fs').
  Proof.
    destruct op as [op| |i ptr pt fe lk|i]; simpl; intros H Hp.
    - destruct (plain_op op) eqn:E; [|done]. apply obind_ret in H as (m1 & H & [= <- <-]). by eapply prot_inv_plain.
    - injection H as <- <-. rewrite concat_app. simpl. by rewrite !app_nil_r.
    - destruct (fs !! i) as [f|] eqn:E; [|done]. apply obind_ret in H as ([[p m1] f1] & H & [= <- <-]).
      destruct (retag_frame _ _ _ _ _ _ _ _ _ H) as (new & -> & Hnew). eapply prot_inv_perm; [|by apply Hnew].
      rewrite <- (take_drop_middle fs i f E) at 1. rewrite insert_take_drop by (by eapply lookup_lt_Some).
      rewrite !concat_app. simpl. rewrite <- !(assoc_L (++)), Permutation_app_swap_app.
      apply Permutation_app_head, Permutation_app_swap_app.
    - destruct (fs !! i) as [f|] eqn:E; [|done]. apply obind_ret in H as (m1 & H & [= <- <-]).
      eapply end_call_inv; [exact H|]. eapply prot_inv_perm; [|exact Hp].
      rewrite <- (take_drop_middle fs i f E) at 1. rewrite delete_take_drop, !concat_app. simpl.
      apply Permutation_app_swap_app.
  Qed.

  Theorem call_run_inv ops m fs :
    call_run T (mo_new TO, []) ops = Ret (m, fs) -> prot_inv m (concat fs).
  Proof.
    unfold call_run. intros H.
    assert (forall ops s s', prot_inv (fst s) (concat (snd s)) -> fold_m (call_op T) ops s = Ret s' ->
      prot_inv (fst s') (concat (snd s'))) as Hg.
    { clear. induction ops as [|op ops IH]; intros s s' Hs H; simpl in H.
      - by injection H as <-.
      - apply obind_ret in H as (s1 & H1 & H). eapply IH; [|exact H]. destruct s, s1. by eapply call_op_inv. }
    refine (Hg ops (mo_new TO, []) (m, fs) _ H). simpl. split; [constructor|]. split.
    - intros ? ? ?%elem_of_nil. done.
    - intros id a ? ? ? Ha. by rewrite lookup_nil in Ha.
  Qed.

  Lemma call_op_steps m fs op m' fs' :
    call_op T (m, fs) op = Ret (m', fs') -> rtc (tb_step T (fun _ => True)) m m'.
  Proof.
    destruct op as [op| |i ptr pt fe lk|i]; simpl; intros H.
    - destruct (plain_op op) eqn:E; [|done]. apply obind_ret in H as (m1 & H & [= <- <-]).
      eapply tb_steps_impl; [|by eapply mem_op_steps]. done.
    - injection H as <- <-. constructor.
    - destruct (fs !! i) as [f|] eqn:E; [|done]. apply obind_ret in H as ([[p m1] f1] & H & [= <- <-]).
      by eapply tb_retag_steps.
    - destruct (fs !! i) as [f|] eqn:E; [|done]. apply obind_ret in H as (m1 & H & [= <- <-]).
      eapply tb_steps_impl; [|eapply (mem_op_steps T m (OpEndCall f)); exact H]. done.
  Qed.

  Lemma call_run_steps ops s s' :
    call_run T s ops = Ret s' -> rtc (tb_step T (fun _ => True)) (fst s) (fst s').
  Proof.
    unfold call_run. revert s. induction ops as [|op ops IH]; intros s H; simpl in H.
    - injection H as <-. constructor.
    - apply obind_ret in H as (s1 & H1 & H). etrans; [|by eapply IH]. destruct s, s1. by eapply call_op_steps.
  Qed.

  Lemma call_run_len ops m fs : call_run T (mo_new TO, []) ops = Ret (m, fs) -> tb_len m.
  Proof.
    intros H. apply call_run_steps in H. eapply tb_steps_len; [exact H|].
    intros id a Ha. simpl in Ha. by rewrite lookup_nil in Ha.
  Qed.

  (** ending a call removes exactly its protectors *)
  Lemma end_call_other m f m' id path :
    mo_end_call TO m f = Ret m' -> (id, path) ∉ f -> mem_prot m' id path = mem_prot m id path.
  Proof.
    simpl. revert m. induction f as [|[id1 path1] f IH]; intros m H Hn; simpl in H.
    - injection H as <-. done.
    - apply obind_ret in H as (m1 & H1 & H). apply not_elem_of_cons in Hn as [Hne Hn]. rewrite (IH m1 H Hn).
      unfold mem_release_protector in H1. apply obind_ret in H1 as ([m2 []] & H1 & [= <-]).
      apply mutate_at_ret in H1 as (a & a' & Ha & Hr & ->). rewrite (mem_prot_insert _ _ _ _ _ _ Ha).
      destruct (decide (id = id1)) as [->|]; [|done].
      apply release_alloc_view in Hr as (ps1 & pr1 & l & root & -> & Hi1 & Hy1 & Hl & Hv).
      unfold mem_prot. rewrite Ha. simpl. specialize (Hv path).
      destruct (ninfo (al_extra a) path) as [[ps0 pr0]|], (ninfo root path) as [[ps2 pr2]|]; try done.
      rewrite decide_False in Hv by congruence. destruct (decide _); destruct Hv as [? ?]; by subst.
  Qed.

  (** releasing listed protectors never panics *)
  Lemma access_node_total {O} path (g : Node -> Outcome (Node * O)) n nd nd' o :
    node_at n path = Some nd -> g nd = Ret (nd', o) -> exists n', access_node path g n = Ret (n', o).
  Proof.
    revert n. induction path as [|i path IH]; intros n H Hg; simpl in *.
    - injection H as ->. eauto.
    - destruct n as [cs ps pr]. simpl in H. destruct (cs !! i) as [c|]; [|done]. simpl.
      destruct (IH c H Hg) as [n' ->]. simpl. eauto.
  Qed.

  Lemma map_m_unprotect_total ps : Forall is_prot ps -> exists l, map_m perm_unprotect ps = Ret l.
  Proof.
    induction 1 as [|p ps [x ->] _ [l IH]]; [by eexists|]. simpl. destruct (p_unprotect x) as [u acc]. simpl.
    rewrite IH. simpl. eauto.
  Qed.

  Lemma release_total a path ps pr :
    tree_len (al_extra a) (length (al_data a)) ->
    ninfo (al_extra a) path = Some (ps, pr) -> prot_yes pr = true -> Forall is_prot ps ->
    (exists a', release_alloc a path = Ret (a', tt)) \/ is_ub (release_alloc a path).
  Proof.
    intros Hlen Hi Hy Hp. unfold release_alloc. destruct (map_m_unprotect_total ps Hp) as [l Hl].
    unfold ninfo in Hi. destruct (node_at (al_extra a) path) as [[cs ps0 pr0]|] eqn:Hnd; [|done].
    injection Hi as -> ->. simpl in *.
    set (g := fun n => match n with mkNode cs ps prot =>
                    let! _ := assert_ (prot_yes prot) in
                    let! l := map_m perm_unprotect ps in
                    Ret (mkNode cs (List.map fst l) prot, List.map snd l) end).
    destruct (access_node_total path g (al_extra a) _ (mkNode cs (List.map fst l) pr) (List.map snd l) Hnd) as [n' Hn'].
    { simpl. rewrite Hy, Hl. done. }
    rewrite Hn'. simpl. destruct (al_live a); [|left; simpl; eauto].
    destruct (node_release_cases n' (Some path) (List.map snd l) (length (al_data a))) as [[n2 ->]|[msg ->]].
    - intros p ps1 pr1 Hi1. apply access_node_update in Hn' as (nd & nd' & H1 & H2 & Hv).
      2:{ intros [cs1 ps2 pr2] nd' o Hf. apply obind_ret in Hf as ([] & _ & Hf).
          apply obind_ret in Hf as (l1 & _ & [= <- <-]). done. }
      rewrite Hnd in H1. injection H1 as <-. simpl in H2. rewrite Hy, Hl in H2. simpl in H2. injection H2 as <-.
      rewrite Hv in Hi1. destruct (decide (p = path)) as [->|].
      + injection Hi1 as <- <-. simpl. rewrite map_length. apply map_m_unprotect_ret in Hl as [-> _].
        eapply (Hlen path). unfold ninfo. by rewrite Hnd.
      + by eapply Hlen.
    - rewrite map_length. apply map_m_unprotect_ret in Hl as [-> _]. eapply (Hlen path). unfold ninfo. by rewrite Hnd.
    - left. simpl. eauto.
    - right. by eexists.
  Qed.

  Theorem end_call_no_panic m f L :
    tb_len m -> prot_inv m (f ++ L) ->
    (exists m', mo_end_call TO m f = Ret m') \/ is_ub (mo_end_call TO m f).
  Proof.
    simpl. revert m. induction f as [|[id path] f IH]; intros m Hlen Hp; simpl.
    - left. eauto.
    - pose proof Hp as (_ & H2 & _). destruct (H2 id path) as (a & ps & pr & Ha & Hi & Hy & Hpp); [by left|].
      unfold mutate_at. rewrite Ha.
      destruct (release_total a path ps pr (Hlen _ _ Ha) Hi Hy Hpp) as [[a' Hr]|[msg Hr]]; rewrite Hr; simpl; [|right; by eexists].
      apply IH.
      + eapply tb_step_len; [|exact Hlen]. by apply (ts_release T (fun _ => True) m id path a a').
      + by eapply prot_inv_release.
  Qed.
End Frames.
