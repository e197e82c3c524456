(** Histories of Tree Borrows memory as sequences of elementary steps. *)
From Verif Require Export TreeProofs.
From stdpp Require Import relations.
From Coq Require Import ZifyBool ZifyN ZifyNat.

(** the permissions a new node can start with *)
Definition perm_fresh (p : Perm) : Prop :=
  match p with
  | Unprot UFrozen | Unprot UReserved | Unprot UCell | Unprot UReservedIm => True
  | Prot (PFrozen false) | Prot (PReserved false false) | Prot PCell => True
  | _ => False
  end.

Section Steps.
  Variable T : Target.

  (** elementary steps; [R] says which protectors may be released *)
  Inductive tb_step (R : TProv -> Prop) : TMem -> TMem -> Prop :=
  | ts_alloc m kind size align addr p m' :
      bm_allocate T m kind size align [] (new_root size) addr = Ret (p, m') -> tb_step R m m'
  | ts_access m id a q ak off size root data live :
      m !! id = Some a -> al_live a = true ->
      node_access (al_extra a) (Some q) ak off size = Ret root ->
      (N.to_nat off + N.to_nat size <= length (al_data a))%nat ->
      length data = length (al_data a) ->
      (live = false -> ak = AkWrite /\ off = 0%N /\ size = al_size a /\ node_blocks_dealloc root = false) ->
      tb_step R m (<[id := mkAlloc data (al_addr a) (al_align a) (al_kind a) live root]> m)
  | ts_add m id a parent perms prot cp root :
      m !! id = Some a ->
      add_node (al_extra a) parent (mkNode [] perms prot) = Ret (root, cp) ->
      length perms = length (al_data a) ->
      Forall (fun p => perm_matches p prot = true /\ perm_fresh p) perms ->
      tb_step R m (<[id := set_extra a root]> m)
  | ts_release m id path a a' :
      m !! id = Some a -> R (id, path) -> release_alloc a path = Ret (a', tt) ->
      tb_step R m (<[id := a']> m).

  Lemma tb_step_impl (R R' : TProv -> Prop) m m' :
    (forall pr, R pr -> R' pr) -> tb_step R m m' -> tb_step R' m m'.
  Proof.
    intros HR H. destruct H; [eapply ts_alloc|eapply ts_access|eapply ts_add|eapply ts_release]; eauto.
  Qed.
  Lemma tb_steps_impl (R R' : TProv -> Prop) m m' :
    (forall pr, R pr -> R' pr) -> rtc (tb_step R) m m' -> rtc (tb_step R') m m'.
  Proof. intros HR. apply (rtc_subrel). intros x y. by apply tb_step_impl. Qed.

  Lemma settings_fresh ptr pt fe lookup s :
    settings_new ptr pt fe lookup = Ret (Some s) ->
    perm_fresh (rs_outside s) /\ Forall perm_fresh (rs_inside s).
  Proof.
    unfold settings_new. destruct (safe_pointee pt) as [pi|]; [|done].
    destruct (match pt with PRef _ _ => _ | _ => _ end) eqn:E0; [done|]. intros H.
    apply obind_ret in H as (mask & _ & [= <-]). simpl.
    destruct fe; destruct pt as [[] ?|?| | |]; simpl;
      (split; [destruct (pi_freeze pi); done|apply List.Forall_map, Forall_forall; intros [] _; done]).
  Qed.

  Lemma reborrow_perms s off perms n :
    perm_fresh (rs_outside s) -> Forall perm_fresh (rs_inside s) ->
    (if (0 <? length (rs_inside s))%nat
     then write_subslice (list_repeat (rs_outside s) n) off (rs_inside s)
     else Ret (list_repeat (rs_outside s) n)) = Ret perms ->
    Forall perm_fresh perms.
  Proof.
    intros Ho Hi H. assert (Forall perm_fresh (list_repeat (rs_outside s) n)) as Hr.
    { unfold list_repeat. by apply Forall_replicate. }
    destruct (_ <? _)%nat; [|by injection H as <-].
    apply write_subslice_ret in H as [_ ->]. apply Forall_app. split; [by apply Forall_take|].
    apply Forall_app. split; [done|by apply Forall_drop].
  Qed.

  Lemma insert_insert_same {A} (l : list A) i x y : <[i := y]> (<[i := x]> l) = <[i := y]> l.
  Proof. apply list_insert_insert. Qed.

  (** the accesses of a reborrow *)
  Lemma reborrow_accesses_steps R (m : TMem) id a cp inside off root1 root2 k :
    m !! id = Some (set_extra a root1) -> al_live a = true ->
    (N.to_nat off + k + length inside <= length (al_data a))%nat ->
    fold_m (fun root '(idx, perm) =>
              match perm_init_access perm with
              | Some ak => node_access root (Some cp) ak (off + N.of_nat idx)%N 1%N
              | None => Ret root
              end) (zip (seq k (length inside)) inside) root1 = Ret root2 ->
    rtc (tb_step R) m (<[id := set_extra a root2]> m).
  Proof.
    revert m root1 k. induction inside as [|perm inside IH]; intros m root1 k Hm Hl Hlen H; simpl in H.
    - injection H as <-. rewrite list_insert_id by done. constructor.
    - apply obind_ret in H as (root & H1 & H).
      destruct (perm_init_access perm) as [ak|].
      + eapply rtc_l; [eapply (ts_access R m id _ cp ak _ _ root (al_data a) (al_live a)); [exact Hm|done|exact H1| |done|congruence]|].
        { simpl in *. lia. }
        change (mkAlloc _ _ _ _ _ root) with (set_extra a root).
        rewrite <- (list_insert_insert m id (set_extra a root2) (set_extra a root)).
        eapply (IH _ root (S k)); [|done|simpl in Hlen; lia|exact H].
        apply list_lookup_insert. by eapply lookup_lt_Some.
      + injection H1 as ->. eapply (IH m root (S k)); eauto. simpl in Hlen. lia.
  Qed.

  Lemma reborrow_steps R m f ptr s p m' f' :
    perm_fresh (rs_outside s) -> Forall perm_fresh (rs_inside s) ->
    reborrow m f ptr s = Ret (p, m', f') -> rtc (tb_step R) m m'.
  Proof.
    intros Ho Hi [(_ & _ & _ & -> & _)|(id & parent & a & a' & cp & Hp & Ha & Hin & Hr & -> & -> & ->)]%reborrow_ret;
      [constructor|].
    apply reborrow_alloc_ret in Hr as (off & perms & root1 & root2 & Hoff & Hlen & Hperms & Hm & Hadd & Hacc & ->).
    eapply rtc_l; [eapply (ts_add R m id a parent perms (rs_protected s)); [done|exact Hadd|done|]|].
    { pose proof (reborrow_perms s off perms (al_size a) Ho Hi Hperms) as Hf.
      apply Forall_forall. intros x Hx. split; [|by apply (proj1 (Forall_forall _ _) Hf)].
      apply forallb_forall with (x := x) in Hm; [done|]. by apply elem_of_list_In. }
    unfold reborrow_accesses in Hacc.
    rewrite <- (list_insert_insert m id (set_extra a root2) (set_extra a root1)).
    destruct (decide (rs_inside s = [])) as [He|Hne].
    { rewrite He in Hacc. simpl in Hacc. injection Hacc as <-.
      rewrite list_insert_insert. constructor. }
    destruct (Hin Hne) as [Hl [H1 H2]].
    eapply reborrow_accesses_steps; [|exact Hl| |exact Hacc].
    - apply list_lookup_insert. by eapply lookup_lt_Some.
    - unfold al_size in H2. lia.
  Qed.

  Lemma release_steps (R : TProv -> Prop) m pr m' :
    R pr -> mem_release_protector m pr = Ret m' -> tb_step R m m'.
  Proof.
    destruct pr as [id path]. unfold mem_release_protector. intros HR H.
    apply obind_ret in H as ([m1 []] & H & [= <-]). apply mutate_at_ret in H as (a & a' & Ha & Hr & ->).
    by eapply ts_release.
  Qed.

  Lemma mem_op_steps m op m' :
    mem_op (TreeOps T) m op = Ret m' -> rtc (tb_step (fun pr => pr ∈ releases op)) m m'.
  Proof.
    destruct op as [kind size align addr|ptr kind size align|ptr bytes align|ptr len align|f ptr pt fe vl|f];
      simpl; intros H.
    - apply obind_ret in H as ([p m1] & Ha & [= <-]). apply rtc_once. by eapply ts_alloc.
    - apply bm_deallocate_ret in H as (id & path & a & root & Hp & Ha & Hl & _ & _ & Hs & _ & Hh & ->).
      unfold tb_dealloc in Hh. apply obind_ret in Hh as (root' & Hacc & Hh).
      destruct (node_blocks_dealloc root') eqn:Eb; [done|]. injection Hh as ->.
      apply rtc_once. eapply ts_access; [done|done|exact Hacc| |done|].
      + rewrite Hs. unfold al_size. lia.
      + done.
    - apply bm_store_ret in H as (_ & [(-> & ->)|(Hne & id & path & off & a & root & data & Hp & Ha & Hl & [H1 H2] & Ho & Hh & Hd & ->)]);
        [constructor|].
      apply rtc_once. eapply ts_access; [done|done|exact Hh| | |].
      + unfold al_size in H2. lia.
      + by apply write_subslice_length in Hd.
      + congruence.
    - apply obind_ret in H as ([p m1] & H & [= <-]).
      apply bm_load_ret in H as (_ & [(_ & _ & ->)|(Hne & id & path & off & a & root & Hp & Ha & Hl & [H1 H2] & Ho & Hh & Hd & ->)]);
        [constructor|].
      apply rtc_once. eapply ts_access; [done|done|exact Hh| |done|].
      + unfold al_size in H2. lia.
      + congruence.
    - apply obind_ret in H as ([[p m1] f1] & H & [= <-]).
      apply tb_retag_ret in H as [(_ & _ & -> & _)|(s & p' & Hs & Hr & _)]; [constructor|].
      destruct (settings_fresh _ _ _ _ _ Hs). by eapply reborrow_steps.
    - assert (forall g m, (forall x, x ∈ g -> x ∈ f) -> fold_m mem_release_protector g m = Ret m' ->
        rtc (tb_step (fun pr => pr ∈ f)) m m') as Hg; [|by apply (Hg f m)].
      clear. intros g. induction g as [|pr g IH]; intros m Hsub H; simpl in H.
      + injection H as <-. constructor.
      + apply obind_ret in H as (m1 & H1 & H). eapply rtc_l.
        * apply (release_steps _ _ pr); [|exact H1]. apply Hsub. by constructor.
        * apply IH; [|done]. intros x Hx. apply Hsub. by constructor.
  Qed.

  Lemma mem_run_steps m ops m' :
    mem_run (TreeOps T) m ops = Ret m' -> rtc (tb_step (fun pr => pr ∈ released ops)) m m'.
  Proof.
    unfold mem_run, released. revert m. induction ops as [|op ops IH]; intros m H; simpl in H.
    - injection H as <-. constructor.
    - apply obind_ret in H as (m1 & H1 & H). simpl. etrans.
      + eapply tb_steps_impl; [|by eapply mem_op_steps]. intros pr Hpr. simpl. apply elem_of_app. by left.
      + eapply tb_steps_impl; [|by eapply IH]. intros pr Hpr. simpl. apply elem_of_app. by right.
  Qed.

  (** ** Views of the steps *)

  Lemma map_m_unprotect_ret ps l :
    map_m perm_unprotect ps = Ret l ->
    length l = length ps /\ forall o p, ps !! o = Some p -> exists r, perm_unprotect p = Ret r /\ l !! o = Some r.
  Proof.
    revert l. induction ps as [|p ps IH]; intros l H; simpl in H.
    - injection H as <-. split; [done|]. intros o p Hp. by rewrite lookup_nil in Hp.
    - apply obind_ret in H as (r & Hr & H). apply obind_ret in H as (l' & Hl & [= <-]).
      destruct (IH _ Hl) as [Hlen Ho]. split; [simpl; lia|]. intros [|o] p' Hp'; simpl in *.
      + injection Hp' as <-. eauto.
      + by apply Ho.
  Qed.

  Lemma release_alloc_view a path a' :
    release_alloc a path = Ret (a', tt) ->
    exists ps pr l root,
      a' = set_extra a root /\ ninfo (al_extra a) path = Some (ps, pr) /\ prot_yes pr = true /\
      map_m perm_unprotect ps = Ret l /\
      forall p, match ninfo (al_extra a) p, ninfo root p with
                | Some (ps0, pr0), Some (ps1, pr1) =>
                    if decide (p = path) then ps1 = List.map fst l /\ pr1 = (if al_live a then ProtNo else pr)
                    else if decide (al_live a = false \/ path `prefix_of` p) then ps1 = ps0 /\ pr1 = pr0
                    else pr1 = pr0 /\ perms_release ps0 (rel_at (Some path) p) (List.map snd l) = Ret ps1
                | None, None => True
                | _, _ => False
                end.
  Proof.
    unfold release_alloc. intros H. apply obind_ret in H as ([r1 accs] & H1 & H).
    apply obind_ret in H as (r2 & H2 & [= <-]).
    apply access_node_update in H1 as (nd & nd' & Hnd & Hf & Hv).
    2:{ intros [cs ps pr] nd' o Hf. apply obind_ret in Hf as ([] & _ & Hf).
        apply obind_ret in Hf as (l & _ & [= <- <-]). done. }
    destruct nd as [cs ps pr]. apply obind_ret in Hf as ([] & Has & Hf).
    apply obind_ret in Hf as (l & Hl & [= <- <-]).
    exists ps, pr, l, r2. split; [done|]. split; [unfold ninfo; by rewrite Hnd|].
    split; [unfold assert_ in Has; by destruct (prot_yes pr)|]. split; [done|].
    assert (ninfo (al_extra a) path = Some (ps, pr)) as Hinfo by (unfold ninfo; by rewrite Hnd).
    intros p. destruct (al_live a) eqn:El.
    - apply (node_release_view _ _ _ _ p) in H2. rewrite Hv in H2. cbn [n_perms n_prot] in H2.
      destruct (decide (p = path)) as [->|Hn].
      + rewrite Hinfo. destruct (ninfo r2 path) as [[ps1 pr1]|]; [|done]. done.
      + destruct (ninfo (al_extra a) p) as [[ps0 pr0]|], (ninfo r2 p) as [[ps1 pr1]|]; try done.
        destruct (decide (path `prefix_of` p)).
        * rewrite decide_True by tauto. done.
        * rewrite decide_False by (intros [?|?]; done). done.
    - injection H2 as <-. rewrite Hv. cbn [n_perms n_prot]. destruct (decide (p = path)) as [->|Hn].
      + by rewrite Hinfo.
      + destruct (ninfo (al_extra a) p) as [[ps0 pr0]|]; [|done].
        rewrite decide_True by tauto. done.
  Qed.

  (** all nodes of an allocation cover all its bytes *)
  Definition tb_len (m : TMem) : Prop :=
    forall id a, m !! id = Some a -> tree_len (al_extra a) (length (al_data a)).

  Lemma tb_len_insert m id a a' :
    m !! id = Some a -> tb_len m -> length (al_data a') = length (al_data a) ->
    tree_len (al_extra a') (length (al_data a)) -> tb_len (<[id := a']> m).
  Proof.
    intros Ha Hm Hl Ht id1 a1 H1. destruct (decide (id1 = id)) as [->|Hn].
    - rewrite list_lookup_insert in H1 by (by eapply lookup_lt_Some). injection H1 as <-. by rewrite Hl.
    - rewrite list_lookup_insert_ne in H1 by done. by eapply Hm.
  Qed.

  Lemma tb_step_len R m m' : tb_step R m m' -> tb_len m -> tb_len m'.
  Proof.
    intros Hs Hm. destruct Hs as [m kind size align addr p m' H|m id a q ak off size root data live Ha Hl Hacc Hr Hd Hlv
      |m id a parent perms prot cp root Ha Hadd Hlen Hf|m id path a a' Ha HR Hrel].
    - apply bm_allocate_ret in H as (_ & _ & _ & ->). intros id a Ha.
      apply lookup_app_Some in Ha as [Ha|[_ Ha]]; [by eapply Hm|].
      destruct (id - length m)%nat; [|done]. injection Ha as <-. simpl. unfold new_root.
      apply tree_len_cons. split; [|done]. rewrite !list_repeat_length. done.
    - eapply tb_len_insert; [done|done|done|]. simpl. eapply node_access_len; [exact Hacc|]. by eapply Hm.
    - eapply tb_len_insert; [done|done|done|]. simpl. intros p ps pr Hp.
      apply add_node_view in Hadd as (nd & _ & _ & _ & Hv). rewrite Hv in Hp.
      destruct (decide (p = cp)); [by injection Hp as <- <-|]. by eapply Hm.
    - apply release_alloc_view in Hrel as (ps & pr & l & root & -> & Hi & _ & Hl & Hv).
      eapply tb_len_insert; [done|done|done|]. simpl. intros p ps1 pr1 Hp.
      specialize (Hv p). rewrite Hp in Hv. destruct (ninfo (al_extra a) p) as [[ps0 pr0]|] eqn:E; [|done].
      destruct (decide (p = path)) as [->|Hn].
      + destruct Hv as [-> _]. rewrite map_length. apply map_m_unprotect_ret in Hl as [-> _]. by eapply Hm.
      + destruct (decide _).
        * destruct Hv as [-> _]. by eapply Hm.
        * destruct Hv as [_ Hv]. apply perms_release_ret in Hv as [-> _]. by eapply Hm.
  Qed.

  Lemma tb_steps_len R m m' : rtc (tb_step R) m m' -> tb_len m -> tb_len m'.
  Proof. induction 1; [done|]. intros. by eauto using tb_step_len. Qed.

  Lemma tb_len_run ops m : mem_run (TreeOps T) (mo_new (TreeOps T)) ops = Ret m -> tb_len m.
  Proof.
    intros H. apply mem_run_steps in H. eapply tb_steps_len; [exact H|].
    intros id a Ha. simpl in Ha. by rewrite lookup_nil in Ha.
  Qed.

  (** ** Evolution of one permission *)

  Lemma mem_perm_insert m id a a' id1 path o :
    m !! id = Some a ->
    mem_perm (<[id := a']> m) id1 path o =
      if decide (id1 = id) then match ninfo (al_extra a') path with Some (ps, _) => ps !! o | None => None end
      else mem_perm m id1 path o.
  Proof.
    intros Ha. unfold mem_perm. destruct (decide (id1 = id)) as [->|Hn].
    - by rewrite list_lookup_insert by (by eapply lookup_lt_Some).
    - by rewrite list_lookup_insert_ne.
  Qed.
  Lemma mem_prot_insert m id a a' id1 path :
    m !! id = Some a ->
    mem_prot (<[id := a']> m) id1 path =
      if decide (id1 = id) then match ninfo (al_extra a') path with Some (_, pr) => Some pr | None => None end
      else mem_prot m id1 path.
  Proof.
    intros Ha. unfold mem_prot. destruct (decide (id1 = id)) as [->|Hn].
    - by rewrite list_lookup_insert by (by eapply lookup_lt_Some).
    - by rewrite list_lookup_insert_ne.
  Qed.

  Lemma tb_step_perm R m m' id path o p :
    tb_step R m m' -> mem_perm m id path o = Some p ->
    exists p', mem_perm m' id path o = Some p' /\
      (p' = p \/ (exists ak rel, perm_transition p ak rel = Ret p') \/
       (R (id, path) /\ exists acc, perm_unprotect p = Ret (p', acc))).
  Proof.
    intros Hs Hp. destruct Hs as [m kind size align addr ptr m' H|m id1 a q ak off size root data live Ha Hl Hacc Hr Hd Hlv
      |m id1 a parent perms prot cp root Ha Hadd Hlen Hf|m id1 path1 a a' Ha HR Hrel].
    - apply bm_allocate_ret in H as (_ & _ & _ & ->). exists p. split; [|by left]. unfold mem_perm in *.
      destruct (m !! id) as [a|] eqn:E; [|done]. by rewrite (lookup_app_l_Some _ _ _ _ E).
    - rewrite (mem_perm_insert _ _ _ _ _ _ _ Ha). destruct (decide (id = id1)) as [->|]; [|eauto]. simpl.
      unfold mem_perm in Hp. rewrite Ha in Hp. destruct (ninfo (al_extra a) path) as [[ps pr]|] eqn:E; [|done].
      destruct (node_access_perm _ _ _ _ _ _ _ _ _ _ _ Hacc E Hp) as (ps' & p' & Hi & Ho & H1 & H2).
      rewrite Hi. exists p'. split; [done|]. destruct (decide (off_in off size o)); [right; left; eauto|left; auto].
    - rewrite (mem_perm_insert _ _ _ _ _ _ _ Ha). destruct (decide (id = id1)) as [->|]; [|eauto]. simpl.
      unfold mem_perm in Hp. rewrite Ha in Hp. destruct (ninfo (al_extra a) path) as [[ps pr]|] eqn:E; [|done].
      apply add_node_view in Hadd as (nd & _ & _ & Hn & Hv). rewrite Hv.
      rewrite decide_False by congruence. rewrite E. eauto.
    - rewrite (mem_perm_insert _ _ _ _ _ _ _ Ha). destruct (decide (id = id1)) as [->|]; [|eauto].
      apply release_alloc_view in Hrel as (ps1 & pr1 & l & root & -> & Hi & _ & Hl & Hv). simpl.
      unfold mem_perm in Hp. rewrite Ha in Hp. destruct (ninfo (al_extra a) path) as [[ps pr]|] eqn:E; [|done].
      specialize (Hv path). rewrite E in Hv. destruct (ninfo root path) as [[ps2 pr2]|]; [|done].
      destruct (decide (path = path1)) as [->|Hn].
      + destruct Hv as [-> _]. rewrite E in Hi. injection Hi as <- <-.
        apply map_m_unprotect_ret in Hl as [Hlen Ho]. destruct (Ho o p Hp) as ([p' acc] & Hu & Hlo).
        exists p'. rewrite list_lookup_fmap, Hlo. split; [done|]. right. right. eauto.
      + destruct (decide _).
        * destruct Hv as [-> _]. eauto.
        * destruct Hv as [_ Hv]. apply perms_release_ret in Hv as [_ Hv]. specialize (Hv o).
          destruct (List.map snd l !! o) as [[ak|]|].
          -- destruct Hv as (p1 & p' & H1 & H2 & H3). rewrite Hp in H1. injection H1 as <-.
             exists p'. split; [done|]. right. left. eauto.
          -- rewrite Hv. eauto.
          -- rewrite Hv. eauto.
  Qed.

  Lemma tb_step_prot R m m' id path pr :
    tb_step R m m' -> mem_prot m id path = Some pr ->
    mem_prot m' id path = Some pr \/ (R (id, path) /\ mem_prot m' id path = Some ProtNo).
  Proof.
    intros Hs Hp. destruct Hs as [m kind size align addr ptr m' H|m id1 a q ak off size root data live Ha Hl Hacc Hr Hd Hlv
      |m id1 a parent perms prot cp root Ha Hadd Hlen Hf|m id1 path1 a a' Ha HR Hrel].
    - apply bm_allocate_ret in H as (_ & _ & _ & ->). left. unfold mem_prot in *.
      destruct (m !! id) as [a|] eqn:E; [|done]. by rewrite (lookup_app_l_Some _ _ _ _ E).
    - rewrite (mem_prot_insert _ _ _ _ _ _ Ha). destruct (decide (id = id1)) as [->|]; [|eauto]. simpl.
      unfold mem_prot in Hp. rewrite Ha in Hp. destruct (ninfo (al_extra a) path) as [[ps pr0]|] eqn:E; [|done].
      apply (node_access_view _ _ _ _ _ _ path) in Hacc. rewrite E in Hacc.
      destruct (ninfo root path) as [[ps' pr']|]; [|done]. destruct Hacc as [-> _]. by left.
    - rewrite (mem_prot_insert _ _ _ _ _ _ Ha). destruct (decide (id = id1)) as [->|]; [|eauto]. simpl.
      unfold mem_prot in Hp. rewrite Ha in Hp. destruct (ninfo (al_extra a) path) as [[ps pr0]|] eqn:E; [|done].
      apply add_node_view in Hadd as (nd & _ & _ & Hn & Hv). rewrite Hv.
      rewrite decide_False by congruence. rewrite E. eauto.
    - rewrite (mem_prot_insert _ _ _ _ _ _ Ha). destruct (decide (id = id1)) as [->|]; [|eauto].
      apply release_alloc_view in Hrel as (ps1 & pr1 & l & root & -> & Hi & _ & Hl & Hv). simpl.
      unfold mem_prot in Hp. rewrite Ha in Hp. destruct (ninfo (al_extra a) path) as [[ps pr0]|] eqn:E; [|done].
      specialize (Hv path). rewrite E in Hv. destruct (ninfo root path) as [[ps2 pr2]|]; [|done].
      destruct (decide (path = path1)) as [->|Hn].
      + destruct Hv as [-> ->]. rewrite E in Hi. injection Hi as <- <-. destruct (al_live a); [right; done|by left].
      + left. destruct (decide _).
        * destruct Hv as [_ ->]. done.
        * destruct Hv as [-> _]. done.
  Qed.

  (** an invariant of one permission holds along histories that do not release its protector *)
  Lemma perm_invariant (Q : Perm -> Prop) R m m' id path o :
    (forall p ak rel p', Q p -> perm_transition p ak rel = Ret p' -> Q p') ->
    ~ R (id, path) -> rtc (tb_step R) m m' ->
    (exists p, mem_perm m id path o = Some p /\ Q p) -> exists p, mem_perm m' id path o = Some p /\ Q p.
  Proof.
    intros HQ HR Hs. induction Hs as [|m m1 m2 H1 H2 IH]; [done|]. intros (p & Hp & Hq). apply IH.
    destruct (tb_step_perm _ _ _ _ _ _ _ H1 Hp) as (p' & Hp' & [->|[(ak & rel & Ht)|[Hr _]]]); [eauto| |done].
    exists p'. split; [done|]. by eapply HQ.
  Qed.

  Lemma prot_invariant R m m' id path pr :
    ~ R (id, path) -> rtc (tb_step R) m m' ->
    mem_prot m id path = Some pr -> mem_prot m' id path = Some pr.
  Proof.
    intros HR Hs. induction Hs as [|m m1 m2 H1 H2 IH]; [done|]. intros Hp. apply IH.
    by destruct (tb_step_prot _ _ _ _ _ _ H1 Hp) as [?|[? _]].
  Qed.

  (** addresses and sizes of allocations never change *)
  Lemma tb_step_addr R m m' id a :
    tb_step R m m' -> m !! id = Some a ->
    exists a', m' !! id = Some a' /\ al_addr a' = al_addr a /\ length (al_data a') = length (al_data a) /\
      al_align a' = al_align a /\ al_kind a' = al_kind a.
  Proof.
    intros Hs Ha. destruct Hs as [m kind size align addr ptr m' H|m id1 a1 q ak off size root data live Ha1 Hl Hacc Hr Hd Hlv
      |m id1 a1 parent perms prot cp root Ha1 Hadd Hlen Hf|m id1 path1 a1 a' Ha1 HR Hrel].
    - apply bm_allocate_ret in H as (_ & _ & _ & ->). exists a. split; [by apply lookup_app_l_Some|done].
    - destruct (decide (id = id1)) as [->|Hn].
      + rewrite list_lookup_insert by (by eapply lookup_lt_Some). eexists. split; [done|].
        assert (a1 = a) as -> by congruence. done.
      + rewrite list_lookup_insert_ne by done. eauto 6.
    - destruct (decide (id = id1)) as [->|Hn].
      + rewrite list_lookup_insert by (by eapply lookup_lt_Some). eexists. split; [done|].
        assert (a1 = a) as -> by congruence. done.
      + rewrite list_lookup_insert_ne by done. eauto 6.
    - apply release_alloc_ret in Hrel as [root ->]. destruct (decide (id = id1)) as [->|Hn].
      + rewrite list_lookup_insert by (by eapply lookup_lt_Some). eexists. split; [done|].
        assert (a1 = a) as -> by congruence. done.
      + rewrite list_lookup_insert_ne by done. eauto 6.
  Qed.
  Lemma tb_steps_addr R m m' id a :
    rtc (tb_step R) m m' -> m !! id = Some a ->
    exists a', m' !! id = Some a' /\ al_addr a' = al_addr a /\ length (al_data a') = length (al_data a) /\
      al_align a' = al_align a /\ al_kind a' = al_kind a.
  Proof.
    intros Hs. revert a. induction Hs as [|m m1 m2 H1 H2 IH]; intros a Ha; [eauto 6|].
    destruct (tb_step_addr _ _ _ _ _ H1 Ha) as (a1 & Ha1 & E1 & E2 & E3 & E4).
    destruct (IH a1 Ha1) as (a2 & Ha2 & F1 & F2 & F3 & F4). exists a2. split; [done|]. rewrite F1, F2, F3, F4. done.
  Qed.
End Steps.
