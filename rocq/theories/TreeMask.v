(** Freeze masks, and retags that do not crash. *)
From Verif Require Export TreeFrames WfTypes.
From stdpp Require Import relations.
From Coq Require Import ZifyBool ZifyN ZifyNat.
Local Open Scope Z_scope.

(** ** Specification *)

(** byte [i] lies in one of the cells *)
Definition cell_at (cells : list (N * N)) (i : nat) : Prop :=
  exists off sz, (off, sz) ∈ cells /\ (N.to_nat off <= i < N.to_nat off + N.to_nat sz)%nat.

(** byte [i] of a pointee with this metadata lies in an UnsafeCell *)
Fixpoint pointee_cell (cs : CellStrategy) (l : LayoutStrategy) (meta : option (PtrMeta TProv))
    (lookup : ThinPtr TProv -> Outcome VTable) (i : nat) : Prop :=
  match cs, l, meta with
  | CSized cells, LSized _ _, _ => cell_at cells i
  | CSlice cells, LSlice size _, _ => cell_at cells (i mod N.to_nat size)%nat
  | CTraitObject, LTraitObject _, Some (MVTablePointer p) =>
      exists vt, lookup p = Ret vt /\ cell_at (vt_cells vt) i
  | CTuple head_cells tail_cells, LTuple head tail, _ =>
      if decide (i < N.to_nat (th_end head))%nat then cell_at head_cells i
      else pointee_cell tail_cells tail meta lookup (i - N.to_nat (th_end head))
  | _, _, _ => False
  end.

(** no padding between the head of an unsized tuple and its tail, nor after the tail *)
Fixpoint no_padding (l : LayoutStrategy) (meta : option (PtrMeta TProv))
    (lookup : ThinPtr TProv -> Outcome VTable) : Prop :=
  match l with
  | LTuple head tail =>
      (forall s a st at_, compute_size_and_align l meta lookup = Ret (s, a) ->
         compute_size_and_align tail meta lookup = Ret (st, at_) -> s = (th_end head + st)%N) /\
      no_padding tail meta lookup
  | _ => True
  end.

(** the vtables of a well-formed program (well-formed.md:896) *)
Definition vtables_ok (lookup : ThinPtr TProv -> Outcome VTable) : Prop :=
  forall p vt, lookup p = Ret vt -> check_cells (vt_cells vt) (vt_size vt) = Ret tt.

(** ** Masks of cell lists *)

(** the cells are in order, start at [e] or later and end by [size] *)
Fixpoint cells_sorted (e : N) (cells : list (N * N)) (size : N) : Prop :=
  match cells with
  | [] => (e <= size)%N
  | (off, sz) :: r => (e <= off)%N /\ cells_sorted (off + sz) r size
  end.

Lemma check_cells_sorted cells size : check_cells cells size = Ret tt -> cells_sorted 0 cells size.
Proof.
  unfold check_cells. intros H. apply obind_ret in H as (e & Hf & H). apply ensure_wf_ret in H.
  revert Hf. generalize 0%N as e0. induction cells as [|[off sz] cells IH]; intros e0 Hf; simpl in *.
  - injection Hf as <-. lia.
  - apply obind_ret in Hf as (e1 & H1 & Hf). apply obind_ret in H1 as ([] & H1 & [= <-]). apply ensure_wf_ret in H1.
    split; [lia|]. by apply IH.
Qed.

Lemma sorted_bound e cells size : cells_sorted e cells size -> (e <= size)%N.
Proof.
  revert e. induction cells as [|[off sz] cells IH]; intros e H; simpl in H; [done|]. destruct H as [H1 H2].
  apply IH in H2. lia.
Qed.
Lemma sorted_above e cells size i : cells_sorted e cells size -> cell_at cells i -> (N.to_nat e <= i < N.to_nat size)%nat.
Proof.
  revert e. induction cells as [|[off sz] cells IH]; intros e H (o & s & Hin & Hr); simpl in H.
  - by apply elem_of_nil in Hin.
  - destruct H as [H1 H2]. apply elem_of_cons in Hin as [[= -> ->]|Hin].
    + apply sorted_bound in H2. lia.
    + assert (N.to_nat (off + sz) <= i < N.to_nat size)%nat by (apply (IH _ H2); by exists o, s). lia.
Qed.

Lemma freeze_mask_loop_ok cur cells size :
  cells_sorted (fst cur + snd cur) cells size ->
  exists mask, freeze_mask_loop cur cells size = Ret mask /\
    length mask = (N.to_nat size - N.to_nat (fst cur))%nat /\
    forall i, (i < length mask)%nat -> exists b, mask !! i = Some b /\
      (b = false <-> cell_at (cur :: cells) (N.to_nat (fst cur) + i)).
Proof.
  revert cur. induction cells as [|[off sz] cells IH]; intros [co cs] Hs; simpl in Hs.
  - simpl. unfold size_from_bytes.
    destruct (Z.ltb_spec (Z.of_N size - Z.of_N (co + cs)) 0); [lia|]. simpl. eexists. split; [done|].
    split; [rewrite app_length, !list_repeat_length; lia|]. intros i Hi.
    destruct (decide (i < N.to_nat cs)%nat) as [Hlt|Hge].
    + exists false. split.
      * apply lookup_app_l_Some. unfold list_repeat. apply lookup_replicate. lia.
      * split; [|done]. intros _. exists co, cs. split; [by left|]. lia.
    + exists true. split.
      * rewrite lookup_app_r by (rewrite list_repeat_length; lia). unfold list_repeat. apply lookup_replicate.
        rewrite app_length, !list_repeat_length in Hi. rewrite replicate_length. lia.
      * split; [done|]. intros (o & s & Hin & Hr). apply elem_of_list_singleton in Hin as [= -> ->]. lia.
  - destruct Hs as [H1 H2]. destruct (IH (off, sz) H2) as (rest & Hr & Hlen & Hbits). simpl in Hr, Hlen, Hbits.
    cbn [freeze_mask_loop fst snd]. unfold size_from_bytes.
    destruct (Z.ltb_spec (Z.of_N off - Z.of_N (co + cs)) 0); [lia|]. cbn [unwrap obind].
    fold (freeze_mask_loop (off, sz) cells size) in *. rewrite Hr. cbn [obind].
    pose proof (sorted_bound _ _ _ H2) as Hb.
    eexists. split; [done|].
    assert (length (list_repeat false cs ++ list_repeat true (Z.to_N (Z.of_N off - Z.of_N (co + cs)))) = (N.to_nat off - N.to_nat co)%nat) as Hl.
    { rewrite app_length, !list_repeat_length. lia. }
    rewrite app_length, Hl. split; [lia|]. intros i Hi.
    destruct (decide (i < N.to_nat off - N.to_nat co)%nat) as [Hlt|Hge].
    + assert (~ cell_at ((off, sz) :: cells) (N.to_nat co + i)) as Hnc.
      { intros (o & s & Hin & Hrg). assert (cells_sorted off ((off, sz) :: cells) size) as Hso by (simpl; split; [lia|done]).
        assert (N.to_nat off <= N.to_nat co + i < N.to_nat size)%nat; [|lia]. eapply sorted_above; [exact Hso|]. by exists o, s. }
      destruct (decide (i < N.to_nat cs)%nat) as [Hc|Hc].
      * exists false. split.
        -- apply lookup_app_l_Some, lookup_app_l_Some. unfold list_repeat. apply lookup_replicate. lia.
        -- split; [|done]. intros _. exists co, cs. split; [by left|]. lia.
      * exists true. split.
        -- apply lookup_app_l_Some. rewrite lookup_app_r by (rewrite list_repeat_length; lia).
           unfold list_repeat. apply lookup_replicate. rewrite replicate_length. lia.
        -- split; [done|]. intros (o & s & Hin & Hrg). apply elem_of_cons in Hin as [[= -> ->]|Hin]; [lia|].
           exfalso. apply Hnc. by exists o, s.
    + destruct (Hbits (i - (N.to_nat off - N.to_nat co))%nat) as (b & Hb1 & Hb2); [lia|].
      exists b. split; [rewrite lookup_app_r by lia; by rewrite Hl|]. rewrite Hb2.
      replace (N.to_nat off + (i - (N.to_nat off - N.to_nat co)))%nat with (N.to_nat co + i)%nat by lia.
      split; intros (o & s & Hin & Hrg).
      * exists o, s. split; [by right|done].
      * apply elem_of_cons in Hin as [[= -> ->]|Hin]; [lia|]. by exists o, s.
Qed.

Lemma cells_mask_ok cells size :
  check_cells cells size = Ret tt ->
  exists mask, cells_to_freeze_mask cells size = Ret mask /\ length mask = N.to_nat size /\
    forall i, (i < N.to_nat size)%nat -> exists b, mask !! i = Some b /\ (b = false <-> cell_at cells i).
Proof.
  intros H. apply check_cells_sorted in H. destruct (freeze_mask_loop_ok (0%N, 0%N) cells size H) as (mask & Hm & Hl & Hb).
  simpl in Hl. exists mask. unfold cells_to_freeze_mask. rewrite Hm. simpl.
  assert (length mask = N.to_nat size) as Hl' by lia. rewrite Hl'.
  destruct (N.eqb_spec (N.of_nat (N.to_nat size)) size); [|lia]. simpl. split; [done|]. split; [done|].
  intros i Hi. destruct (Hb i) as (b & H1 & H2); [lia|]. exists b. split; [done|]. rewrite H2. simpl.
  split; intros (o & s & Hin & Hr).
  - apply elem_of_cons in Hin as [[= -> ->]|Hin]; [lia|]. by exists o, s.
  - exists o, s. split; [by right|done].
Qed.

Lemma concat_replicate_lookup {A} (l : list A) n i :
  (i < n * length l)%nat -> concat (replicate n l) !! i = l !! (i mod length l)%nat.
Proof.
  revert i. induction n as [|n IH]; intros i Hi; [simpl in Hi; lia|]. simpl.
  assert (length l <> 0)%nat as Hne by (intros E; rewrite E in Hi; lia).
  destruct (decide (i < length l)%nat) as [Hlt|Hge].
  - rewrite lookup_app_l by done. by rewrite Nat.mod_small.
  - rewrite lookup_app_r by lia. rewrite IH by (simpl in Hi; lia).
    f_equal. rewrite <- (Nat.mod_add (i - length l) 1 (length l) Hne). f_equal. lia.
Qed.
Lemma concat_replicate_length {A} (l : list A) n : length (concat (replicate n l)) = (n * length l)%nat.
Proof. induction n as [|n IH]; [done|]. simpl. rewrite app_length, IH. done. Qed.

(** the mask of a pointee without padding in unsized tuples *)
Theorem freeze_mask_ok cs l meta lookup size align :
  cells_check_wf cs l = Ret tt -> vtables_ok lookup ->
  compute_size_and_align l meta lookup = Ret (size, align) -> no_padding l meta lookup ->
  exists mask, freeze_mask cs l meta lookup = Ret mask /\ length mask = N.to_nat size /\
    forall i, (i < N.to_nat size)%nat -> exists b, mask !! i = Some b /\ (b = false <-> pointee_cell cs l meta lookup i).
Proof.
  intros Hwf Hvt. revert cs size align Hwf. induction l as [s a|s a|tn|head tail IH]; intros cs size align Hwf Hsz Hnp.
  - destruct cs; try done. simpl in *. destruct meta; [done|]. injection Hsz as -> ->.
    destruct (cells_mask_ok _ _ Hwf) as (mask & -> & Hl & Hb). eauto.
  - destruct cs; try done. simpl in *. destruct meta as [[count|]|]; try done.
    apply obind_ret in Hsz as (s' & Hs' & [= <- <-]).
    destruct (cells_mask_ok _ _ Hwf) as (mask & -> & Hl & Hb). simpl. eexists. split; [done|].
    assert (N.to_nat s' = (Z.to_nat count * N.to_nat s)%nat) as Hs.
    { unfold size_mul, size_from_bytes in Hs'. destruct (Z.ltb_spec (Z.of_N s * count) 0); [done|].
      injection Hs' as <-. destruct (decide (count < 0)); [|rewrite N2Nat.inj_iff || idtac; nia].
      assert (s = 0%N) as -> by nia. lia. }
    rewrite concat_replicate_length, Hl. split; [lia|]. intros i Hi.
    rewrite concat_replicate_lookup by (rewrite Hl; lia). rewrite Hl.
    assert (N.to_nat s <> 0)%nat as Hne by nia.
    apply Hb. by apply Nat.mod_upper_bound.
  - destruct cs; try done. simpl in *. destruct meta as [[|p]|]; try done.
    apply obind_ret in Hsz as (vt & Hv & [= <- <-]). cbn [freeze_mask]. rewrite Hv. cbn [obind].
    destruct (cells_mask_ok _ _ (Hvt _ _ Hv)) as (mask & -> & Hl & Hb). eexists. split; [done|]. split; [done|].
    intros i Hi. destruct (Hb i Hi) as (b & H1 & H2). exists b. split; [done|]. rewrite H2. split; [eauto|].
    intros (vt' & Hv' & Hc). by simplify_eq.
  - destruct cs; try done. simpl in Hwf. apply obind_ret in Hwf as ([] & Hh & Hwf).
    destruct meta as [mt|]; [|done]. destruct Hnp as [Hpad Hnp].
    pose proof Hsz as Hsz'. simpl in Hsz'. apply obind_ret in Hsz' as ([st at_] & Hst & Hfull).
    specialize (Hpad _ _ _ _ Hsz Hst).
    destruct (IH _ _ _ Hwf Hst Hnp) as (mt' & Hm' & Hl' & Hb').
    destruct (cells_mask_ok _ _ Hh) as (mh & Hmh & Hlh & Hbh). cbn [freeze_mask]. rewrite Hmh. simpl. rewrite Hm'. simpl.
    eexists. split; [done|]. rewrite app_length. split; [lia|]. intros i Hi.
    destruct (decide (i < N.to_nat (th_end head))%nat) as [Hlt|Hge].
    + destruct (Hbh i Hlt) as (b & H1 & H2). exists b. split; [by apply lookup_app_l_Some|done].
    + destruct (Hb' (i - N.to_nat (th_end head))%nat) as (b & H1 & H2); [lia|]. exists b.
      split; [|done]. rewrite lookup_app_r by lia. by rewrite Hlh.
Qed.

(** the mask is always computed; it is empty only if the pointee is *)
Theorem freeze_mask_total cs l meta lookup size align :
  cells_check_wf cs l = Ret tt -> vtables_ok lookup ->
  compute_size_and_align l meta lookup = Ret (size, align) ->
  exists mask, freeze_mask cs l meta lookup = Ret mask /\ (mask = [] -> size = 0%N).
Proof.
  intros Hwf Hvt. revert cs size align Hwf. induction l as [s a|s a|tn|head tail IH]; intros cs size align Hwf Hsz.
  1-3: destruct (freeze_mask_ok cs _ meta lookup size align Hwf Hvt Hsz I) as (mask & Hm & Hl & _);
    exists mask; (split; [done|]); intros ->; simpl in Hl; lia.
  destruct cs; try done. simpl in Hwf. apply obind_ret in Hwf as ([] & Hh & Hwf).
  destruct meta as [mt|]; [|done]. simpl in Hsz. apply obind_ret in Hsz as ([st at_] & Hst & [= <- <-]).
  destruct (IH _ _ _ Hwf Hst) as (mt' & Hm' & Hl').
  destruct (cells_mask_ok _ _ Hh) as (mh & Hmh & Hlh & Hbh). cbn [freeze_mask]. rewrite Hmh. simpl. rewrite Hm'. simpl.
  eexists. split; [done|]. intros [-> Hm0]%app_eq_nil. specialize (Hl' Hm0) as ->. simpl in Hlh.
  unfold tail_offset. assert (th_end head = 0%N) as -> by lia. assert (forall a, align_to 0 a = 0%N) as H0.
  { intros a. apply align_to_id, N.mod_0_l. pose proof (align_bytes_pos a). lia. }
  by rewrite H0, N.add_0_r, H0.
Qed.

(** ** Retags *)

(** the node of the pointer's provenance exists (or the pointer has no provenance) *)
Definition valid_prov (m : TMem) (ptr : ThinPtr TProv) : Prop :=
  match tp_prov ptr with
  | Some (id, path) => mem_prot m id path <> None
  | None => True
  end.

(** a zero-sized pointee does not lie before the start of its allocation *)
Definition not_before (m : TMem) (ptr : ThinPtr TProv) : Prop :=
  match tp_prov ptr with
  | Some (id, _) => forall a, m !! id = Some a -> al_addr a <= tp_addr ptr
  | None => True
  end.

Section Retag.
  Variable T : Target.
  Notation TO := (TreeOps T).

  Lemma settings_matches ptr pt fe lk s :
    settings_new ptr pt fe lk = Ret (Some s) ->
    perm_matches (rs_outside s) (rs_protected s) = true /\
    Forall (fun p => perm_matches p (rs_protected s) = true) (rs_inside s).
  Proof.
    unfold settings_new. destruct (safe_pointee pt) as [pi|]; [|done].
    destruct (match pt with PRef _ _ => _ | _ => _ end) eqn:E0; [done|]. intros H.
    apply obind_ret in H as (mask & _ & [= <-]). simpl.
    destruct fe; destruct pt as [[] ?|?| | |]; simpl;
      (split; [destruct (pi_freeze pi); done|apply List.Forall_map, Forall_forall; intros [] _; done]).
  Qed.

  Lemma reborrow_accesses_cases root cp inside off len :
    tree_len root len -> (N.to_nat off + length inside <= len)%nat ->
    (exists r, reborrow_accesses root cp inside off = Ret r) \/ is_ub (reborrow_accesses root cp inside off).
  Proof.
    intros Hl Hr. unfold reborrow_accesses.
    assert (forall k l root, tree_len root len -> (N.to_nat off + k + length l <= len)%nat ->
      (exists r, fold_m (fun root '(idx, perm) =>
              match perm_init_access perm with
              | Some ak => node_access root (Some cp) ak (off + N.of_nat idx)%N 1%N
              | None => Ret root
              end) (zip (seq k (length l)) l) root = Ret r) \/
      is_ub (fold_m (fun root '(idx, perm) =>
              match perm_init_access perm with
              | Some ak => node_access root (Some cp) ak (off + N.of_nat idx)%N 1%N
              | None => Ret root
              end) (zip (seq k (length l)) l) root)) as Hg.
    { clear. intros k l. revert k. induction l as [|p l IH]; intros k root Hl Hr; [left; eauto|]. simpl.
      simpl in Hr. destruct (perm_init_access p) as [ak|]; simpl.
      - destruct (node_access_cases root (Some cp) ak (off + N.of_nat k)%N 1%N len Hl) as [[r Hn]|[msg Hn]]; [lia| |].
        + rewrite Hn. simpl. apply IH; [|lia]. by eapply node_access_len.
        + rewrite Hn. right. by eexists.
      - apply IH; [done|lia]. }
    apply Hg; [done|]. lia.
  Qed.

  Lemma add_node_len n parent ps0 pr0 n' cp len :
    add_node n parent (mkNode [] ps0 pr0) = Ret (n', cp) -> tree_len n len -> length ps0 = len -> tree_len n' len.
  Proof.
    intros H Hl Hp path ps pr Hi. apply add_node_view in H as (nd & _ & _ & _ & Hv). rewrite Hv in Hi.
    destruct (decide (path = cp)); [congruence|]. by eapply Hl.
  Qed.

  Theorem retag_no_panic m f ptr pt fe lk pi mask :
    tb_len m -> valid_prov m (p_thin ptr) ->
    safe_pointee pt = Some pi -> freeze_mask (pi_cells pi) (pi_layout pi) (p_meta ptr) lk = Ret mask ->
    (mask = [] -> not_before m (p_thin ptr)) ->
    (exists r, mo_retag TO m f ptr pt fe lk = Ret r) \/ is_ub (mo_retag TO m f ptr pt fe lk).
  Proof.
    intros Hlen Hv Hpi Hmask Hz. simpl. unfold tb_retag.
    assert (exists o, settings_new ptr pt fe lk = Ret o /\ (forall s, o = Some s -> length (rs_inside s) = length mask)) as (o & Ho & Hin).
    { unfold settings_new. rewrite Hpi. destruct (match pt with PRef _ _ => _ | _ => _ end); [by eexists|].
      rewrite Hmask. simpl. eexists. split; [done|]. intros s [= <-]. simpl. by rewrite map_length. }
    rewrite Ho. simpl. destruct o as [s|]; [|left; eauto]. specialize (Hin _ eq_refl).
    apply settings_matches in Ho as [Hmo Hmi].
    unfold reborrow. unfold valid_prov, not_before in *. unfold bm_check_ptr.
    destruct (tp_prov (p_thin ptr)) as [[id path]|] eqn:Hp.
    2: { destruct (N.eqb_spec (N.of_nat (length (rs_inside s))) 0) as [E|E]; simpl.
         - left. eauto.
         - right. by eexists. }
    unfold mem_prot in Hv. destruct (m !! id) as [a|] eqn:Ha; [|done].
    destruct (ninfo (al_extra a) path) as [[ps pr]|] eqn:Hi; [|done].
    unfold ninfo in Hi. destruct (node_at (al_extra a) path) as [nd|] eqn:Hnd; [|done].
    pose proof (Hlen _ _ Ha) as Hl.
    assert (al_addr a <= tp_addr (p_thin ptr) ->
      (tp_addr (p_thin ptr) - al_addr a + Z.of_nat (length (rs_inside s)) <= Z.of_nat (length (al_data a)) \/ rs_inside s = []) ->
      (exists r, mutate_at m id (fun a => reborrow_alloc a (tp_addr (p_thin ptr)) path s) = Ret r) \/
      is_ub (mutate_at m id (fun a => reborrow_alloc a (tp_addr (p_thin ptr)) path s))) as Hmut.
    { intros H1 H2. unfold mutate_at. rewrite Ha. unfold reborrow_alloc, size_from_bytes.
      destruct (Z.ltb_spec (tp_addr (p_thin ptr) - al_addr a) 0); [lia|]. cbn [unwrap obind].
      set (off := Z.to_N (tp_addr (p_thin ptr) - al_addr a)).
      assert (exists perms, (if (0 <? length (rs_inside s))%nat
         then write_subslice (list_repeat (rs_outside s) (al_size a)) off (rs_inside s)
         else Ret (list_repeat (rs_outside s) (al_size a))) = Ret perms /\ length perms = length (al_data a) /\
         Forall (fun p => perm_matches p (rs_protected s) = true) perms) as (perms & -> & Hpl & Hpm).
      { assert (Forall (fun p => perm_matches p (rs_protected s) = true) (list_repeat (rs_outside s) (al_size a))) as Hrep.
        { apply Forall_forall. intros x Hx. unfold list_repeat in Hx. apply elem_of_replicate in Hx as [-> _]. done. }
        assert (length (list_repeat (rs_outside s) (al_size a)) = length (al_data a)) as Hrl.
        { rewrite list_repeat_length. unfold al_size. lia. }
        destruct (Nat.ltb_spec 0 (length (rs_inside s))).
        - destruct (write_subslice_total (list_repeat (rs_outside s) (al_size a)) off (rs_inside s)) as [perms Hw].
          { destruct H2 as [H2|H2]; [|rewrite H2 in *; simpl in *; lia]. rewrite Hrl. unfold off. lia. }
          exists perms. split; [done|]. pose proof (write_subslice_length _ _ _ _ Hw).
          split; [congruence|]. apply write_subslice_ret in Hw as [_ ->].
          apply Forall_app; split; [by apply Forall_take|]. apply Forall_app; split; [done|by apply Forall_drop].
        - eauto. }
      cbn [obind]. rewrite (proj2 (forallb_forall _ _)) by (intros x Hx; apply (proj1 (Forall_forall _ _) Hpm), elem_of_list_In, Hx).
      cbn [assert_ obind].
      destruct (add_node_total (al_extra a) path (mkNode [] perms (rs_protected s)) nd Hnd) as [n' Hn'].
      rewrite Hn'. cbn [obind].
      assert (tree_len n' (length (al_data a))) as Hl'.
      { by eapply add_node_len. }
      destruct (decide (rs_inside s = [])) as [E|E].
      - rewrite E. left. by eexists.
      - destruct (reborrow_accesses_cases n' (path ++ [length (n_children nd)]) (rs_inside s) off _ Hl') as [[r ->]|[msg ->]].
        + destruct H2 as [H2|H2]; [|done]. unfold off. lia.
        + left. by eexists.
        + right. by eexists. }
    destruct (N.eqb_spec (N.of_nat (length (rs_inside s))) 0) as [E|E].
    - simpl. assert (rs_inside s = []) as E' by (apply length_zero_iff_nil; lia).
      destruct Hmut as [[[m' cp] ->]|[msg ->]]; [|by right|left; by eexists|right; by eexists].
      apply Hz; [|done]. apply length_zero_iff_nil. lia.
    - simpl. destruct (al_live a); simpl; [|right; by eexists].
      destruct (Z.ltb_spec (tp_addr (p_thin ptr) - al_addr a) 0); simpl; [right; by eexists|].
      destruct (Z.ltb_spec (Z.of_N (al_size a)) (tp_addr (p_thin ptr) - al_addr a + Z.of_N (N.of_nat (length (rs_inside s)))));
        simpl; [right; by eexists|].
      unfold size_from_bytes. destruct (Z.ltb_spec (tp_addr (p_thin ptr) - al_addr a) 0); [lia|]. simpl.
      unfold al_size in *.
      destruct Hmut as [[[m' cp] ->]|[msg ->]]; [lia|left; lia|left; by eexists|right; by eexists].
  Qed.

  Theorem retag_total m f ptr pt fe lk :
    tb_len m -> valid_prov m (p_thin ptr) -> vtables_ok lk ->
    (forall pi, safe_pointee pt = Some pi ->
       cells_check_wf (pi_cells pi) (pi_layout pi) = Ret tt /\
       exists size align, compute_size_and_align (pi_layout pi) (p_meta ptr) lk = Ret (size, align) /\
         (size = 0%N -> not_before m (p_thin ptr))) ->
    (exists r, mo_retag TO m f ptr pt fe lk = Ret r) \/ is_ub (mo_retag TO m f ptr pt fe lk).
  Proof.
    intros Hlen Hv Hvt H. destruct (safe_pointee pt) as [pi|] eqn:E.
    - destruct (H pi eq_refl) as (Hc & size & align & Hs & Hz).
      destruct (freeze_mask_total _ _ _ _ _ _ Hc Hvt Hs) as (mask & Hm & Hm0).
      eapply retag_no_panic; [done|done|done|exact Hm|]. auto.
    - left. simpl. unfold tb_retag, settings_new. rewrite E. simpl. eauto.
  Qed.

  (** a protected frozen byte that was read is not written before the protector is released *)
  Theorem frozen_read_guard ops0 m0 id P x b r len al bs m1 ops m2 :
    mem_run TO (mo_new TO) ops0 = Ret m0 -> addr_perm m0 id P x = Some (Prot (PFrozen b)) ->
    mo_load TO m0 r len al = Ret (bs, m1) -> derived r id P -> covers r len x ->
    mem_run TO m1 ops = Ret m2 -> (id, P) ∉ released ops ->
    forall w Q bytes al', tp_prov w = Some (id, Q) -> covers w (N.of_nat (length bytes)) x ->
      is_ub (mo_store TO m2 w bytes al').
  Proof.
    intros H0 Hp Hld (q & Hq & Hpre) Hc H2 HR w Q bytes al' Hw Hcw.
    destruct (tb_load_perm T _ _ _ _ _ _ _ _ P x _ Hld Hq Hp) as (p1 & Hp1 & Ht & _).
    specialize (Ht Hc). rewrite rel_local in Ht by done. injection Ht as <-.
    destruct (addr_perm_invariant T (fun p => p = Prot (PFrozen true)) (fun pr => pr ∈ released ops) m1 m2 id P x)
      as (p2 & Hp2 & ->).
    - intros p ak rel p' -> Hpt. destruct ak, rel; try discriminate Hpt; by injection Hpt as <-.
    - done.
    - by apply mem_run_steps.
    - eauto.
    - assert (tb_len m2) as Hlen.
      { eapply tb_steps_len; [apply (mem_run_steps T _ _ _ H2)|].
        eapply tb_steps_len; [eapply (tb_load_steps T (fun _ => True)); exact Hld|]. by eapply tb_len_run. }
      eapply (tb_store_ub T m2 w id Q P x (Prot (PFrozen true))); [done|done|done|done|].
      destruct (rel_at (Some Q) P); by eexists.
  Qed.

  (** ** The provenance of pointers stays valid *)

  Lemma valid_prov_steps R m m' ptr : rtc (tb_step T R) m m' -> valid_prov m ptr -> valid_prov m' ptr.
  Proof.
    intros Hs. unfold valid_prov. destruct (tp_prov ptr) as [[id path]|]; [|done].
    induction Hs as [|m m1 m2 H1 H2 IH]; [done|]. intros Hv. apply IH.
    destruct (mem_prot m id path) as [pr|] eqn:E; [|done].
    destruct (tb_step_prot _ _ _ _ _ _ _ H1 E) as [->|[_ ->]]; done.
  Qed.
  Lemma valid_prov_run m ops m' ptr : mem_run TO m ops = Ret m' -> valid_prov m ptr -> valid_prov m' ptr.
  Proof. intros H. eapply valid_prov_steps, mem_run_steps, H. Qed.
  Lemma valid_prov_alloc m kind size align addr p m' :
    mo_allocate TO m kind size align addr = Ret (p, m') -> valid_prov m' p.
  Proof.
    simpl. intros H. apply bm_allocate_ret in H as (_ & _ & -> & ->). unfold valid_prov, mem_prot. simpl.
    rewrite lookup_app_r, Nat.sub_diag by lia. done.
  Qed.
  Lemma valid_prov_retag m f ptr pt fe lk p m' f' :
    mo_retag TO m f ptr pt fe lk = Ret (p, m', f') -> valid_prov m (p_thin ptr) -> valid_prov m' (p_thin p).
  Proof.
    intros H Hv. destruct (tb_retag_settings _ _ _ _ _ _ _ _ H) as [[s|] Hs].
    - unfold valid_prov. destruct (tp_prov (p_thin p)) as [[id P]|] eqn:E; [|done].
      by rewrite (retag_prot _ _ _ _ _ _ _ _ _ _ _ _ _ H Hs E).
    - simpl in H. apply tb_retag_ret in H as [(_ & -> & -> & _)|(s & p' & Hs' & _)]; [done|congruence].
  Qed.

  (** ** Ending calls *)

  Lemma concat_delete_perm {A} (fs : list (list A)) i f : fs !! i = Some f -> concat fs ≡ₚ f ++ concat (delete i fs).
  Proof.
    intros E. rewrite <- (take_drop_middle fs i f E) at 1. rewrite delete_take_drop, !concat_app. simpl.
    apply Permutation_app_swap_app.
  Qed.
  Lemma concat_delete_nodup {A} (fs : list (list A)) i f x g :
    NoDup (concat fs) -> fs !! i = Some f -> x ∈ f -> g ∈ delete i fs -> x ∈ g -> False.
  Proof.
    intros Hn Hi Hf Hg Hx. rewrite (concat_delete_perm _ _ _ Hi) in Hn. apply NoDup_app in Hn as (_ & Hn & _).
    apply (Hn x Hf). apply elem_of_list_In, in_concat. exists g. by rewrite <- !elem_of_list_In.
  Qed.
  Lemma end_call_live m f m' id a :
    mo_end_call TO m f = Ret m' -> m !! id = Some a -> exists a', m' !! id = Some a' /\ al_live a' = al_live a.
  Proof.
    simpl. revert m a. induction f as [|[id1 path1] f IH]; intros m a H Ha; simpl in H.
    - injection H as <-. eauto.
    - apply obind_ret in H as (m1 & H1 & H). unfold mem_release_protector in H1.
      apply obind_ret in H1 as ([m2 []] & H1 & [= <-]). apply mutate_at_ret in H1 as (a1 & a1' & Ha1 & Hrel & ->).
      apply release_alloc_ret in Hrel as [root ->].
      destruct (decide (id = id1)) as [->|Hn].
      + rewrite Ha1 in Ha. injection Ha as <-.
        eapply (IH _ (set_extra a1 root)) in H as (a' & H' & Hl); [by exists a'|].
        apply list_lookup_insert. by eapply lookup_lt_Some.
      + eapply IH; [exact H|]. by rewrite list_lookup_insert_ne.
  Qed.

  (** ** Histories without retags at function entry have no protectors *)

  Lemma no_prot_insert m id a a' :
    m !! id = Some a -> mem_no_prot m -> no_protectors (al_extra a') -> mem_no_prot (<[id := a']> m).
  Proof.
    intros Ha Hm Hn id1 a1 H1. destruct (decide (id1 = id)) as [->|Hne].
    - rewrite list_lookup_insert in H1 by (by eapply lookup_lt_Some). by injection H1 as <-.
    - rewrite list_lookup_insert_ne in H1 by done. by eapply Hm.
  Qed.
  Lemma access_no_prot n q ak off size n' :
    no_protectors n -> node_access n q ak off size = Ret n' -> no_protectors n'.
  Proof.
    intros Hn H path ps' pr' Hi. apply (access_kinds _ _ _ _ _ _ path) in H. rewrite Hi in H.
    destruct (ninfo n path) as [[ps pr]|] eqn:E; [|done]. destruct (Hn _ _ _ E) as [-> Hu].
    destruct H as (-> & _ & H). split; [done|]. intros o p Ho.
    assert (Forall is_unprot ps') as Hf.
    { apply H, Forall_lookup. intros o1 p1 Ho1. destruct (Hu _ _ Ho1) as [u ->]. by eexists. }
    rewrite Forall_lookup in Hf. by apply (Hf o p).
  Qed.
  Lemma fold_access_no_prot inside off cp : forall k root root',
    no_protectors root ->
    fold_m (fun root '(idx, perm) =>
              match perm_init_access perm with
              | Some ak => node_access root (Some cp) ak (off + N.of_nat idx)%N 1%N
              | None => Ret root
              end) (zip (seq k (length inside)) inside) root = Ret root' -> no_protectors root'.
  Proof.
    induction inside as [|p l IH]; intros k root root' Hn H; simpl in H; [by injection H as <-|].
    apply obind_ret in H as (r1 & H1 & H). apply (IH _ _ _) in H; [done|].
    destruct (perm_init_access p); [by eapply access_no_prot|by injection H1 as <-].
  Qed.

  Lemma mem_op_no_prot m op m' :
    no_entry op -> mem_op TO m op = Ret m' -> mem_no_prot m -> mem_no_prot m'.
  Proof.
    destruct op as [kind size align addr|ptr kind size align|ptr bytes align|ptr len align|f ptr pt fe vl|f];
      simpl; intros He H Hm.
    - apply obind_ret in H as ([p m1] & Ha & [= <-]). apply bm_allocate_ret in Ha as (_ & _ & _ & ->).
      intros id a Ha. destruct (decide (id < length m)%nat) as [Hlt|Hge].
      + rewrite lookup_app_l in Ha by done. by eapply Hm.
      + rewrite lookup_app_r in Ha by lia. destruct (id - length m)%nat; [|done]. injection Ha as <-. simpl.
        intros path ps pr Hi. destruct path; [|done]. injection Hi as <- <-. split; [done|].
        intros o p' Ho. unfold list_repeat in Ho. apply lookup_replicate in Ho as [-> _]. by eexists.
    - apply bm_deallocate_ret in H as (id & path & a & root & Hp & Ha & Hl & _ & _ & Hs & _ & Hh & ->).
      unfold tb_dealloc in Hh. apply obind_ret in Hh as (root' & Hacc & Hh).
      destruct (node_blocks_dealloc root') eqn:Eb; [done|]. injection Hh as ->.
      eapply no_prot_insert; [done|done|]. simpl. eapply access_no_prot; [|exact Hacc]. by eapply Hm.
    - apply bm_store_ret in H as (_ & [(-> & ->)|(Hne & id & path & off & a & root & data & Hp & Ha & Hl & [H1 H2] & Ho & Hh & Hd & ->)]);
        [done|].
      eapply no_prot_insert; [done|done|]. simpl. eapply access_no_prot; [|exact Hh]. by eapply Hm.
    - apply obind_ret in H as ([p m1] & H & [= <-]).
      apply bm_load_ret in H as (_ & [(_ & _ & ->)|(Hne & id & path & off & a & root & Hp & Ha & Hl & [H1 H2] & Ho & Hh & Hd & ->)]);
        [done|].
      eapply no_prot_insert; [done|done|]. simpl. eapply access_no_prot; [|exact Hh]. by eapply Hm.
    - subst fe. apply obind_ret in H as ([[p m1] f1] & H & [= <-]).
      apply tb_retag_ret in H as [(_ & _ & -> & _)|(s & p' & Hs & Hr & _)]; [done|].
      assert (rs_protected s = ProtNo) as Hno.
      { unfold settings_new in Hs. destruct (safe_pointee pt); [|done].
        destruct (match pt with PRef _ _ => _ | _ => _ end); [done|]. by apply obind_ret in Hs as (mask & _ & [= <-]). }
      apply reborrow_ret in Hr as [(_ & _ & _ & -> & _)|(id & parent & a & a' & cp & Hp & Ha & Hin & Hr & _ & -> & _)]; [done|].
      apply reborrow_alloc_ret in Hr as (off & perms & root1 & root2 & Hoff & Hlen & Hperms & Hmt & Hadd & Hacc & ->).
      eapply no_prot_insert; [done|done|]. simpl. eapply fold_access_no_prot; [|exact Hacc].
      apply add_node_view in Hadd as (nd & _ & _ & _ & Hv). intros path ps pr Hi. rewrite Hv in Hi.
      destruct (decide (path = cp)) as [->|]; [|by eapply Hm]. injection Hi as <- <-. split; [done|].
      intros o q Ho. rewrite Hno in Hmt. apply elem_of_list_lookup_2, elem_of_list_In in Ho.
      apply (proj1 (forallb_forall _ _) Hmt) in Ho. destruct q; [by eexists|done].
    - destruct f as [|[id path] f]; simpl in H; [by injection H as <-|].
      apply obind_ret in H as (m1 & H1 & H). unfold mem_release_protector in H1. apply obind_ret in H1 as ([m2 []] & H1 & [= <-]).
      apply mutate_at_ret in H1 as (a & a' & Ha & Hrel & ->).
      apply release_alloc_view in Hrel as (ps & pr & l & root & _ & Hi & Hy & _).
      destruct (Hm _ _ Ha _ _ _ Hi) as [-> _]. done.
  Qed.

  Theorem run_no_prot ops m :
    mem_run TO (mo_new TO) ops = Ret m -> Forall no_entry ops -> mem_no_prot m.
  Proof.
    assert (forall ops m m', mem_run TO m ops = Ret m' -> Forall no_entry ops -> mem_no_prot m -> mem_no_prot m') as Hg.
    { clear. unfold mem_run. induction ops as [|op ops IH]; intros m m' H Hf Hm; simpl in H.
      - by injection H as <-.
      - apply obind_ret in H as (m1 & H1 & H). apply Forall_cons in Hf as [Hf1 Hf]. eapply IH; [exact H|done|].
        by eapply mem_op_no_prot. }
    intros H Hf. eapply Hg; [exact H|done|]. intros id a Ha. simpl in Ha. by rewrite lookup_nil in Ha.
  Qed.
End Retag.
