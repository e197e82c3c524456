(** Which structured programs the builder accepts. *)
From Verif Require Export BuildProofs.

(** [tot o p Q]: [o] succeeds with [Q] if [p] is true, and is a panic if not *)
Definition tot {A} (o : Outcome A) (p : bool) (Q : A -> Prop) : Prop :=
  match o with Ret a => p = true /\ Q a | Panic => p = false | _ => False end.
Lemma tot_bind {A B} (o : Outcome A) (k : A -> Outcome B) p q r Q Q' :
  tot o p Q -> (forall a, p = true -> Q a -> tot (k a) q Q') -> r = p && q -> tot (obind o k) r Q'.
Proof.
  unfold tot. destruct o; simpl; try done.
  - intros [-> H] Hk ->. by apply Hk.
  - by intros -> _ ->.
Qed.
Lemma tot_impl {A} (o : Outcome A) p (Q Q' : A -> Prop) : tot o p Q -> (forall a, Q a -> Q' a) -> tot o p Q'.
Proof. unfold tot. destruct o; try done. intros [-> H] HQ. auto. Qed.
Lemma tot_eq {A} (o : Outcome A) p q (Q : A -> Prop) : tot o p Q -> p = q -> tot o q Q.
Proof. by intros H ->. Qed.

(** ** The names of a builder are fresh *)

Definition fresh (b : FnBuilder) : Prop :=
  (forall n, (fb_next_block b <= n)%N -> map_get (fb_blocks b) n = None) /\
  (forall c, fb_cur b = Some c -> (cb_name c < fb_next_block b)%N /\ map_get (fb_blocks b) (cb_name c) = None) /\
  (forall n, (fb_next_local b <= n)%N -> map_get (fb_locals b) n = None).

(** [grown b b']: [b'] has more blocks than [b], new ones and that which is the current one of [b] *)
Definition grown (b b' : FnBuilder) : Prop :=
  (fb_next_block b <= fb_next_block b')%N /\
  (forall n, (n < fb_next_block b)%N -> (forall c, fb_cur b = Some c -> cb_name c <> n) ->
     map_get (fb_blocks b') n = map_get (fb_blocks b) n) /\
  (forall c', fb_cur b' = Some c' -> (fb_next_block b <= cb_name c')%N \/ exists c, fb_cur b = Some c /\ cb_name c = cb_name c') /\
  (fb_start b' = fb_start b /\ fb_args b' = fb_args b /\ fb_ret b' = fb_ret b /\ fb_conv b' = fb_conv b /\ fb_name b' = fb_name b) /\
  (exists l, fb_blocks b' = fb_blocks b ++ l) /\ (exists l, fb_locals b' = fb_locals b ++ l).

Lemma grown_refl b : grown b b.
Proof. repeat split; try done; [intros c E; right; by exists c|exists []|exists []]; by rewrite app_nil_r. Qed.
Lemma grown_trans b b1 b2 : grown b b1 -> grown b1 b2 -> grown b b2.
Proof.
  intros (N1 & B1 & C1 & (S1 & S2 & S3 & S4 & S5) & (l & L) & (x & X)) (N2 & B2 & C2 & (T1 & T2 & T3 & T4 & T5) & (l' & L') & (x' & X')).
  split; [lia|]. split; [|split; [|split; [repeat split; congruence|split]]].
  - intros n Hn Hc. rewrite B2; [by apply B1|lia|]. intros c Ec <-. destruct (C1 _ Ec) as [?|(c' & Hc' & En)]; [lia|]. by apply (Hc c').
  - intros c' Ec'. destruct (C2 _ Ec') as [?|(c & Hc & <-)]; [left; lia|]. destruct (C1 _ Hc) as [?|(c0 & ? & <-)]; [by left|]. right. by exists c0.
  - exists (l ++ l'). by rewrite L', L, app_assoc.
  - exists (x ++ x'). by rewrite X', X, app_assoc.
Qed.

(** ** The basic methods *)

Lemma finish_open tm b c : fresh b -> fb_cur b = Some c -> exists b', finish_block tm b = Ret b' /\ fresh b' /\ grown b b' /\ fb_cur b' = None /\
  fb_next_block b' = fb_next_block b /\
  (forall n, n <> cb_name c -> map_get (fb_blocks b') n = map_get (fb_blocks b) n).
Proof.
  intros (F1 & F2 & F3) Hc. destruct (F2 _ Hc) as [Hlt Hnone].
  unfold finish_block. rewrite Hc. cbn [unwrap obind]. rewrite try_insert_fresh by done. cbn [obind]. eexists. split; [done|].
  assert (Hb : forall n, n <> cb_name c -> map_get (fb_blocks b ++ [(cb_name c, mkBlock (cb_statements c) tm (cb_kind c))]) n = map_get (fb_blocks b) n).
  { intros n Hn. rewrite get_app. destruct (map_get (fb_blocks b) n); [done|]. rewrite get_cons. by rewrite bool_decide_eq_false_2. }
  split; [split; [|split]|split; [|done]]; simpl; try done.
  - intros n Hn. rewrite Hb; [by apply F1|lia].
  - split; [simpl; lia|]. simpl. repeat split; try done; [|by eexists|exists []; by rewrite app_nil_r].
    intros n _ Hn. apply Hb. intros ->. by apply (Hn c).
Qed.
Lemma set_cur_open b n k : fb_cur b = None -> map_get (fb_blocks b) n = None ->
  set_cur_block b n k = Ret (with_cur b (Some (mkCur [] n k))).
Proof. intros Hc Hn. unfold set_cur_block, map_contains. by rewrite Hn, Hc. Qed.
Lemma fresh_set b n k st : fresh b -> (n < fb_next_block b)%N -> map_get (fb_blocks b) n = None -> fresh (with_cur b (Some (mkCur st n k))).
Proof. intros (F1 & F2 & F3) Hn Hb. split; [exact F1|]. split; [|exact F3]. simpl. intros ? [= <-]. done. Qed.
Lemma fresh_clear b : fresh b -> fresh (with_cur b None).
Proof. intros (F1 & F2 & F3). repeat split; simpl; done. Qed.
Lemma grown_set b0 b n k st : grown b0 b -> fb_cur b = None -> (fb_next_block b0 <= n)%N -> grown b0 (with_cur b (Some (mkCur st n k))).
Proof.
  intros (N1 & B1 & C1 & S1 & L1) Hc Hn. split; [done|]. split; [done|]. split; [|done]. simpl. intros c' [= <-]. by left.
Qed.
Lemma fresh_declare b : fresh b -> fresh (with_next_block b (fb_next_block b + 1)).
Proof.
  intros (F1 & F2 & F3). repeat split; simpl; try done; [intros n Hn; apply F1; lia| |].
  - intros. destruct (F2 _ H). lia.
  - intros. by apply F2.
Qed.
Lemma grown_declare b : grown b (with_next_block b (fb_next_block b + 1)).
Proof.
  destruct (grown_refl b) as (_ & H2 & H3 & H4). split; [simpl; lia|]. done.
Qed.
Lemma fresh_none b n : fresh b -> (fb_next_block b <= n)%N -> map_get (fb_blocks b) n = None.
Proof. intros (F1 & _). apply F1. Qed.

(** what a builder with a current block becomes *)
Definition becomes (b : FnBuilder) (c0 : CurBlock) (f : bool) (b' : FnBuilder) : Prop :=
  fresh b' /\ grown b b' /\ match fb_cur b' with Some c' => f = true /\ cb_kind c' = cb_kind c0 | None => f = false end.
Definition builds (g : Builder) (p f : bool) : Prop := forall b c0, fresh b -> fb_cur b = Some c0 -> tot (g b) p (becomes b c0 f).

Lemma finish_builds tm : builds (finish_block tm) true false.
Proof.
  intros b c0 Hf Hc. destruct (finish_open tm b c0 Hf Hc) as (b' & -> & Hf' & Hg & Hc' & _). split; [done|]. split; [done|]. split; [done|].
  by rewrite Hc'.
Qed.
Lemma push_builds s : builds (push_statement s) true true.
Proof.
  intros b c0 Hf Hc. unfold push_statement, cur_block. rewrite Hc. split; [done|]. destruct Hf as (F1 & F2 & F3).
  split; [|split; [|done]].
  - apply fresh_set; [done|by apply F2..].
  - destruct (grown_refl b) as (G1 & G2 & G3 & G4). split; [done|]. split; [done|]. split; [|done].
    intros c' [= <-]. right. by exists c0.
Qed.
Lemma next_builds tm : builds (finish_with_next_block tm) true true.
Proof.
  intros b c0 Hf Hc. unfold finish_with_next_block, cur_block, declare_block. rewrite Hc. cbn [unwrap obind].
  destruct (finish_open (tm (fb_next_block b)) _ c0 (fresh_declare b Hf) Hc) as (b' & -> & Hf' & Hg & Hc' & Hn & Hb). cbn [obind].
  assert (Hnone : map_get (fb_blocks b') (fb_next_block b) = None).
  { rewrite Hb; [simpl; apply fresh_none; [done|lia]|]. destruct Hf as (_ & F2 & _). destruct (F2 _ Hc). lia. }
  rewrite set_cur_open by done. split; [done|]. simpl in Hn. split; [|split; [|done]].
  - apply fresh_set; [done|lia|done].
  - apply grown_set; [|done|lia]. exact (grown_trans _ _ _ (grown_declare b) Hg).
Qed.
Lemma call_builds ret f args conv unwind :
  builds (fun b => let '(next, b) := declare_block b in handle_call ret f args conv (Some next) unwind b) true true.
Proof. exact (next_builds (fun n => TmCall f conv args ret (Some n) unwind)). Qed.
Lemma noret_builds ret f args : builds (call_noret ret f args) true false.
Proof.
  intros b c0 Hf Hc. unfold call_noret, handle_call, cur_block. rewrite Hc. cbn [unwrap obind].
  destruct (finish_open (TmCall f CcRust args ret None None) b c0 Hf Hc) as (b' & -> & Hf' & Hg & Hc' & _). cbn [obind].
  split; [done|]. split; [done|]. split; [done|]. by rewrite Hc'.
Qed.
Lemma local_total b ty : fresh b -> exists l b', declare_local b ty = Ret (l, b') /\ fresh b' /\ grown b b' /\ fb_cur b' = fb_cur b.
Proof.
  intros (F1 & F2 & F3). unfold declare_local. rewrite try_insert_fresh by (apply F3; lia). cbn [obind]. eexists _, _. split; [done|].
  split; [split; [|split]|split; [|done]]; simpl; try done.
  - intros n Hn. rewrite get_app, F3 by lia. rewrite get_cons, bool_decide_eq_false_2; [done|lia].
  - destruct (grown_refl b) as (G1 & G2 & G3 & G4 & G5 & G6). repeat (split; [done|]). by eexists.
Qed.

(** a handler *)
Lemma handler_builds k g p f b : builds g p f -> fresh b -> tot (fb_handler k g b) (p && negb f) (fun nb =>
  fresh (snd nb) /\ grown b (snd nb) /\ fb_cur (snd nb) = fb_cur b).
Proof.
  intros Hg Hf.
  assert (H : forall kd, tot (handler_block kd g b) (p && negb f) (fun nb => fresh (snd nb) /\ grown b (snd nb) /\ fb_cur (snd nb) = fb_cur b)).
  2: { destruct k; apply H. }
  intros kd. unfold handler_block, declare_block.
  pose proof (fresh_declare _ (fresh_clear _ Hf)) as Hf1.
  set (b1 := with_next_block (with_cur b None) (fb_next_block (with_cur b None) + 1)) in *.
  assert (Hn1 : map_get (fb_blocks b1) (fb_next_block b) = None) by (apply (fresh_none b); [done|lia]).
  assert (Hlt : (fb_next_block b < fb_next_block b1)%N) by (simpl; lia).
  change (fb_next_block (with_cur b None)) with (fb_next_block b).
  rewrite set_cur_open by done. cbn [obind].
  set (b2 := with_cur b1 (Some (mkCur [] (fb_next_block b) kd))).
  assert (Hf2 : fresh b2) by (by apply fresh_set).
  eapply tot_bind; [exact (Hg b2 _ Hf2 eq_refl)| |reflexivity].
  intros b3 _ (Hf3 & G3 & Hk3). destruct (fb_cur b3) as [c3|] eqn:Ec3.
  - destruct Hk3 as [-> _]. done.
  - subst f. split; [done|]. simpl.
    (* the blocks of [b] are untouched *)
    assert (Hb3 : forall n, (n < fb_next_block b)%N -> map_get (fb_blocks b3) n = map_get (fb_blocks b) n).
    { intros n Hn. destruct G3 as (_ & B3 & _). apply B3; [simpl; lia|]. intros c [= <-]. simpl. lia. }
    destruct G3 as (N3 & _ & _ & S3 & L3). simpl in N3, L3, S3. destruct Hf as (F1 & F2 & F3). destruct Hf3 as (E1 & E2 & E3).
    split; [|split; [|done]].
    + split; [exact E1|]. split; [|exact E3]. intros c Hc. simpl in *. destruct (F2 _ Hc). rewrite Hb3 by done. split; [lia|done].
    + split; [simpl; lia|]. split; [intros; by apply Hb3|]. split; [|done]. intros c' Hc'. right. by exists c'.
Qed.

(** ** Switches *)

Lemma blocks_total cases b br mp : NoDup (List.map fst mp) ->
  (exists r, switch_blocks cases b br mp = Ret r) /\ NoDup (List.map fst mp ++ List.map fst cases) \/
  switch_blocks cases b br mp = Panic /\ ~ NoDup (List.map fst mp ++ List.map fst cases).
Proof.
  revert b br mp. induction cases as [|[i g] r IH]; intros b br mp Hmp; simpl.
  - left. rewrite app_nil_r. by split; [eexists|].
  - unfold try_insert, map_contains. destruct (map_get mp i) eqn:Ei.
    + right. split; [done|]. intros Hd. apply NoDup_app in Hd as (_ & Hd & _).
      destruct (decide (i ∈ List.map fst mp)) as [Hin|Hn]; [by apply (Hd i Hin); left|].
      assert (map_get mp i = None) by (apply get_none_in; intros Hi; by apply Hn, elem_of_list_In). congruence.
    + cbn [obind]. rewrite insert_fresh by done. apply get_none_in in Ei.
      assert (H' : NoDup (List.map fst (mp ++ [(i, fb_next_block b)]))).
      { rewrite map_app. apply NoDup_app. split; [done|]. split; [|by apply NoDup_singleton].
        intros x Hx Hx'. apply elem_of_list_singleton in Hx' as ->. by apply Ei, elem_of_list_In. }
      specialize (IH (with_next_block b (fb_next_block b + 1)) (br ++ [(g, fb_next_block b)]) _ H').
      rewrite map_app in IH. simpl in IH. rewrite <- app_assoc in IH. done.
Qed.

Definition orb_all (l : list bool) : bool := existsb id l.

(** the branches: their names are between [lo] and [hi], and no block yet *)
Lemma branches_total b0 k lo hi : (fb_next_block b0 <= lo)%N -> forall (l : list (Builder * BbName)) (pfs : list (bool * bool)) b after acc,
  Forall2 (fun gn pf => builds (fst gn) (fst pf) (snd pf)) l pfs ->
  NoDup (List.map snd l) -> Forall (fun gn => (lo <= snd gn < hi)%N /\ map_get (fb_blocks b) (snd gn) = None) l ->
  fresh b -> grown b0 b -> fb_cur b = None -> (hi <= fb_next_block b)%N ->
  match after with Some d => acc = true /\ (hi <= d < fb_next_block b)%N /\ map_get (fb_blocks b) d = None | None => acc = false end ->
  tot (fold_m (switch_branch k) l (b, after)) (forallb fst pfs) (fun ba =>
    fresh (fst ba) /\ grown b0 (fst ba) /\ fb_cur (fst ba) = None /\
    match snd ba with
    | Some d => acc || existsb snd pfs = true /\ (hi <= d < fb_next_block (fst ba))%N /\ map_get (fb_blocks (fst ba)) d = None
    | None => acc || existsb snd pfs = false
    end).
Proof.
  intros Hlo l. induction l as [|[g n] r IH]; intros pfs b after acc Hpf Hnd Hl Hf Hg Hc Hhi Ha; inversion Hpf as [|? [p f] ? pfs' Hpf1 Hpf2]; subst.
  - simpl. split; [done|]. simpl. rewrite orb_false_r. destruct after; done.
  - change (fold_m (switch_branch k) ((g, n) :: r) (b, after)) with
      (obind (switch_branch k (b, after) (g, n)) (fold_m (switch_branch k) r)).
    apply Forall_cons in Hl as [[Hn Hnone] Hl]. simpl in Hn, Hnone, Hpf1. apply NoDup_cons in Hnd as [Hnr Hnd].
    simpl in Hnr.
    eapply (tot_bind _ _ p (forallb fst pfs') _ (fun ba => fresh (fst ba) /\ grown b0 (fst ba) /\ fb_cur (fst ba) = None /\
      (hi <= fb_next_block (fst ba))%N /\ Forall (fun gn => (lo <= snd gn < hi)%N /\ map_get (fb_blocks (fst ba)) (snd gn) = None) r /\
      match snd ba with Some d => acc || f = true /\ (hi <= d < fb_next_block (fst ba))%N /\ map_get (fb_blocks (fst ba)) d = None
      | None => acc || f = false end)).
    + unfold switch_branch. cbn [fst snd]. rewrite set_cur_open by done. cbn [obind].
      set (b1 := with_cur b (Some (mkCur [] n k))).
      assert (Hf1 : fresh b1) by (apply fresh_set; [done|lia|done]).
      eapply (tot_bind _ _ p true); [exact (Hpf1 b1 _ Hf1 eq_refl)| |by rewrite andb_true_r].
      intros b2 _ (Hf2 & G2 & Hk2).
      assert (Hb2 : forall m, (m < fb_next_block b)%N -> m <> n -> map_get (fb_blocks b2) m = map_get (fb_blocks b) m).
      { intros m Hm Hmn. destruct G2 as (_ & B2 & _). apply B2; [done|]. intros c [= <-]. simpl. congruence. }
      assert (Hg2 : grown b0 b2).
      { refine (grown_trans _ _ _ _ G2). apply grown_set; [done|done|lia]. }
      assert (Hnx : (fb_next_block b <= fb_next_block b2)%N) by apply G2.
      assert (Hr2 : Forall (fun gn => (lo <= snd gn < hi)%N /\ map_get (fb_blocks b2) (snd gn) = None) r).
      { apply Forall_forall. intros [g' n'] Hin. rewrite Forall_forall in Hl. destruct (Hl _ Hin) as [? Hno]. split; [done|].
        simpl in *. rewrite Hb2; [done|lia|]. intros ->. apply Hnr. apply elem_of_list_In. apply elem_of_list_In in Hin.
        exact (in_map snd _ _ Hin). }
      assert (Ha2 : forall d, after = Some d -> map_get (fb_blocks b2) d = None).
      { intros d ->. destruct Ha as (_ & ? & ?). rewrite Hb2; [done|lia|lia]. }
      destruct (fb_cur b2) as [c2|] eqn:Hc2.
      * destruct Hk2 as [-> _].
        assert (exists d b3, match after with Some n0 => (n0, b2) | None => declare_block b2 end = (d, b3) /\ fresh b3 /\ grown b0 b3 /\
          fb_cur b3 = Some c2 /\ fb_blocks b3 = fb_blocks b2 /\ (fb_next_block b2 <= fb_next_block b3)%N /\
          (hi <= d < fb_next_block b3)%N /\ map_get (fb_blocks b3) d = None /\ d <> cb_name c2)
          as (d & b3 & -> & Hf3 & G3 & Hc3 & Hb3 & Hnx3 & Hd & Hdn & Hdc).
        { destruct after as [d|].
          - destruct Ha as (_ & ? & ?). exists d, b2. do 5 (split; [done|]). split; [lia|]. split; [lia|]. split; [by apply Ha2|].
            destruct G2 as (_ & _ & C2 & _). intros ->. destruct (C2 _ Hc2) as [Hx|(c & [= <-] & Hx)]; simpl in Hx; lia.
          - exists (fb_next_block b2), (with_next_block b2 (fb_next_block b2 + 1)). split; [done|]. split; [by apply fresh_declare|].
            split; [exact (grown_trans _ _ _ Hg2 (grown_declare b2))|]. split; [done|]. split; [done|]. simpl.
            split; [lia|]. split; [lia|]. split; [apply fresh_none; [done|lia]|].
            destruct Hf2 as (_ & E2 & _). destruct (E2 _ Hc2). lia. }
        unfold fb_goto. destruct (finish_open (TmGoto d) b3 c2 Hf3 Hc3) as (b4 & -> & Hf4 & G4 & Hc4 & Hn4 & Hb4). cbn [obind].
        split; [done|]. cbn [fst snd]. split; [done|]. split; [exact (grown_trans _ _ _ G3 G4)|]. split; [done|]. split; [lia|]. split.
        -- apply Forall_forall. intros [g' n'] Hin. rewrite Forall_forall in Hr2. destruct (Hr2 _ Hin) as [? Hno]. split; [done|].
           simpl in *. rewrite Hb4, Hb3; [done|]. destruct G2 as (_ & _ & C2 & _).
           destruct (C2 _ Hc2) as [Hx|(c & [= <-] & Hx)]; simpl in Hx; [lia|]. intros ->. apply Hnr. rewrite Hx.
           apply elem_of_list_In. apply elem_of_list_In in Hin. exact (in_map snd _ _ Hin).
        -- rewrite orb_true_r. split; [done|]. rewrite Hn4. split; [lia|]. by rewrite Hb4.
      * subst f. split; [done|]. cbn [fst snd]. split; [done|]. split; [done|]. split; [done|]. split; [lia|]. split; [done|].
        rewrite orb_false_r. destruct after as [d|]; [|done]. destruct Ha as (? & ? & ?). split; [done|]. split; [lia|]. by apply Ha2.
    + intros [b3 after3] _ (Hf3 & G3 & Hc3 & Hn3 & Hr3 & Ha3). cbn [fst snd] in *.
      eapply tot_impl; [apply (IH pfs' b3 after3 (acc || f)); try done|]. intros [b4 after4]. simpl.
      rewrite <- orb_assoc. done.
    + done.
Qed.

Lemma switch_builds v (cases : list (Z * Builder)) fallback (pfs : list (bool * bool)) p f :
  Forall2 (fun ig pf => builds (snd ig) (fst pf) (snd pf)) cases pfs -> builds fallback p f ->
  builds (switch_int v cases fallback) (forallb fst pfs && bool_decide (NoDup (List.map fst cases)) && p) (existsb snd pfs || f).
Proof.
  intros Hpf Hfb b c0 Hf Hc. unfold switch_int, cur_block. rewrite Hc. cbn [unwrap obind].
  destruct (blocks_total cases b [] [] ltac:(by apply NoDup_nil)) as [[([[br mp] b1] & E) Hnd]|[-> Hnd]]; simpl in Hnd.
  2: { simpl. rewrite (bool_decide_eq_false_2 _ Hnd), andb_false_r. done. }
  rewrite E. cbn [obind]. rewrite (bool_decide_eq_true_2 _ Hnd), andb_true_r.
  assert (Hg1 : grown b b1 /\ fresh b1).
  { pose proof E as E'. apply blocks_ret in E' as (ns & _ & _ & _ & Hc1 & Hb1 & Hl1 & Hnl1 & _ & Hn1).
    clear - E Hf Hc1 Hb1 Hl1 Hnl1 Hn1.
    assert (G : forall cases b br mp br' mp' b', switch_blocks cases b br mp = Ret (br', mp', b') -> grown b b').
    { clear. induction cases as [|[i g] r IH]; intros b br mp br' mp' b' E; simpl in E; [injection E as _ _ <-; apply grown_refl|].
      destruct (try_insert _ _ _) as [mp1| | |]; try discriminate E. cbn [obind] in E. apply IH in E.
      exact (grown_trans _ _ _ (grown_declare b) E). }
    split; [exact (G _ _ _ _ _ _ _ E)|]. destruct Hf as (F1 & F2 & F3). rewrite <- Hb1 in *. rewrite <- Hl1, <- Hnl1 in *. split; [|split; [|done]].
    - intros n Hn. apply F1. lia.
    - rewrite Hc1. intros c Hc. destruct (F2 _ Hc). split; [lia|done]. }
  destruct Hg1 as [Hg1 Hf1].
  apply blocks_ret in E as (ns & Hl & -> & -> & Hc1 & Hb1 & Hl1 & Hnl1 & Hns & Hn1). simpl.
  rewrite Hc in Hc1.
  destruct (finish_open (TmSwitch v (zip (List.map fst cases) ns) (fb_next_block b1)) _ c0 (fresh_declare _ Hf1) Hc1)
    as (b2 & -> & Hf2 & G2 & Hc2 & Hn2 & Hb2). cbn [obind]. simpl in Hn2, Hb2.
  assert (Hg2 : grown b b2) by exact (grown_trans _ _ _ Hg1 (grown_trans _ _ _ (grown_declare b1) G2)).
  assert (Hlen : length cases = length pfs) by exact (Forall2_length _ _ _ Hpf).
  eapply (tot_bind _ _ (forallb fst pfs && p) true); [| |by rewrite andb_true_r].
  - eapply tot_eq; [apply (branches_total b (cb_kind c0) (fb_next_block b) (fb_next_block b1 + 1)) with (pfs := pfs ++ [(p, f)]) (acc := false)|].
    + lia.
    + apply Forall2_app; [|by repeat constructor]. clear - Hpf Hl. revert ns Hl. induction Hpf as [|[i g] pf cs pfs H _ IH]; intros ns Hl; [constructor|].
      destruct ns as [|n ns]; [done|]. simpl. constructor; [done|]. apply IH. simpl in Hl. lia.
    + rewrite map_app. simpl. rewrite Hns.
      assert (Hz : forall (A : Type) (l : list A) (f : nat -> N), List.map snd (zip l (List.map f (seq 0 (length l)))) = List.map f (seq 0 (length l))).
      { clear. intros A l. induction l as [|x l IH]; intros f; [done|]. simpl. f_equal. rewrite <- seq_shift, map_map. apply IH. }
      rewrite <- (map_length snd cases), Hz.
      apply NoDup_app. split; [|split; [|by apply NoDup_singleton]].
      * change (List.map ?f ?l) with (f <$> l). apply NoDup_fmap_2; [|apply NoDup_ListNoDup, seq_NoDup]. intros i j. lia.
      * intros x Hx Hx'. apply elem_of_list_singleton in Hx' as ->. apply elem_of_list_In, in_map_iff in Hx as (i & Hi & Hi').
        apply in_seq in Hi'. rewrite map_length in Hi'. lia.
    + assert (Hcb : (cb_name c0 < fb_next_block b)%N) by (destruct Hf as (_ & F2 & _); by apply F2).
      apply Forall_app. split.
      * apply Forall_forall. intros [g n] Hin. apply elem_of_list_In in Hin. apply in_combine_r in Hin. simpl.
        rewrite Hns in Hin. apply in_map_iff in Hin as (i & <- & Hi). apply in_seq in Hi. split; [lia|]. rewrite Hb2; [|lia].
        rewrite Hb1. apply fresh_none; [done|lia].
      * repeat constructor; simpl; try lia. rewrite Hb2; [|lia]. apply fresh_none; [done|lia].
    + done.
    + done.
    + done.
    + lia.
    + done.
    + rewrite forallb_app. simpl. by rewrite andb_true_r.
  - intros [b3 after] _ (Hf3 & G3 & Hc3 & Ha3). cbn [fst snd] in *. rewrite existsb_app in Ha3. simpl in Ha3. rewrite orb_false_r in Ha3.
    destruct after as [d|].
    + destruct Ha3 as (Hx & Hd & Hdn). rewrite set_cur_open by done. split; [done|]. split; [|split].
      * apply fresh_set; [done|lia|done].
      * apply grown_set; [done|done|lia].
      * simpl. done.
    + split; [done|]. split; [done|]. split; [done|]. by rewrite Hc3.
Qed.

Lemma builds_eq g p f p' f' : builds g p f -> p = p' -> f = f' -> builds g p' f'.
Proof. by intros H -> ->. Qed.

(** ** Structured programs *)

Lemma passive_proper c : passive c = true -> proper_cmd c = true /\ falls c = true.
Proof.
  induction c using Cmd_ind'; simpl; try done. intros [H1 H2]%andb_prop. destruct (IHc1 H1) as [-> ->], (IHc2 H2) as [-> ->]. by rewrite H2.
Qed.

Lemma emit_total c : builds (emit c) (proper_cmd c) (falls c) /\
  forall b, fresh b -> fb_cur b = None -> tot (emit c b) (passive c) (fun b' => fresh b' /\ grown b b' /\ fb_cur b' = None).
Proof.
  induction c as [|c d IHc IHd|ty|s|op args ret|f args ret|f conv args ret k h IH|v k h IH|e|v cases fb IHs IHf|c t e IHt IHe|c body IH]
    using Cmd_ind'; (split; [intros b c0 Hf Hc|intros b Hf Hc]); cbn [emit passive proper_cmd falls].
  all: try (unfold fb_while, fb_if, switch_int, push_statement, fb_intrinsic, finish_with_next_block, call_nounwind, handle_call, cur_block; simpl;
            rewrite ?Hc; done).
  - split; [done|]. split; [done|]. split; [apply grown_refl|]. by rewrite Hc.
  - split; [done|]. split; [done|]. split; [apply grown_refl|done].
  - destruct IHc as [IHc _], IHd as [IHd IHd'].
    eapply (tot_bind _ _ _ (if falls c then proper_cmd d else passive d)); [by apply IHc| |].
    + intros b1 _ (Hf1 & G1 & Hc1). destruct (fb_cur b1) as [c1|] eqn:Ec1.
      * destruct Hc1 as [-> Hk]. eapply tot_impl; [by apply (IHd b1 c1)|]. intros b2 (Hf2 & G2 & Hc2). split; [done|].
        split; [exact (grown_trans _ _ _ G1 G2)|]. simpl. destruct (fb_cur b2); [|done]. destruct Hc2 as [? ?]. split; [done|congruence].
      * rewrite Hc1. eapply tot_impl; [by apply (IHd' b1)|]. intros b2 (Hf2 & G2 & Hc2). split; [done|].
        split; [exact (grown_trans _ _ _ G1 G2)|]. by rewrite Hc2.
    + destruct (falls c); simpl; [by rewrite andb_true_r|]. destruct (passive d) eqn:Hp; [|by rewrite !andb_false_r].
      by rewrite (proj1 (passive_proper d Hp)), !andb_true_r.
  - destruct IHc as [_ IHc], IHd as [_ IHd].
    eapply tot_bind; [by apply IHc| |done]. intros b1 _ (Hf1 & G1 & Hc1). eapply tot_impl; [by apply IHd|].
    intros b2 (Hf2 & G2 & Hc2). split; [done|]. split; [exact (grown_trans _ _ _ G1 G2)|done].
  - destruct (local_total b ty Hf) as (l & b' & -> & Hf' & G' & Hc'). split; [done|]. split; [done|]. split; [done|]. by rewrite Hc', Hc.
  - destruct (local_total b ty Hf) as (l & b' & -> & Hf' & G' & Hc'). split; [done|]. split; [done|]. split; [done|]. by rewrite Hc'.
  - by apply push_builds.
  - by apply next_builds.
  - by apply call_builds.
  - destruct IH as [IH _]. eapply (tot_bind _ _ _ true); [by apply (handler_builds k _ _ _ b IH)| |by rewrite andb_true_r].
    intros [n b1] _ (Hf1 & G1 & Hc1). cbn [fst snd] in *. rewrite Hc in Hc1.
    eapply tot_impl; [by apply (call_builds ret f args conv (Some n) b1 c0)|]. intros b2 (Hf2 & G2 & Hc2).
    split; [done|]. split; [exact (grown_trans _ _ _ G1 G2)|]. exact Hc2.
  - destruct IH as [IH _]. eapply (tot_bind _ _ _ false); [by apply (handler_builds k _ _ _ b IH)| |by rewrite andb_false_r].
    intros [n b1] _ (Hf1 & G1 & Hc1). cbn [fst snd] in *. unfold call_with_conv, handle_call, cur_block. simpl. by rewrite Hc1, Hc.
  - destruct IH as [IH _]. eapply (tot_bind _ _ _ true); [by apply (handler_builds k _ _ _ b IH)| |by rewrite andb_true_r].
    intros [n b1] _ (Hf1 & G1 & Hc1). cbn [fst snd] in *. rewrite Hc in Hc1.
    eapply tot_impl; [by apply (finish_builds (TmStartUnwind v n) b1 c0)|]. intros b2 (Hf2 & G2 & Hc2).
    split; [done|]. split; [exact (grown_trans _ _ _ G1 G2)|]. exact Hc2.
  - destruct IH as [IH _]. eapply (tot_bind _ _ _ false); [by apply (handler_builds k _ _ _ b IH)| |by rewrite andb_false_r].
    intros [n b1] _ (Hf1 & G1 & Hc1). cbn [fst snd] in *. unfold fb_start_unwind, finish_block. simpl. by rewrite Hc1, Hc.
  - destruct e; first [by apply finish_builds|by apply noret_builds].
  - destruct e; unfold emit_end, fb_exit, fb_abort, fb_unreachable, fb_return, fb_resume_unwind, call_noret, handle_call, finish_block, cur_block;
      by rewrite Hc.
  - destruct IHf as [IHf _]. revert b c0 Hf Hc.
    refine (builds_eq _ _ _ _ _ (switch_builds v _ _ (List.map (fun ic => (proper_cmd (snd ic), falls (snd ic))) cases) _ _ _ IHf) _ _).
    + clear -IHs. induction IHs as [|[i c] r [H _] _ IH]; constructor; [exact H|exact IH].
    + rewrite map_map. simpl. f_equal. f_equal. clear. induction cases as [|x r IH]; [done|]. simpl. by rewrite IH.
    + f_equal. clear. induction cases as [|x r IH]; [done|]. simpl. by rewrite IH.
  - destruct IHt as [IHt _], IHe as [IHe _]. revert b c0 Hf Hc.
    refine (builds_eq _ _ _ _ _ (switch_builds _ [(1, emit t)] _ [(proper_cmd t, falls t)] _ _ _ IHe) _ _).
    + by repeat constructor.
    + rewrite bool_decide_eq_true_2 by apply NoDup_singleton. simpl. by rewrite !andb_true_r.
    + simpl. by rewrite orb_false_r.
  - destruct IH as [IH _]. unfold fb_while, declare_block, cur_block, fb_goto. cbn [fb_cur with_next_block]. rewrite Hc. cbn [unwrap obind].
    destruct (finish_open (TmGoto (fb_next_block b)) _ c0 (fresh_declare b Hf) Hc) as (b1 & -> & Hf1 & G1 & Hc1 & Hn1 & Hb1). simpl in Hn1, Hb1. cbn [obind].
    assert (Hnone : map_get (fb_blocks b1) (fb_next_block b) = None).
    { rewrite Hb1; [apply fresh_none; [done|lia]|]. destruct Hf as (_ & F2 & _). destruct (F2 _ Hc). lia. }
    rewrite set_cur_open by done. cbn [obind]. set (b2 := with_cur b1 _).
    assert (Hf2 : fresh b2) by (apply fresh_set; [done|lia|done]).
    assert (G2 : grown b b2) by (apply grown_set; [exact (grown_trans _ _ _ (grown_declare b) G1)|done|lia]).
    set (n := fb_next_block b) in *.
    assert (Hbody : forall b c, fresh b -> fb_cur b = Some c -> tot (let! b := emit body b in match fb_cur b with Some _ => fb_goto n b | None => Ret b end)
      (proper_cmd body) (becomes b c false)).
    { generalize n. clear - IH. intros n b c Hf Hc. eapply (tot_bind _ _ _ true); [by apply (IH b c)| |by rewrite andb_true_r].
      intros b1 _ (Hf1 & G1 & Hc1). destruct (fb_cur b1) as [c1|] eqn:E1.
      - eapply tot_impl; [by apply (finish_builds (TmGoto n) b1 c1)|]. intros b2 (Hf2 & G2 & Hc2). split; [done|].
        split; [exact (grown_trans _ _ _ G1 G2)|]. destruct (fb_cur b2); [|done]. by destruct Hc2.
      - split; [done|]. split; [done|]. split; [done|]. by rewrite E1. }
    assert (Hskip : builds (fun b => Ret b) true true).
    { clear. intros b c Hf Hc. split; [done|]. split; [done|]. split; [apply grown_refl|]. by rewrite Hc. }
    eapply tot_impl.
    + eapply tot_eq; [refine (switch_builds _ [(1, _)] _ [(proper_cmd body, false)] _ _ _ Hskip b2 _ Hf2 eq_refl)|].
      * constructor; [exact Hbody|constructor].
      * rewrite bool_decide_eq_true_2 by apply NoDup_singleton. simpl. by rewrite !andb_true_r.
    + intros b3 (Hf3 & G3 & Hc3). split; [done|]. split; [exact (grown_trans _ _ _ G2 G3)|]. exact Hc3.
Qed.

(** ** Variables *)

Definition numbered_from {A} (n : N) (l : list A) : list (N * A) := zip (List.map (fun i => (n + N.of_nat i)%N) (seq 0 (length l))) l.
Lemma numbered_app {A} n (l l' : list A) : numbered_from n (l ++ l') = numbered_from n l ++ numbered_from (n + N.of_nat (length l)) l'.
Proof.
  revert n. induction l as [|x l IH]; intros n; unfold numbered_from in *; simpl.
  - f_equal. apply map_ext. intros. lia.
  - f_equal. rewrite <- !seq_shift, !map_map.
    specialize (IH (n + 1)%N). etransitivity; [|etransitivity; [exact IH|]].
    + f_equal. apply map_ext. intros. lia.
    + f_equal; f_equal; apply map_ext; intros; lia.
Qed.
Definition adds (b b' : FnBuilder) (d : list Ty) : Prop :=
  fb_locals b' = fb_locals b ++ numbered_from (fb_next_local b) d /\ fb_next_local b' = (fb_next_local b + N.of_nat (length d))%N.
Lemma adds_nil b b' : fb_locals b' = fb_locals b -> fb_next_local b' = fb_next_local b -> adds b b' [].
Proof. intros H1 H2. split; [by rewrite app_nil_r|]. simpl. lia. Qed.
Lemma adds_trans b b1 b2 d d' : adds b b1 d -> adds b1 b2 d' -> adds b b2 (d ++ d').
Proof.
  intros [L1 N1] [L2 N2]. split; [by rewrite L2, L1, N1, numbered_app, app_assoc|]. rewrite N2, N1, app_length. lia.
Qed.
Lemma adds_same b b1 b2 d : fb_locals b1 = fb_locals b -> fb_next_local b1 = fb_next_local b -> adds b1 b2 d -> adds b b2 d.
Proof. intros L N [L' N']. unfold adds. by rewrite L', N', L, N. Qed.
Lemma adds_same_r b b1 b2 d : fb_locals b2 = fb_locals b1 -> fb_next_local b2 = fb_next_local b1 -> adds b b1 d -> adds b b2 d.
Proof. intros L N [L' N']. unfold adds. by rewrite L, N. Qed.
Lemma adds_declare b ty l b' : declare_local b ty = Ret (l, b') -> adds b b' [ty] /\ fb_ret b' = fb_ret b /\ fb_args b' = fb_args b /\ l = PLocal (fb_next_local b).
Proof.
  unfold declare_local. destruct (try_insert _ _ _) as [ls| | |] eqn:E; try done. apply try_insert_ret in E as [_ ->].
  intros [= <- <-]. split; [|done]. split; simpl; [|lia]. unfold numbered_from. simpl. by rewrite N.add_0_r.
Qed.

Lemma finish_vars tm b b' : finish_block tm b = Ret b' -> fb_locals b' = fb_locals b /\ fb_next_local b' = fb_next_local b.
Proof. intros E. apply finish_ret in E as (c & _ & _ & _ & _ & _ & ? & ?). done. Qed.
Lemma set_cur_vars b n k b' : set_cur_block b n k = Ret b' -> fb_locals b' = fb_locals b /\ fb_next_local b' = fb_next_local b.
Proof. intros E. by apply set_cur_ret in E as (_ & _ & ->). Qed.
Lemma next_vars tm b b' : finish_with_next_block tm b = Ret b' -> fb_locals b' = fb_locals b /\ fb_next_local b' = fb_next_local b.
Proof.
  intros E. unfold finish_with_next_block, cur_block, declare_block in E. destruct (fb_cur b); [|done]. cbn [unwrap obind] in E.
  destruct (finish_block _ _) as [b1| | |] eqn:E1; try discriminate E. cbn [obind] in E.
  apply set_cur_vars in E as [-> ->]. by apply finish_vars in E1 as [-> ->].
Qed.
Lemma call_vars ret f args conv next unwind b b' : handle_call ret f args conv next unwind b = Ret b' ->
  fb_locals b' = fb_locals b /\ fb_next_local b' = fb_next_local b.
Proof.
  intros E. unfold handle_call, cur_block in E. destruct (fb_cur b); [|done]. cbn [unwrap obind] in E.
  destruct (finish_block _ _) as [b1| | |] eqn:E1; try discriminate E. cbn [obind] in E. apply finish_vars in E1 as [<- <-].
  destruct next; [by apply set_cur_vars in E|by injection E as <-].
Qed.
Lemma handler_adds k g d b n b' : (forall b b', g b = Ret b' -> adds b b' d) -> fb_handler k g b = Ret (n, b') -> adds b b' d.
Proof.
  intros Hg E. assert (exists kd, handler_block kd g b = Ret (n, b')) as (kd & E') by (destruct k; by eexists).
  apply handler_ret in E' as (b1 & b2 & _ & _ & -> & _ & E' & _ & ->). apply Hg in E'. exact E'.
Qed.
Lemma branches_adds k l ds b after b' after' : Forall2 (fun gn d => forall b b', fst gn b = Ret b' -> adds b b' d) l ds ->
  fold_m (switch_branch k) l (b, after) = Ret (b', after') -> adds b b' (concat ds).
Proof.
  intros H. revert b after. induction H as [|[g n] d r ds Hg _ IH]; intros b after E.
  - injection E as <- _. by apply adds_nil.
  - change (fold_m (switch_branch k) ((g, n) :: r) (b, after)) with
      (obind (switch_branch k (b, after) (g, n)) (fold_m (switch_branch k) r)) in E.
    destruct (switch_branch k (b, after) (g, n)) as [[b0 after0]| | |] eqn:E0; try discriminate E. cbn [obind] in E.
    apply branch_ret in E0 as (b1 & b2 & E1 & E2 & _ & E3). apply set_cur_vars in E1 as [L1 N1]. apply Hg in E2.
    apply IH in E. simpl. refine (adds_trans _ b0 _ _ _ _ E). apply (adds_same _ b1); [done|done|].
    destruct (fb_cur b2); [|by destruct E3 as [-> _]]. destruct E3 as (d0 & b3 & _ & E3 & Hd). apply finish_vars in E3 as [L3 N3].
    assert (fb_locals b3 = fb_locals b2 /\ fb_next_local b3 = fb_next_local b2) as [L4 N4] by (destruct Hd as [[_ ->]|[_ [= -> ->]]]; done).
    apply (adds_same_r _ b2); [congruence|congruence|done].
Qed.
Lemma switch_adds v cases ds fallback d b b' : Forall2 (fun ig d => forall b b', snd ig b = Ret b' -> adds b b' d) cases ds ->
  (forall b b', fallback b = Ret b' -> adds b b' d) -> switch_int v cases fallback b = Ret b' -> adds b b' (concat ds ++ d).
Proof.
  intros Hds Hd E. unfold switch_int, cur_block in E. destruct (fb_cur b); [|done]. cbn [unwrap obind] in E.
  destruct (switch_blocks cases b [] []) as [[[br mp] b1]| | |] eqn:E1; try discriminate E. cbn [obind] in E.
  apply blocks_ret in E1 as (ns & Hl & -> & -> & _ & _ & Hl1 & Hn1 & _). simpl in E.
  destruct (finish_block _ _) as [b2| | |] eqn:E2; try discriminate E. cbn [obind] in E. apply finish_vars in E2 as [L2 N2]. simpl in L2, N2.
  destruct (fold_m _ _ _) as [[b3 after]| | |] eqn:E3; try discriminate E. cbn [obind] in E.
  assert (fb_locals b' = fb_locals b3 /\ fb_next_local b' = fb_next_local b3) as [L3 N3]
    by (destruct after; [by apply set_cur_vars in E|by injection E as ->]).
  apply (branches_adds _ _ (ds ++ [d])) in E3.
  - rewrite concat_app in E3. simpl in E3. rewrite app_nil_r in E3.
    apply (adds_same_r _ b3); [done|done|]. apply (adds_same _ b2); [congruence|congruence|done].
  - apply Forall2_app; [|constructor; [exact Hd|constructor]]. clear - Hds Hl. revert ns Hl.
    induction Hds as [|[i g] d cs ds H _ IH]; intros ns Hl; [constructor|]. destruct ns as [|n ns]; [done|].
    simpl. constructor; [exact H|]. apply IH. simpl in Hl. lia.
Qed.

Lemma emit_adds c : forall b b', emit c b = Ret b' -> adds b b' (declared c).
Proof.
  induction c as [|c d IHc IHd|ty|s|op args ret|f args ret|f conv args ret k h IH|v k h IH|e|v cases fb IHs IHf|c t e IHt IHe|c body IH]
    using Cmd_ind'; intros b b' E; cbn [emit declared] in *.
  - injection E as <-. by apply adds_nil.
  - destruct (emit c b) as [b1| | |] eqn:E1; try discriminate E. exact (adds_trans _ _ _ _ _ (IHc _ _ E1) (IHd _ _ E)).
  - destruct (declare_local b ty) as [[l b1]| | |] eqn:E1; try discriminate E. injection E as <-. by apply adds_declare in E1 as [? _].
  - unfold push_statement, cur_block in E. destruct (fb_cur b); [|done]. injection E as <-. by apply adds_nil.
  - apply next_vars in E as [? ?]. by apply adds_nil.
  - apply call_vars in E as [? ?]. by apply adds_nil.
  - destruct (fb_handler k (emit h) b) as [[n b1]| | |] eqn:E1; try discriminate E. cbn [obind] in E.
    apply call_vars in E as [? ?]. apply (adds_same_r _ b1); [done|done|]. exact (handler_adds _ _ _ _ _ _ IH E1).
  - destruct (fb_handler k (emit h) b) as [[n b1]| | |] eqn:E1; try discriminate E. cbn [obind] in E.
    apply finish_vars in E as [? ?]. apply (adds_same_r _ b1); [done|done|]. exact (handler_adds _ _ _ _ _ _ IH E1).
  - apply adds_nil; destruct e; first [by apply finish_vars in E as [? ?]|by apply call_vars in E as [? ?]].
  - apply (switch_adds v _ (List.map (fun ic => declared (snd ic)) cases) _ (declared fb) _ _) in E; [done| |exact IHf].
    clear - IHs. induction IHs as [|[i c] r H _ IH]; constructor; [exact H|exact IH].
  - apply (switch_adds _ _ [declared t] _ (declared e) _ _) in E; [|constructor; [exact IHt|constructor]|exact IHe]. simpl in E. by rewrite app_nil_r in E.
  - unfold fb_while, cur_block in E. simpl in E. destruct (fb_cur b) as [c0|] eqn:Hc; [|done]. simpl in E.
    destruct (fb_goto _ _) as [b1| | |] eqn:E1; try discriminate E. cbn [obind] in E. apply finish_vars in E1 as [L1 N1].
    destruct (set_cur_block _ _ _) as [b2| | |] eqn:E2; try discriminate E. cbn [obind] in E. apply set_cur_vars in E2 as [L2 N2].
    apply (switch_adds _ _ [declared body] _ [] _ _) in E.
    + simpl in E. rewrite !app_nil_r in E. apply (adds_same _ b2); [by rewrite L2, L1|by rewrite N2, N1|done].
    + constructor; [|constructor]. intros b3 b4 E3. simpl in E3. destruct (emit body b3) as [b5| | |] eqn:E5; try discriminate E3. cbn [obind] in E3.
      apply IH in E5. destruct (fb_cur b5); [|by injection E3 as <-]. apply finish_vars in E3 as [? ?]. by apply (adds_same_r _ b5).
    + intros b3 b4 [= <-]. by apply adds_nil.
Qed.

(** ** Functions *)

Lemma header_total h b c : fresh b -> fb_cur b = Some c -> fb_locals b = [] -> fb_next_local b = 0%N -> fb_args b = [] -> fb_ret b = None ->
  exists b', emit_header h b = Ret b' /\ fresh b' /\ fb_cur b' = Some c /\ fb_blocks b' = fb_blocks b /\ fb_start b' = fb_start b /\
    adds b b' (hd_args h ++ match hd_ret h with Some ty => [ty] | None => [] end) /\
    fb_args b' = List.map N.of_nat (seq 0 (length (hd_args h))) /\
    fb_ret b' = match hd_ret h with Some _ => Some (N.of_nat (length (hd_args h))) | None => None end /\ fb_conv b' = hd_conv h.
Proof.
  intros Hf Hc Hl Hn Ha Hr. unfold emit_header.
  assert (H1 : forall tys b, fresh b -> fb_cur b = Some c ->
    exists b', fold_m (fun b ty => let! '(_, b) := declare_arg b ty in Ret b) tys b = Ret b' /\ fresh b' /\ fb_cur b' = Some c /\
      fb_blocks b' = fb_blocks b /\ fb_start b' = fb_start b /\ adds b b' tys /\
      fb_args b' = fb_args b ++ List.map (fun i => (fb_next_local b + N.of_nat i)%N) (seq 0 (length tys)) /\ fb_ret b' = fb_ret b).
  { clear. induction tys as [|ty r IH]; intros b Hf Hc.
    - exists b. simpl. rewrite app_nil_r. do 5 (split; [done|]). split; [by apply adds_nil|done].
    - destruct (local_total b ty Hf) as (l & b1 & E1 & Hf1 & G1 & Hc1). pose proof E1 as E1'. apply adds_declare in E1' as (A1 & R1 & G2 & ->).
      assert (E2 : declare_arg b ty = Ret (PLocal (fb_next_local b), with_vars b1 (fb_locals b1) (fb_args b1 ++ [fb_next_local b]) (fb_ret b1) (fb_next_local b1))).
      { unfold declare_arg. unfold declare_local in E1. destruct (try_insert _ _ _); try done. cbn [obind] in *. by injection E1 as <-. }
      destruct (IH (with_vars b1 (fb_locals b1) (fb_args b1 ++ [fb_next_local b]) (fb_ret b1) (fb_next_local b1))) as (b2 & E3 & Hf2 & Hc2 & B2 & S2 & A2 & G3 & R3).
      { exact Hf1. } { simpl. by rewrite Hc1. }
      exists b2. split.
      { cbn [fold_m]. rewrite E2. cbn [obind]. exact E3. }
      simpl in B2, S2. split; [done|]. split; [done|].
      assert (fb_blocks b1 = fb_blocks b /\ fb_start b1 = fb_start b) as [B1 S1].
      { unfold declare_local in E1. destruct (try_insert _ _ _); try done. cbn [obind] in *. by injection E1 as <-. }
      split; [congruence|]. split; [congruence|]. split; [exact (adds_trans _ b1 _ [ty] r A1 A2)|]. split; [|by rewrite R3].
      rewrite G3. simpl. rewrite G2, <- app_assoc. f_equal. simpl. f_equal; [lia|]. rewrite <- seq_shift, map_map. apply map_ext.
      destruct A1 as [_ ->]. intros. simpl. lia. }
  destruct (H1 (hd_args h) b Hf Hc) as (b1 & -> & Hf1 & Hc1 & B1 & S1 & A1 & G1 & R1). cbn [obind].
  rewrite Ha, Hn in G1. simpl in G1. rewrite Hr in R1.
  destruct (hd_ret h) as [ty|]; cbn [obind].
  - destruct (local_total b1 ty Hf1) as (l & b2 & E2 & Hf2 & G2 & Hc2). pose proof E2 as E2'. apply adds_declare in E2' as (A2 & R2 & G3 & ->).
    unfold declare_ret. rewrite R1. unfold declare_local in E2. destruct (try_insert _ _ _) as [ls| | |]; try done. cbn [obind] in *. injection E2 as <-.
    eexists. split; [done|]. simpl in *. do 4 (split; [done|]). split; [exact (adds_trans _ b1 _ _ _ A1 A2)|]. split; [exact G1|].
    split; [|done]. destruct A1 as [_ ->]. rewrite Hn. done.
  - eexists. split; [done|]. rewrite app_nil_r. simpl. do 5 (split; [done|]). split; [exact G1|]. done.
Qed.

Lemma new_total name : exists b, fb_new name = Ret b /\ fresh b /\ fb_cur b = Some (mkCur [] 0%N BkRegular) /\ fb_locals b = [] /\
  fb_next_local b = 0%N /\ fb_args b = [] /\ fb_ret b = None /\ fb_start b = 0%N /\ fb_blocks b = [].
Proof. eexists. split; [reflexivity|]. split; [|done]. split; [done|]. split; [|done]. simpl. intros c0 [= <-]. done. Qed.

(** the builder before and after the body *)
Lemma build_parts name h : exists b1, fresh b1 /\ fb_cur b1 = Some (mkCur [] 0%N BkRegular) /\ fb_start b1 = 0%N /\ fb_blocks b1 = [] /\
  fb_locals b1 = numbered_from 0%N (hd_args h ++ match hd_ret h with Some ty => [ty] | None => [] end) /\
  fb_next_local b1 = N.of_nat (length (hd_args h ++ match hd_ret h with Some ty => [ty] | None => [] end)) /\
  fb_args b1 = List.map N.of_nat (seq 0 (length (hd_args h))) /\
  fb_ret b1 = match hd_ret h with Some _ => Some (N.of_nat (length (hd_args h))) | None => None end /\ fb_conv b1 = hd_conv h /\
  forall c, build_function name h c = let! b := emit c b1 in finish_function b.
Proof.
  destruct (new_total name) as (b0 & E0 & Hf0 & Hc0 & L0 & N0 & A0 & R0 & S0 & B0).
  destruct (header_total h b0 _ Hf0 Hc0 L0 N0 A0 R0) as (b1 & E1 & Hf1 & Hc1 & B1 & S1 & [L1 N1] & G1 & R1 & V1).
  exists b1. rewrite L0, N0 in L1. rewrite N0 in N1.
  split; [done|]. split; [done|]. split; [congruence|]. split; [congruence|]. split; [exact L1|]. split; [exact N1|]. do 3 (split; [done|]).
  intros c. unfold build_function. rewrite E0. cbn [obind]. rewrite E1. done.
Qed.
Lemma finish_function_ret b func : finish_function b = Ret func -> fb_cur b = None /\ fn_blocks func = fb_blocks b /\ fn_start func = fb_start b.
Proof.
  unfold finish_function. destruct (fb_cur b); [done|]. cbn [assert_ obind]. destruct (fb_ret b) eqn:Er; cbn [obind].
  - rewrite Er. by intros [= <-].
  - unfold declare_ret. rewrite Er. destruct (try_insert _ _ _) as [ls| | |]; try done. cbn. by intros [= <-].
Qed.

Lemma build_total name h c : tot (build_function name h c) (proper_cmd c && negb (falls c)) (fun func =>
  follows func (fn_start func) 0 [c] /\
  fn_locals func = numbered (variables h c) /\
  fn_args func = List.map N.of_nat (seq 0 (length (hd_args h))) /\
  fn_ret func = N.of_nat (match hd_ret h with Some _ => length (hd_args h) | None => length (hd_args h) + length (declared c) end) /\
  fn_conv func = hd_conv h).
Proof.
  destruct (build_parts name h) as (b1 & Hf1 & Hc1 & S1 & B1 & L1 & N1 & G1 & R1 & V1 & ->).
  eapply (tot_bind _ _ (proper_cmd c) (negb (falls c)) _ (fun b => emit c b1 = Ret b /\ becomes b1 (mkCur [] 0 BkRegular) (falls c) b)).
  { pose proof (proj1 (emit_total c) b1 _ Hf1 Hc1) as Ht. destruct (emit c b1); try done. destruct Ht. split; [done|]. split; [done|]. done. }
  2: done.
  intros b2 _ (E2 & Hf2 & G2 & Hc2). unfold finish_function. destruct (fb_cur b2) as [c2|] eqn:Ec2.
  { destruct Hc2 as [-> _]. done. }
  rewrite Hc2. cbn [assert_ obind negb]. pose proof (emit_adds _ _ _ E2) as A2.
  assert (A3 : adds (mkFB name [] [] [] 0%N None CcRust None 0%N 0%N) b2 ((hd_args h ++ match hd_ret h with Some ty => [ty] | None => [] end) ++ declared c)).
  { refine (adds_trans _ b1 _ _ _ _ A2). by split. }
  destruct G2 as (_ & _ & _ & (S2 & G2 & R2 & V2 & _) & _).
  assert (Hfol : forall func, fn_blocks func = fb_blocks b2 -> follows func 0%N 0 [c]).
  { intros func Hb. apply fol_follows. intros n.
    apply (emit_fol func c n b1 b2 (mkCur [] 0 BkRegular) [] E2 Hc1); [|by rewrite Ec2]. split; [by rewrite Hb|]. by rewrite Ec2. }
  assert (Hnum : forall l, numbered_from 0%N l = @numbered Ty l).
  { intros l. unfold numbered_from, numbered. f_equal. }
  rewrite R1 in R2.
  destruct (hd_ret h) as [ty|] eqn:Er.
  - rewrite R2. cbn [obind unwrap]. rewrite R2. cbn [obind unwrap]. split; [done|]. simpl. rewrite S2, S1, G2, G1, V2, V1. split; [by apply Hfol|].
    destruct A3 as [-> _]. split; [|done]. simpl. rewrite Hnum. unfold variables. rewrite Er. by rewrite app_nil_r, app_assoc.
  - rewrite R2. unfold declare_ret. rewrite R2.
    destruct (local_total b2 unit_ty Hf2) as (l & b3 & E3 & _ & _ & Hc3).
    pose proof E3 as E3'. apply adds_declare in E3' as (A4 & R4 & G4 & ->). unfold declare_local in E3.
    destruct (try_insert _ _ _) as [ls| | |]; try done. cbn [obind] in *. injection E3 as <-.
    cbn [unwrap fb_ret with_vars obind]. split; [done|]. simpl. simpl in A4, R4, G4.
    rewrite S2, S1, G2, G1, V2, V1. split; [by apply Hfol|]. pose proof (adds_trans _ _ _ _ _ A3 A4) as [L5 _]. simpl in L5. rewrite L5. split.
    + rewrite Hnum. unfold variables. rewrite Er. rewrite app_nil_r. simpl. by rewrite <- app_assoc.
    + split; [done|]. split; [|done]. destruct A3 as [_ ->]. rewrite app_nil_r, app_length. done.
Qed.
