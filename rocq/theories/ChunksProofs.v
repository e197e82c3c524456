(** Proofs about the union chunks and UnsafeCell ranges of minimize (C55-C57). *)
From Verif Require Export ChunksSpec LayoutProofs.
From Coq Require Import ZifyBool ZifyN ZifyNat.

(** [f] marks exactly the bytes in [R] of any slice of at least [n] markers *)
Definition marks (n : N) (f : list bool -> Outcome (list bool)) (R : N -> Prop) : Prop :=
  forall ms, (n <= N.of_nat (length ms))%N -> exists ms', f ms = Ret ms' /\ length ms' = length ms /\
    forall i, ms' !! i = Some true <-> ms !! i = Some true \/ R (N.of_nat i).

Lemma marks_mono n n' f (R R' : N -> Prop) :
  marks n f R -> (n <= n')%N -> (forall i, R i <-> R' i) -> marks n' f R'.
Proof.
  intros H Hn HR ms Hms. destruct (H ms) as (ms' & H1 & H2 & H3); [lia|]. exists ms'. split; [done|]. split; [done|].
  intros i. rewrite H3, HR. done.
Qed.
Lemma marks_none n : marks n Ret (fun _ => False).
Proof. intros ms _. exists ms. split; [done|]. split; [done|]. intros i. tauto. Qed.
Lemma marks_seq n f g (R Q : N -> Prop) :
  marks n f R -> marks n g Q -> marks n (fun ms => let! r := f ms in g r) (fun i => R i \/ Q i).
Proof.
  intros Hf Hg ms Hms. destruct (Hf ms Hms) as (m1 & -> & Hl & H1). cbn [obind].
  destruct (Hg m1) as (m2 & -> & Hl2 & H2); [lia|]. exists m2. split; [done|]. split; [lia|].
  intros i. rewrite H2, H1. tauto.
Qed.
Lemma marks_fold {A} n (f : list bool -> A -> Outcome (list bool)) (R : A -> N -> Prop) l :
  Forall (fun x => marks n (fun ms => f ms x) (R x)) l ->
  marks n (fold_m f l) (fun i => exists x, In x l /\ R x i).
Proof.
  induction 1 as [|x l Hx Hl IH].
  - eapply marks_mono; [apply marks_none|done|]. intros i. split; [done|]. by intros (? & [] & _).
  - eapply marks_mono; [apply (marks_seq _ _ _ _ _ Hx IH)|done|]. intros i. cbn [In]. split.
    + intros [H|(y & Hy & H)]; eauto.
    + intros (y & [->|Hy] & H); eauto.
Qed.
Lemma marks_at n off f (R : N -> Prop) :
  marks n f R -> marks (off + n) (mark_at off f) (fun i => exists j, i = (off + j)%N /\ R j).
Proof.
  intros H ms Hms. unfold mark_at. destruct (Nat.leb_spec (N.to_nat off) (length ms)); [|lia].
  destruct (H (drop (N.to_nat off) ms)) as (r & -> & Hl & Hr); [rewrite drop_length; lia|]. cbn [obind].
  rewrite drop_length in Hl. eexists. split; [done|].
  assert (Ht : length (take (N.to_nat off) ms) = N.to_nat off) by (rewrite take_length; lia).
  split; [rewrite app_length; lia|]. intros i. destruct (decide (i < N.to_nat off)%nat).
  - rewrite lookup_app_l by lia. rewrite lookup_take by lia. split; [tauto|]. intros [?|(j & ? & _)]; [done|lia].
  - rewrite lookup_app_r by lia. rewrite Ht, Hr, lookup_drop.
    replace (N.to_nat off + (i - N.to_nat off))%nat with i by lia. split; (intros [?|HR]; [by left|right]).
    + exists (N.of_nat (i - N.to_nat off)). split; [lia|done].
    + destruct HR as (j & Hj & HR). replace (N.of_nat (i - N.to_nat off)) with j by lia. done.
Qed.
Lemma marks_size n : marks n (mark_size n) (fun i => (i < n)%N).
Proof.
  eapply marks_mono with (n := n) (R := fun i => exists k, In k (seq 0 (N.to_nat n)) /\ i = N.of_nat k); [|done|].
  - apply (marks_fold n _ (fun k i => i = N.of_nat k)). apply List.Forall_forall. intros k Hk%in_seq ms Hms.
    destruct (Nat.ltb_spec k (length ms)); [|lia]. eexists. split; [done|]. split; [apply insert_length|].
    intros i. destruct (decide (k = i)) as [->|Hne].
    + rewrite list_lookup_insert by done. split; [tauto|done].
    + rewrite list_lookup_insert_ne by done. split; [tauto|]. intros [?|?]; [done|lia].
  - intros i. split.
    + intros (k & Hk%in_seq & ->). lia.
    + intros Hi. exists (N.to_nat i). rewrite in_seq. split; lia.
Qed.

Lemma marks_range n off s : (off + s <= n)%N -> marks n (mark_at off (mark_size s)) (fun i => off <= i < off + s)%N.
Proof.
  intros Hn. eapply marks_mono; [apply marks_at, marks_size|done|]. cbn. intros i. split.
  - intros (j & -> & Hj). lia.
  - intros Hi. exists (i - off)%N. lia.
Qed.

Lemma marks_discr size vs d : discr_check_wf size vs d = Ret tt -> marks size (mark_discriminator d) (discr_reads d).
Proof.
  induction d as [d| |off it fb ch IHfb IHch] using Discriminator_ind'; intros Hwf.
  - eapply marks_mono; [apply marks_none|done|]. intros i. split; [done|]. intros H; inversion H.
  - eapply marks_mono; [apply marks_none|done|]. intros i. split; [done|]. intros H; inversion H.
  - apply discr_wf_branch in Hwf as (_ & Hb & Hfb & Hch).
    eapply marks_mono; [apply marks_seq; [by apply marks_range|apply marks_seq; [by apply IHfb|]]|done|].
    + apply (marks_fold size _ (fun c i => discr_reads (snd c) i)).
      rewrite List.Forall_forall in IHch, Hch |- *. auto.
    + cbn. intros i. split.
      * intros [H|[H|([r c] & Hin & H)]]; [by apply dr_here|by apply dr_fallback|by eapply dr_child].
      * intros H. inversion H; subst; [by left|right; by left|right; right]. eexists (_, _). eauto.
Qed.

Lemma marks_fun n f g R : (forall ms, f ms = g ms) -> marks n g R -> marks n f R.
Proof. intros He H ms Hms. rewrite He. by apply H. Qed.

Section Mark.
  Variable T : Target.
  Variable ht : TraitName -> bool.
  Let pw1 : PtrType -> Size := fun _ => PTR_SIZE T.

  Lemma marks_used ty : ty_check_wf T ht ty = Ret tt -> sized T ty ->
    marks (tsize T ty) (mark_used_bytes T ty) (data_byte T pw1 ty).
  Proof.
    induction ty as [it| |pt|fields head u IHf IHu|elem count IHe|elem IHe|fields chunks size align IHf
                    |variants dty discr size align IHv|tn] using Ty_ind'; intros Hwf Hs.
    - rewrite (wf_ptr_sized_int T ht) by done. eapply marks_mono; [apply marks_size|done|].
      intros i. split; [by constructor|]. intros H; by inversion H.
    - eapply marks_mono; [apply marks_size|done|]. intros i. split.
      + intros H. replace i with 0%N by lia. constructor.
      + intros H; inversion H; lia.
    - eapply marks_mono; [apply marks_size|rewrite (ptr_tsize T); destruct (wide pt); lia|].
      intros i. split; [by constructor|]. intros H; by inversion H.
    - destruct u as [u|]; [destruct Hs as (s & a & Hl); cbn in Hl; destruct (layout T u); discriminate|].
      pose proof Hwf as (Hfs & _)%wf_tuple. destruct (tuple_size T ht _ _ _ Hwf eq_refl) as [_ Hend].
      cbn [mark_used_bytes]. eapply marks_mono; [|reflexivity|].
      + apply (marks_fold _ _ (fun f i => exists j, i = (fst f + j)%N /\ data_byte T pw1 (snd f) j)).
        rewrite List.Forall_forall in IHf, Hfs |- *. intros f Hf. destruct (Hfs f Hf) as (Hw & Hsf & Hfit).
        eapply marks_mono; [apply marks_at, (IHf f Hf Hw Hsf)|lia|done].
      + cbn. intros i. split.
        * intros ([o t] & Hin & j & -> & Hd). by econstructor.
        * intros H; inversion H; subst. eexists (_, _). split; [done|]. eexists. split; [done|]. done.
    - pose proof Hwf as (Hc & Hw & Hse & Hsa & Htot)%wf_array. specialize (IHe Hw Hse).
      cbn [mark_used_bytes]. rewrite (sized_tsize T _ Hse). eapply marks_mono; [|reflexivity|].
      + apply (marks_fold _ _ (fun k i => exists j, i = (k * tsize T elem + j)%N /\ data_byte T pw1 elem j)).
        apply List.Forall_forall. intros k Hk%in_indices. cbn [obind].
        eapply marks_mono; [apply marks_at, IHe|nia|done].
      + cbn. intros i. split.
        * intros (k & Hk%in_indices & j & -> & Hd). econstructor; eauto. by apply sized_tsize.
        * intros H; inversion H as [| | | |? ? s k j Hs0 Hk Hd| | | |]; subst.
          rewrite (sized_tsize T _ Hse) in Hs0. injection Hs0 as <-.
          exists k. split; [by apply in_indices|]. eauto.
    - destruct Hs as (s & a & Hl). cbn [layout] in Hl. by do 3 apply obind_ret in Hl as (? & _ & Hl).
    - apply wf_union in Hwf as (_ & Hch & _). cbn [mark_used_bytes].
      eapply marks_mono with (n := size); [|unfold tsize, size_of; cbn; lia|].
      + apply (marks_fold _ _ (fun c i => (fst c <= i < fst c + snd c)%N)).
        rewrite List.Forall_forall in Hch |- *. intros c Hc. apply marks_range. by apply Hch.
      + cbn. intros i. split.
        * intros ([o s] & Hin & Hi). by econstructor.
        * intros H; inversion H; subst. eexists (_, _). eauto.
    - apply wf_enum in Hwf as (Hvs & Hd). cbn [mark_used_bytes].
      eapply marks_mono with (n := size); [|unfold tsize, size_of; cbn; lia|].
      + apply marks_seq; [|by eapply marks_discr].
        apply (marks_fold _ _ (fun v i => data_byte T pw1 (fst (snd v)) i \/
          exists t, In t (snd (snd v)) /\ (fst t <= i < fst t + it_size (fst (snd t)))%N)).
        rewrite List.Forall_forall in IHv, Hvs |- *. intros v Hv.
        destruct (Hvs v Hv) as (_ & Hw & Hsv & Hsz & _ & Htg).
        apply marks_seq.
        * rewrite <- Hsz. by apply IHv.
        * apply (marks_fold _ _ (fun t i => (fst t <= i < fst t + it_size (fst (snd t)))%N)).
          rewrite List.Forall_forall in Htg |- *. intros t Ht. apply marks_range. apply (Htg t Ht).
      + cbn. intros i. split.
        * intros [([d [t tg]] & Hin & [H|([o [it v]] & Ht & H)])|H]; cbn in *.
          -- by eapply db_variant.
          -- by eapply db_tag.
          -- by apply db_discr.
        * intros H. inversion H; subst.
          -- left. eexists (_, (_, _)). split; [done|]. by left.
          -- left. eexists (_, (_, _)). split; [done|]. right. eexists (_, (_, _)). split; [done|]. done.
          -- by right.
    - destruct Hs as (s & a & Hl). discriminate.
  Qed.

  Lemma thin_data ty i : no_wide ty -> data_byte T (ptr_bytes T) ty i -> data_byte T pw1 ty i.
  Proof.
    intros Hn Hd. revert Hn. induction Hd as [| |pt i Hi|fields head u o t i Hin Hd IH|elem count s k i Hs Hk Hd IH| |variants dty discr size align d t tg i Hin Hd IH| |];
      intros Hn; try (by econstructor); inversion Hn as [| |? Hm|? ? Hf|? ? He| |? ? ? ? ? Hv]; subst.
    - constructor. unfold ptr_bytes in Hi. by rewrite Hm in Hi.
    - econstructor; [done|]. apply IH. rewrite List.Forall_forall in Hf. apply (Hf _ Hin).
    - econstructor; eauto.
    - eapply db_variant; [done|]. apply IH. rewrite List.Forall_forall in Hv. apply (Hv _ Hin).
  Qed.
  Lemma one_word_data ty i : data_byte T pw1 ty i -> data_byte T (ptr_bytes T) ty i.
  Proof.
    intros Hd. induction Hd as [| |pt i Hi| | | | | |]; try (by econstructor).
    constructor. unfold ptr_bytes, pw1 in *. destruct (ptr_meta_kind pt); lia.
  Qed.
End Mark.

(** ** From markers to chunks *)

Definition open_start (start : option nat) (i : nat) : nat := match start with Some s => s | None => i end.

Lemma chunks_from_ok ms i start :
  (open_start start i <= i)%nat -> (forall s, start = Some s -> (s < i)%nat) ->
  chunk_list (chunks_from i start (ms ++ [false])) (N.of_nat (i + length ms)) /\
  Forall (fun r => N.of_nat (open_start start i) <= fst r)%N (chunks_from i start (ms ++ [false])) /\
  forall j, in_ranges (chunks_from i start (ms ++ [false])) (N.of_nat j) <->
    (exists k, ms !! k = Some true /\ j = (i + k)%nat) \/ (open_start start i <= j < i)%nat.
Proof.
  revert i start. induction ms as [|b ms IH]; intros i start Ho Hs.
  - destruct start as [s|]; cbn [chunks_from app length open_start] in *.
    + specialize (Hs s eq_refl). split; [|split].
      * constructor; [lia|lia|constructor|constructor].
      * constructor; [cbn; lia|constructor].
      * intros j. split.
        -- intros (o & l & [[= <- <-]|[]] & Hj). right. lia.
        -- intros [(k & Hk & _)|Hj]; [done|]. eexists _, _. split; [by left|]. lia.
    + split; [constructor|]. split; [constructor|]. intros j. split.
      * intros (o & l & [] & _).
      * intros [(k & Hk & _)|Hj]; [done|lia].
  - cbn [app chunks_from length].
    assert (Hk : forall (Q : Prop) j, ((exists k, ms !! k = Some true /\ j = (S i + k)%nat) \/ (b = true /\ j = i) \/ Q) <->
      ((exists k, (b :: ms) !! k = Some true /\ j = (i + k)%nat) \/ Q)).
    { intros Q j. split.
      - intros [(k & H1 & H2)|[[-> ->]|HQ]]; [left; exists (S k); split; [done|lia]|left; exists O; split; [done|lia]|by right].
      - intros [([|k] & H1 & H2)|HQ]; [|left; exists k; split; [done|lia]|by right; right].
        right. left. cbn in H1. split; [congruence|lia]. }
    destruct b, start as [s|]; cbn [open_start] in *.
    + destruct (IH (S i) (Some s)) as (H1 & H2 & H3); [cbn; lia|intros s' [= <-]; specialize (Hs s eq_refl); lia|].
      cbn [open_start] in *. replace (i + S (length ms))%nat with (S i + length ms)%nat by lia.
      split; [done|]. split; [done|]. intros j. rewrite H3, <- Hk. specialize (Hs s eq_refl).
      destruct (decide (j = i)); intuition lia.
    + destruct (IH (S i) (Some i)) as (H1 & H2 & H3); [cbn; lia|intros s' [= <-]; lia|].
      cbn [open_start] in *. replace (i + S (length ms))%nat with (S i + length ms)%nat by lia.
      split; [done|]. split; [done|]. intros j. rewrite H3, <- Hk. destruct (decide (j = i)); intuition lia.
    + destruct (IH (S i) None) as (H1 & H2 & H3); [done|done|]. cbn [open_start] in *. specialize (Hs s eq_refl).
      replace (i + S (length ms))%nat with (S i + length ms)%nat by lia. split; [|split].
      * constructor; [lia|lia| |done]. eapply Forall_impl; [exact H2|]. cbn. intros r Hr. lia.
      * constructor; [cbn; lia|]. eapply Forall_impl; [exact H2|]. cbn. intros r Hr. lia.
      * intros j. rewrite <- Hk. split.
        -- intros (o & l & [[= <- <-]|Hin] & Hj); [right; right; lia|].
           assert (in_ranges (chunks_from (S i) None (ms ++ [false])) (N.of_nat j)) as [?|?]%H3 by (eexists _, _; eauto); [by left|lia].
        -- intros [H|[[? _]|H]]; [|done|].
           ++ destruct (proj2 (H3 j) (or_introl H)) as (o & l & Hin & Hj). eexists _, _. split; [by right|]. done.
           ++ eexists _, _. split; [by left|]. lia.
    + destruct (IH (S i) None) as (H1 & H2 & H3); [done|done|].
      cbn [open_start] in *. replace (i + S (length ms))%nat with (S i + length ms)%nat by lia.
      split; [done|]. split; [eapply Forall_impl; [exact H2|]; cbn; intros r Hr; lia|].
      intros j. rewrite H3, <- Hk. intuition (try done; lia).
Qed.

Theorem chunks_of_ok ms :
  chunk_list (chunks_of ms) (N.of_nat (length ms)) /\
  forall i, in_ranges (chunks_of ms) i <-> ms !! N.to_nat i = Some true.
Proof.
  destruct (chunks_from_ok ms 0 None) as (H1 & _ & H3); [done|done|]. split; [exact H1|].
  intros i. specialize (H3 (N.to_nat i)). rewrite N2Nat.id in H3. unfold chunks_of. rewrite H3. cbn [open_start]. split.
  - intros [(k & Hk & ->)|?]; [done|lia].
  - intros H. left. eauto.
Qed.

(** a list of ranges of this form is determined by the bytes it covers *)
Lemma chunk_list_le rs e : chunk_list rs e -> Forall (fun r => 0 < snd r /\ fst r + snd r <= e)%N rs.
Proof. induction 1; constructor; auto. Qed.
Lemma chunk_list_unique rs rs' e e' : chunk_list rs e -> chunk_list rs' e' ->
  (forall i, in_ranges rs i <-> in_ranges rs' i) -> rs = rs'.
Proof.
  intros H. revert rs' e'. induction H as [e|o s rs e Hs He Hr H IH]; intros rs' e' H' Heq.
  - destruct H' as [|o s rs' e' Hs He Hr H']; [done|]. exfalso.
    destruct (proj2 (Heq o)) as (? & ? & [] & _). exists o, s. split; [by left|]. lia.
  - destruct H' as [e'|o' s' rs' e' Hs' He' Hr' H'].
    { exfalso. destruct (proj1 (Heq o)) as (? & ? & [] & _). exists o, s. split; [by left|]. lia. }
    rewrite List.Forall_forall in Hr, Hr'.
    assert (Hc : forall i, in_ranges ((o, s) :: rs) i <-> (o <= i < o + s)%N \/ in_ranges rs i).
    { intros i. split.
      - intros (a & b & [[= <- <-]|Hin] & Hi); [by left|right; eexists _, _; eauto].
      - intros [Hi|(a & b & Hin & Hi)]; eexists _, _; (split; [|exact Hi]); [by left|by right]. }
    assert (Hc' : forall i, in_ranges ((o', s') :: rs') i <-> (o' <= i < o' + s')%N \/ in_ranges rs' i).
    { intros i. split.
      - intros (a & b & [[= <- <-]|Hin] & Hi); [by left|right; eexists _, _; eauto].
      - intros [Hi|(a & b & Hin & Hi)]; eexists _, _; (split; [|exact Hi]); [by left|by right]. }
    assert (Hlo : forall i, in_ranges rs i -> (o + s < i)%N).
    { intros i (a & b & Hin & Hi). specialize (Hr _ Hin). cbn in Hr. lia. }
    assert (Hlo' : forall i, in_ranges rs' i -> (o' + s' < i)%N).
    { intros i (a & b & Hin & Hi). specialize (Hr' _ Hin). cbn in Hr'. lia. }
    assert (Hoo : o = o').
    { pose proof (proj1 (Heq o)) as H1. pose proof (proj2 (Heq o')) as H2. rewrite Hc, Hc' in H1, H2.
      destruct H1 as [?|?%Hlo']; [left; lia|..]; destruct H2 as [?|?%Hlo]; try (left; lia); lia. }
    subst o'.
    assert (Hss : s = s').
    { destruct (N.lt_trichotomy s s') as [Hlt|[?|Hlt]]; [exfalso|done|exfalso].
      - pose proof (proj2 (Heq (o + s)%N)) as H2. rewrite Hc, Hc' in H2. destruct H2 as [?|?%Hlo]; [left; lia|lia|lia].
      - pose proof (proj1 (Heq (o + s')%N)) as H2. rewrite Hc, Hc' in H2. destruct H2 as [?|?%Hlo']; [left; lia|lia|lia]. }
    subst s'. f_equal. eapply IH; [exact H'|]. intros i. specialize (Heq i). rewrite Hc, Hc' in Heq. split; intros Hi.
    + destruct (proj1 Heq (or_intror Hi)) as [?|?]; [|done]. specialize (Hlo _ Hi). lia.
    + destruct (proj2 Heq (or_intror Hi)) as [?|?]; [|done]. specialize (Hlo' _ Hi). lia.
Qed.

Lemma chunk_list_wf rs size : chunk_list rs size -> chunks_check_wf rs size = Ret tt.
Proof.
  intros H. unfold chunks_check_wf.
  assert (G : forall last, Forall (fun r => last <= fst r)%N rs -> (last <= size)%N -> exists e, (e <= size)%N /\
    fold_m (fun last_end c => let! _ := ensure_wf (last_end <=? fst c)%N "Type::Union: chunks are not stored in ascending order" in
      Ret (fst c + snd c)%N) rs last = Ret e).
  { induction H as [e|o s rs e Hs He Hr H IH]; intros last Hl Hle; [by exists last|].
    apply List.Forall_inv in Hl. cbn [fst] in Hl. cbn [fold_m fst snd]. replace (last <=? o)%N with true by lia.
    apply IH; [|done]. eapply Forall_impl; [exact Hr|]. cbn. intros r Hr'. lia. }
  destruct (G 0%N) as (e & He & ->); [apply List.Forall_forall; intros; lia|lia|]. cbn [obind].
  replace (e <=? size)%N with true by lia. done.
Qed.

Section Calc.
  Variable T : Target.
  Variable ht : TraitName -> bool.

  Lemma calc_chunks_ok fields size :
    union_fields_ok T ht fields size ->
    exists rs, calc_chunks T fields size = Ret rs /\ chunk_list rs size /\
      forall i, in_ranges rs i <-> exists o t j, In (o, t) fields /\ i = (o + j)%N /\ data_byte T (fun _ => PTR_SIZE T) t j.
  Proof.
    intros Hf. unfold calc_chunks.
    assert (Hm : marks size (fold_m (fun ms f => mark_at (fst f) (mark_used_bytes T (snd f)) ms) fields)
      (fun i => exists f, In f fields /\ exists j, i = (fst f + j)%N /\ data_byte T (fun _ => PTR_SIZE T) (snd f) j)).
    { apply marks_fold. unfold union_fields_ok in Hf. rewrite List.Forall_forall in Hf |- *. intros f Hin.
      destruct (Hf f Hin) as (Hw & s & Hs & Hfit). assert (sized T (snd f)) as Hsz by (apply sized_size; eauto).
      eapply marks_mono; [apply marks_at, (marks_used T ht _ Hw Hsz)| |done].
      apply size_of_tsize in Hs. lia. }
    destruct (Hm (repeat false (N.to_nat size))) as (ms & -> & Hl & Hms); [rewrite repeat_length; lia|].
    cbn [obind]. rewrite repeat_length in Hl. destruct (chunks_of_ok ms) as [H1 H2]. rewrite Hl, N2Nat.id in H1.
    eexists. split; [done|]. split; [done|]. intros i. rewrite H2, Hms, N2Nat.id. split.
    - intros [Hr|([o t] & Hin & j & -> & Hd)]; [|by eauto 10]. exfalso.
      destruct (decide (N.to_nat i < N.to_nat size)%nat).
      + apply elem_of_list_lookup_2, elem_of_list_In, repeat_spec in Hr. done.
      + rewrite lookup_ge_None_2 in Hr by (rewrite repeat_length; lia). done.
    - intros (o & t & j & Hin & -> & Hd). right. exists (o, t). eauto.
  Qed.

  Lemma uses_data ty i : uses T ty i -> data_byte T (ptr_bytes T) ty i.
  Proof.
    induction 1 as [it i Hi| |pt s i Hs Hi| | | | |].
    - by constructor.
    - constructor.
    - apply size_of_tsize in Hs. rewrite (ptr_tsize T) in Hs. constructor. unfold ptr_bytes, wide in *.
      destruct (ptr_meta_kind pt); lia.
    - by econstructor.
    - by econstructor.
    - by econstructor.
    - by eapply db_variant.
    - by apply db_discr.
  Qed.
End Calc.

Lemma write_all_source {A} ps (b r : list A) i x :
  write_all ps b = Ret r -> r !! i = Some x ->
  b !! i = Some x \/ exists o e j, In (o, e) ps /\ i = (N.to_nat o + j)%nat /\ e !! j = Some x.
Proof.
  revert b. induction ps as [|[o e] ps IH]; intros b Hw Hx; cbn in Hw.
  - injection Hw as ->. by left.
  - apply obind_ret in Hw as (b1 & Hb & Hw). destruct (IH _ Hw Hx) as [H1|(o' & e' & j & Hin & Hi & He)].
    + rewrite (write_subslice_lookup _ _ _ _ i Hb) in H1.
      destruct (Nat.leb_spec (N.to_nat o) i); cbn [andb] in H1; [|by left].
      destruct (Nat.ltb_spec i (N.to_nat o + length e)); cbn [andb] in H1; [|by left].
      right. exists o, e, (i - N.to_nat o)%nat. split; [by left|]. split; [lia|done].
    + right. exists o', e', j. split; [by right|done].
Qed.

Lemma concat_source {A} (parts : list (list A)) s i x :
  Forall (fun p => length p = s) parts -> concat parts !! i = Some x ->
  exists k p j, parts !! k = Some p /\ p !! j = Some x /\ i = (k * s + j)%nat.
Proof.
  intros HF. revert i. induction HF as [|p parts Hp HF IH]; intros i Hi; [done|]. cbn [concat] in Hi.
  apply lookup_app_Some in Hi as [Hi|[Hle Hi]].
  - exists O, p, i. done.
  - destruct (IH _ Hi) as (k & q & j & Hk & Hj & Heq). exists (S k), q, j. split; [done|]. split; [done|]. lia.
Qed.
Lemma list_repeat_uninit {P} n i (x : AByte P) : list_repeat Uninit n !! i = Some x -> x = Uninit.
Proof. unfold list_repeat. intros [-> _]%lookup_replicate. done. Qed.

Section Encode.
  Context {P : Type} `{EqDecision P}.
  Variable T : Target.
  Hypothesis Tok : target_ok T.
  Variable ht : TraitName -> bool.

  (** every byte that an encoding initialises is a data byte *)
  Lemma encode_data ty (v : Value P) b i x :
    ty_check_wf T ht ty = Ret tt -> encode T ty v = Ret b -> b !! N.to_nat i = Some x -> x <> Uninit ->
    data_byte T (ptr_bytes T) ty i.
  Proof.
    revert v b i. induction ty as [it| |pt|fields head u IHf IHu|elem count IHe|elem IHe|fields chunks size align IHf
                    |variants dty discr size align IHv|tn] using Ty_ind'; intros v b i Hwf He Hb Hx.
    - cbn [encode] in He. destruct v; try discriminate. apply encode_int_length in He.
      apply lookup_lt_Some in Hb. constructor. lia.
    - cbn in He. destruct v; try discriminate. injection He as <-. apply lookup_lt_Some in Hb. cbn in Hb.
      replace i with 0%N by lia. constructor.
    - cbn [encode] in He. destruct v as [| |p| | |]; try discriminate.
      apply lookup_lt_Some in Hb. constructor.
      apply (encode_pointer_inv T Tok) in He as (b1 & H1 & Hw).
      pose proof (encode_ptr_length T _ _ H1) as L1. unfold ptr_bytes, wide in *.
      destruct Hw as [(Hw & _ & ->)|(Hw & b2 & H2 & ->)].
      + destruct (ptr_meta_kind pt); lia.
      + rewrite app_length in Hb.
        apply (encode_meta_length T) in H2.
        destruct (ptr_meta_kind pt); lia.
    - destruct u as [u|]; [done|]. apply encode_tuple_ret in He as (vs & es & -> & Hl & Hes & Hw).
      pose proof Hwf as (Hfs & _)%wf_tuple.
      destruct (write_all_source _ _ _ _ _ Hw Hb) as [Hr|(o & e & j & Hin & Hi & Hj)].
      { by apply list_repeat_uninit in Hr. }
      apply elem_of_list_In, elem_of_list_lookup in Hin as [k Hk]. apply zip_lookup in Hk as [Ho He].
      rewrite list_lookup_fmap in Ho. destruct (fields !! k) as [[o' t]|] eqn:Hf; [|done]. injection Ho as ->.
      destruct (Forall2_lookup_r _ _ _ _ _ Hes He) as ([f w] & Hz & Hen). apply zip_lookup in Hz as [Hf' Hw'].
      rewrite Hf in Hf'. injection Hf' as <-. cbn [fst snd] in Hen.
      rewrite Forall_lookup in IHf, Hfs. destruct (Hfs _ _ Hf) as (Hwt & _).
      replace i with (o + N.of_nat j)%N by lia. econstructor; [by eapply elem_of_list_In, elem_of_list_lookup_2|].
      eapply (IHf _ _ Hf); [done|exact Hen| |done]. by rewrite Nat2N.id.
    - apply encode_array_ret in He as (vs & parts & -> & Hc & HF & ->). pose proof Hwf as (_ & Hw & Hse & _)%wf_array.
      destruct (concat_source parts (N.to_nat (tsize T elem)) (N.to_nat i) x) as (k & p & j & Hk & Hj & Hi).
      + apply Forall_lookup. intros k p Hk. destruct (Forall2_lookup_r _ _ _ _ _ HF Hk) as (w & _ & _ & s & Hs & Hl).
        apply size_of_tsize in Hs. lia.
      + done.
      + destruct (Forall2_lookup_r _ _ _ _ _ HF Hk) as (w & Hwk & Hen & s & Hs & Hl).
        apply lookup_lt_Some in Hwk. replace i with (N.of_nat k * tsize T elem + N.of_nat j)%N by lia.
        econstructor; [by apply sized_tsize|lia|]. eapply IHe; [done|exact Hen| |done]. by rewrite Nat2N.id.
    - done.
    - apply encode_union_ret in He as (data & -> & HF & Hw).
      destruct (write_all_source _ _ _ _ _ Hw Hb) as [Hr|(o & e & j & Hin & Hi & Hj)].
      { by apply list_repeat_uninit in Hr. }
      apply elem_of_list_In, elem_of_list_lookup in Hin as [k Hk]. apply zip_lookup in Hk as [Ho He].
      rewrite list_lookup_fmap in Ho. destruct (chunks !! k) as [[o' s]|] eqn:Hf; [|done]. injection Ho as ->.
      pose proof (Forall2_lookup_lr _ _ _ _ _ _ HF Hf He) as Hlen. cbn in Hlen. apply lookup_lt_Some in Hj.
      econstructor; [by eapply elem_of_list_In, elem_of_list_lookup_2|]. cbn in *. lia.
    - apply encode_enum_ret in He as (d & w & t & tg & enc & -> & Hg & Hen & Hd). apply map_get_in in Hg.
      apply wf_enum in Hwf as (Hvs & _).
      rewrite List.Forall_forall in IHv, Hvs. destruct (Hvs _ Hg) as (_ & Hwt & _).
      apply encode_discr_parts in Hd as (es & Hes & Hw).
      destruct (write_all_source _ _ _ _ _ Hw Hb) as [Hr|(o & e & j & Hin & Hi & Hj)].
      { eapply db_variant; [done|]. eapply (IHv _ Hg); [done|exact Hen|exact Hr|done]. }
      apply elem_of_list_In, elem_of_list_lookup in Hin as [k Hk]. apply zip_lookup in Hk as [Ho He].
      rewrite list_lookup_fmap in Ho. destruct (tg !! k) as [[o' [it val]]|] eqn:Hf; [|done]. injection Ho as ->.
      pose proof (Forall2_lookup_lr _ _ _ _ _ _ Hes Hf He) as Hei. cbn in Hei. apply encode_int_length in Hei.
      apply lookup_lt_Some in Hj.
      eapply db_tag; [done|by eapply elem_of_list_In, elem_of_list_lookup_2|]. lia.
    - done.
  Qed.

  (** ** Copying a union *)

  Lemma union_copy fields size align rs (bytes bytes' : list (AByte P)) v o t s sub sub' :
    union_fields_ok T ht fields size -> calc_chunks T fields size = Ret rs ->
    decode T (TUnion fields rs size align) bytes = Ret (Some v) ->
    encode T (TUnion fields rs size align) v = Ret bytes' ->
    In (o, t) fields -> no_wide t -> size_of T t = Ret s ->
    subslice bytes o s = Ret sub -> subslice bytes' o s = Ret sub' ->
    decode T t sub' = decode T t sub.
  Proof.
    intros Hf Hc Hd He Hin Hn Hs Hsub Hsub'.
    destruct (calc_chunks_ok T ht _ _ Hf) as (rs' & Hc' & Hcl & Hcov). rewrite Hc in Hc'. injection Hc' as <-.
    apply decode_union_some in Hd as (Hlen & data & -> & Hdata).
    apply encode_union_ret in He as (data' & Heq & HF & Hw). injection Heq as <-.
    unfold union_fields_ok in Hf. rewrite List.Forall_forall in Hf.
    destruct (Hf _ Hin) as (Hwt & s' & Hs' & Hfit). cbn [fst snd] in *. rewrite Hs in Hs'. injection Hs' as <-.
    pose proof (subslice_length _ _ _ _ Hsub) as L1. pose proof (subslice_length _ _ _ _ Hsub') as L2.
    pose proof (size_of_tsize _ _ _ Hs) as Hts.
    eapply (decode_ext T Tok ht); [done|lia|lia|]. intros i Hu.
    destruct (decide (i < s)%N) as [Hi|]; [|rewrite !lookup_ge_None_2; [done|lia|lia]].
    rewrite (subslice_lookup _ _ _ _ _ Hsub), (subslice_lookup _ _ _ _ _ Hsub') by lia.
    assert (in_ranges rs (o + i)) as (co & cs & Hcin & Hci).
    { apply Hcov. exists o, t, i. split; [done|]. split; [done|]. apply thin_data; [done|]. by apply uses_data. }
    apply elem_of_list_In, elem_of_list_lookup in Hcin as [k Hk].
    destruct (Forall2_lookup_l _ _ _ _ _ Hdata Hk) as (d & Hdk & Hsl). cbn [fst snd] in Hsl.
    apply write_all_readback in Hw.
    - rewrite Forall_lookup in Hw. specialize (Hw k (co, d)). cbn [fst snd] in Hw.
      assert (subslice bytes' co (N.of_nat (length d)) = Ret d) as Hrb.
      { apply Hw. apply zip_lookup. split; [|done]. rewrite list_lookup_fmap, Hk. done. }
      pose proof (subslice_length _ _ _ _ Hsl) as L3.
      transitivity (d !! (N.to_nat (o + i) - N.to_nat co)%nat).
      + rewrite (subslice_lookup _ _ _ _ _ Hrb) by lia. f_equal. lia.
      + rewrite (subslice_lookup _ _ _ _ _ Hsl) by lia. f_equal. lia.
    - clear -Hcl HF. revert data HF. induction Hcl as [e|o s rs e Hs He Hr Hcl IH]; intros data HF.
      + constructor.
      + destruct data as [|d data]; [by inversion HF|]. apply Forall2_cons in HF as [Hd HF]. cbn [List.map zip zip_with fst].
        constructor; [|by apply IH]. apply Forall_lookup. intros k [o' e'] Hk. apply zip_lookup in Hk as [Ho He'].
        rewrite list_lookup_fmap in Ho. destruct (rs !! k) as [[o1 s1]|] eqn:Hk; [|done]. injection Ho as <-.
        rewrite Forall_lookup in Hr. specialize (Hr _ _ Hk). unfold rdisj, part_range. cbn in *. lia.
  Qed.
End Encode.

(** ** UnsafeCell ranges *)

Lemma in_ranges_concat {A} (f : A -> list (Offset * Size)) l i :
  in_ranges (concat (List.map f l)) i <-> exists x, In x l /\ in_ranges (f x) i.
Proof.
  unfold in_ranges. split.
  - intros (o & s & Hin & Hi). apply in_concat in Hin as (r & Hr & Hin). apply in_map_iff in Hr as (x & <- & Hx). eauto 10.
  - intros (x & Hx & o & s & Hin & Hi). exists o, s. split; [|done]. apply in_concat. exists (f x). split; [|done]. by apply in_map.
Qed.
Lemma in_ranges_shift off rs i : in_ranges (shift_cells off rs) i <-> exists j, i = (off + j)%N /\ in_ranges rs j.
Proof.
  unfold in_ranges, shift_cells. split.
  - intros (o & s & Hin & Hi). apply in_map_iff in Hin as ([o' s'] & [= <- <-] & Hin). cbn in Hi.
    exists (i - off)%N. split; [lia|]. exists o', s'. split; [done|]. lia.
  - intros (j & -> & o & s & Hin & Hi). exists (o + off)%N, s. split; [|lia]. apply in_map_iff. by exists (o, s).
Qed.

Fixpoint RsTy_ind' (Q : RsTy -> Prop)
    (Hp : forall s, Q (RsPlain s)) (Hf : forall fs s, Forall (fun f => Q (snd f)) fs -> Q (RsFields fs s))
    (Hc : forall s, Q (RsUnsafeCell s)) (Hu : forall f s, Q (RsUnionOrEnum f s))
    (Ha : forall e c s, Q e -> Q (RsArray e c s)) (t : RsTy) : Q t :=
  match t with
  | RsPlain s => Hp s
  | RsFields fs s => Hf fs s ((fix go l : Forall (fun f => Q (snd f)) l :=
      match l with [] => List.Forall_nil _ | f :: r => List.Forall_cons _ _ _ (RsTy_ind' Q Hp Hf Hc Hu Ha (snd f)) (go r) end) fs)
  | RsUnsafeCell s => Hc s
  | RsUnionOrEnum f s => Hu f s
  | RsArray e c s => Ha e c s (RsTy_ind' Q Hp Hf Hc Hu Ha e)
  end.

Lemma array_cells elem count size i :
  in_ranges (cells_in_sized_ty (RsArray elem count size)) i <->
  exists k j, (k < 2)%N /\ i = (k * rs_size elem + j)%N /\ in_ranges (cells_in_sized_ty elem) j.
Proof.
  cbn [cells_in_sized_ty].
  assert (G : forall r : list (Offset * Size), in_ranges (concat (List.map (fun i => shift_cells (rs_size elem * N.of_nat i) r) (seq 0 2))) i <->
    exists k j, (k < 2)%N /\ i = (k * rs_size elem + j)%N /\ in_ranges r j).
  { intros r. rewrite in_ranges_concat. split.
    - intros (k & Hk%in_seq & (j & -> & Hj)%in_ranges_shift). exists (N.of_nat k), j. split; [lia|]. split; [lia|done].
    - intros (k & j & Hk & -> & Hj). exists (N.to_nat k). rewrite in_seq. split; [lia|]. apply in_ranges_shift.
      exists j. split; [lia|done]. }
  destruct (cells_in_sized_ty elem) as [|c r]; [|apply G]. split.
  - intros (? & ? & [] & _).
  - intros (? & ? & _ & _ & (? & ? & [] & _)).
Qed.

Lemma cells_exact ty : arrays_two ty -> forall i, in_ranges (cells_in_sized_ty ty) i <-> in_cell ty i.
Proof.
  induction ty as [s|fs s IH|s|f s|e c s IH] using RsTy_ind'; intros Ha i.
  - split; [by intros (? & ? & [] & _)|]. intros H; inversion H.
  - inversion Ha as [|? ? Hf| | |]; subst. cbn [cells_in_sized_ty]. rewrite in_ranges_concat.
    rewrite List.Forall_forall in IH, Hf. split.
    + intros ([o t] & Hin & (j & -> & Hj)%in_ranges_shift). econstructor; [done|]. by apply (IH _ Hin (Hf _ Hin)).
    + intros H; inversion H; subst. eexists (_, _). split; [done|]. apply in_ranges_shift. eexists. split; [done|].
      match goal with Hin : In _ _ |- _ => by apply (IH _ Hin (Hf _ Hin)) end.
  - split.
    + intros (o & l & [[= <- <-]|[]] & Hi). constructor. lia.
    + intros H; inversion H; subst. exists 0%N, s. split; [by left|lia].
  - destruct f; cbn [cells_in_sized_ty].
    + split; [by intros (? & ? & [] & _)|]. intros H; inversion H.
    + split.
      * intros (o & l & [[= <- <-]|[]] & Hi). constructor. lia.
      * intros H; inversion H; subst. exists 0%N, s. split; [by left|lia].
  - inversion Ha as [| | | |? ? ? He Hc]; subst. rewrite array_cells. split.
    + intros (k & j & Hk & -> & Hj%IH); [|done]. destruct Hc as [Hc| ->]; [by apply Hc in Hj|]. by constructor.
    + intros H; inversion H as [| | |? ? ? k j Hk Hj]; subst. destruct Hc as [Hc| ->]; [by apply Hc in Hj|].
      exists k, j. split; [done|]. split; [done|]. by apply IH.
Qed.

(** the type that minimize builds passes the well-formedness check *)
Lemma union_ty_wf T ht fields size align :
  union_fields_ok T ht fields size -> valid_size T size = true -> (size mod align_bytes align = 0)%N ->
  exists ty, union_ty T fields size align = Ret ty /\ ty_check_wf T ht ty = Ret tt.
Proof.
  intros Hf Hv Ha. destruct (calc_chunks_ok T ht _ _ Hf) as (rs & Hc & Hcl & _).
  unfold union_ty. rewrite Hc. cbn [obind]. eexists. split; [done|]. cbn [ty_check_wf].
  assert (G : for_each (fun f => let! _ := ty_check_wf T ht (snd f) in
      let! l := layout T (snd f) in
      let! _ := ensure_wf (is_sized l) "Type::Union: unsized field type" in
      let! s := expect_size l in
      ensure_wf (fst f + s <=? size)%N "Type::Union: field size does not fit union") fields = Ret tt).
  { apply for_each_ret. eapply Forall_impl; [exact Hf|]. cbn. intros f (Hw & s & Hs & Hfit). rewrite Hw. cbn [obind].
    unfold size_of in Hs. apply obind_ret in Hs as (l & -> & Hs). cbn [obind].
    destruct l; try discriminate. cbn in Hs |- *. injection Hs as ->. replace (fst f + s <=? size)%N with true by lia. done. }
  rewrite G. cbn [obind]. rewrite (chunk_list_wf _ _ Hcl). cbn [obind]. unfold final_check_wf. cbn.
  rewrite Hv. cbn. rewrite Ha. cbn. done.
Qed.
