(** Expressions that only read: the state they leave differs by the reads. *)
From Verif Require Export TreeDrop EvalRel.
From Verif Require Import BaseProofs SafeFrame.

Section Reads.
  Context {P F M : Type} `{EqDecision P}.
  Variable T : Target.
  Variable MO : MemOps P F M.
  Notation Mach := (Machine P F M).
  Variable R : Mach -> Mach -> Prop.
  Hypothesis Rrefl : forall m, R m m.
  Hypothesis Rtrans : forall m1 m2 m3, R m1 m2 -> R m2 m3 -> R m1 m3.
  Hypothesis Rload : forall m p n a at_,
    post (cm_load MO (m_mem m) p n a at_) (fun r => R m (set_mem m (snd r))).
  Hypothesis Rretag : forall m ptr mt, post (retag_ptr MO m ptr (PRaw mt) false) (fun r => R m (snd r)).
  Hint Extern 0 (R _ _) => apply Rrefl : core.
  Hint Extern 0 (wp _ _ _) => apply Rrefl : core.
  Hint Extern 0 (post _ _) => apply Rrefl : core.

  Lemma reads_rel :
    (forall e m, only_reads e = true -> post (eval_value T MO e m) (fun r => R m (snd r))) /\
    (forall p m, only_reads_place p = true -> post (eval_place T MO p m) (fun r => R m (snd r))).
  Proof.
    apply Expr_ind'.
    - intros c ty m _. cbn. by apply post_bind_skip.
    - intros es ty IH m He. cbn in *. apply wp_bind. eapply wp_mono; [apply (map_st_rel R Rrefl Rtrans)|by intros [vs m1] H1].
      clear -IH He. induction IH as [|e es Hx IH IHl]; [constructor|]. simpl in He. apply andb_true_iff in He as [H1 H2].
      constructor; [intros; by apply Hx|by apply IHl].
    - intros f e ty IH m He. cbn in *. destruct ty; try done.
      apply post_bind_skip. intros [o ety]. apply wp_bind. eapply wp_mono; [by apply IH|].
      intros [[v vty] m1] H1. do 4 (apply post_bind_skip; intros ?). done.
    - intros d e ty IH m He. cbn. apply wp_bind. eapply wp_mono; [by apply IH|]. by intros [[v vty] m1] H1.
    - intros p IH m He. cbn. apply wp_bind. eapply wp_mono; [by apply IH|]. intros [[pl ty] m1] H1. cbn in H1.
      destruct ty; try done. destruct (negb _); [done|].
      apply wp_bind. eapply wp_mono; [by apply (decode_discr_rel T MO R)|]. intros [[d|] m2] H2; [|done].
      by eapply Rtrans.
    - intros p IH m He. cbn. apply wp_bind. eapply wp_mono; [by apply IH|]. intros [[pl ty] m1] H1. cbn in H1.
      apply wp_bind. eapply wp_mono; [by apply (place_load_rel T MO R)|]. intros [v m2] H2. by eapply Rtrans.
    - intros p pt IH m He. cbn in *. destruct pt; try done. apply wp_bind. eapply wp_mono; [by apply IH|].
      intros [[pl ty] m1] H1. cbn in H1.
      apply post_bind_skip. intros _. apply wp_bind. eapply wp_mono; [apply Rretag|].
      intros [q m2] H2. by eapply Rtrans.
    - intros op e IH m He. cbn. apply wp_bind. eapply wp_mono; [by apply IH|]. intros [[v ty] m1] H1.
      by apply post_bind_skip; intros [? ?].
    - intros op l r IHl IHr m He. cbn in *. apply andb_true_iff in He as [He1 He2].
      apply wp_bind. eapply wp_mono; [by apply IHl|]. intros [[v ty] m1] H1.
      apply wp_bind. eapply wp_mono; [by apply IHr|]. intros [[w ty2] m2] H2. cbn in H1, H2.
      apply post_bind_skip; intros [? ?]. by eapply Rtrans.
    - intros n m _. cbn. do 2 (apply post_bind_skip; intros ?). by destruct (map_get _ _).
    - intros e ty IH m He. cbn. apply wp_bind. eapply wp_mono; [by apply IH|]. intros [[v vty] m1] H1. cbn in H1.
      destruct v, vty; try done. do 3 (apply post_bind_skip; intros ?). done.
    - intros p f IH m He. cbn. apply wp_bind. eapply wp_mono; [by apply IH|]. intros [[pl ty] m1] H1. cbn in H1.
      apply post_bind_skip. intros [o fty]. do 5 (apply post_bind_skip; intros ?). done.
    - intros p e IHp IHe m He. cbn in *. apply andb_true_iff in He as [He1 He2].
      apply wp_bind. eapply wp_mono; [by apply IHp|]. intros [[pl ty] m1] H1.
      apply wp_bind. eapply wp_mono; [by apply IHe|]. intros [[iv ity] m2] H2. cbn in H1, H2.
      destruct iv; try done. apply post_bind_skip. intros [elem count]. destruct (_ || _); [done|].
      do 6 (apply post_bind_skip; intros ?). by eapply Rtrans.
    - intros p d IH m He. cbn. apply wp_bind. eapply wp_mono; [by apply IH|]. intros [[pl ty] m1] H1.
      destruct ty; try done. by apply post_bind_skip.
  Qed.
End Reads.

Lemma tmore_trans a b c : tmore a b -> tmore b c -> tmore a c.
Proof.
  revert b c. induction a as [cs ps pr IH] using Node_ind'. intros [ds rs pr1] [es ss pr2] H1 H2.
  apply tmore_eq in H1 as (Hc1 & Hp1 & ->). apply tmore_eq in H2 as (Hc2 & Hp2 & ->). apply tmore_eq.
  split; [|split; [by eapply mores_trans|done]]. clear -IH Hc1 Hc2. revert ds es Hc1 Hc2.
  induction IH as [|c cs Hc IH IHl]; intros ds es Hc1 Hc2; inversion Hc1; subst; inversion Hc2; subst; constructor; eauto.
Qed.
Lemma mmore_trans m1 m2 m3 : mmore m1 m2 -> mmore m2 m3 -> mmore m1 m3.
Proof.
  intros H. revert m3. induction H as [|a b m1 m2 [(? & ? & ? & ? & ?) Ht] H IH]; intros m3 Hm; inversion Hm as [|? c ? ? [(? & ? & ? & ? & ?) Ht2]]; subst; constructor; auto.
  split; [|by eapply tmore_trans]. repeat split; congruence.
Qed.

Section Mr.
  Context {P F M : Type} `{EqDecision P}.
  Variable T : Target.
  Variable MO : MemOps P F M.
  Variable MR : M -> M -> Prop.
  Hypothesis MRrefl : forall m, MR m m.
  Hypothesis MRtrans : forall m1 m2 m3, MR m1 m2 -> MR m2 m3 -> MR m1 m3.
  Hypothesis MRload : forall m p l a b m', mo_load MO m p l a = Ret (b, m') -> MR m' m.
  Hypothesis MRretag : forall m f p mt lk p' m' f', mo_retag MO m f p (PRaw mt) false lk = Ret (p', m', f') -> m' = m /\ f' = f.
  Notation Mach := (Machine P F M).
  Notation mr := (mr MR fewer).

  Lemma mr_refl (m : Mach) : mr m m.
  Proof. exists (m_mem m). split; [by destruct m|]. split; [apply MRrefl|apply incl_refl]. Qed.
  Lemma mr_trans (m1 m2 m3 : Mach) : mr m1 m2 -> mr m2 m3 -> mr m1 m3.
  Proof.
    intros (d & -> & [H1 H2]) (e & -> & [H3 H4]). exists e. split; [done|]. cbn in *. split; [by eapply MRtrans|by eapply incl_tran].
  Qed.
  Lemma mr_load (m : Mach) p n a at_ b c : cm_load MO (m_mem m) p n a at_ = Ret (b, c) -> mr (set_mem m c) m.
  Proof.
    unfold cm_load. intros E. apply obind_ret in E as ([b' m'] & Hl & [= <- <-]). exists (m_mem m). split; [by destruct m|]. cbn in *.
    split; [by eapply MRload|]. cbn. apply incl_appl, incl_refl.
  Qed.
  Lemma mr_retag (m : Mach) ptr mt p m' : retag_ptr MO m ptr (PRaw mt) false = Ret (p, m') -> m' = m.
  Proof.
    unfold retag_ptr. intros E. apply obind_ret in E as (f & Hf & E). apply obind_ret in E as ([[q c] x] & Hr & E).
    apply obind_ret in E as (m1 & Hs & [= <- <-]). unfold cm_retag in Hr. apply obind_ret in Hr as ([[q1 c1] x1] & Hr & [= <- <- <-]).
    apply MRretag in Hr as [-> ->]. unfold cur_frame, active_thread in Hf. apply obind_ret in Hf as (t & Ht & Hf).
    apply unwrap_ret in Ht, Hf. unfold set_cur_frame, active_thread in Hs. cbn [m_threads m_active set_mem] in Hs. rewrite Ht in Hs. simpl in Hs.
    destruct (t_stack t) as [|g r] eqn:Es; [done|]. injection Hf as ->. injection Hs as <-.
    unfold set_active_thread, set_thread. cbn.
    assert (with_stack t (with_extra f (f_extra f) :: r) = t) as ->.
    { unfold with_stack, with_extra. destruct t, f. cbn in *. by subst. }
    rewrite list_insert_id by done. destruct m. cbn. unfold cm_set. f_equal. by destruct m_mem.
  Qed.
  Lemma mr_eval e (m : Mach) v m' : only_reads e = true -> eval_value T MO e m = Ret (v, m') -> mr m' m.
  Proof.
    intros He E. eapply (wp_use _ _ (fun r => mr (snd r) m)) in E; [exact E|].
    apply (proj1 (reads_rel T MO (fun a b => mr b a) mr_refl (fun a b c H1 H2 => mr_trans _ _ _ H2 H1)
      ltac:(intros; apply post_intro; intros [b c] Hl; by eapply mr_load)
      ltac:(intros; apply post_intro; intros [b c] Hl; apply mr_retag in Hl; subst; apply mr_refl))); done.
  Qed.
  Lemma mr_eval_place p (m : Mach) v m' : only_reads_place p = true -> eval_place T MO p m = Ret (v, m') -> mr m' m.
  Proof.
    intros He E. eapply (wp_use _ _ (fun r => mr (snd r) m)) in E; [exact E|].
    apply (proj2 (reads_rel T MO (fun a b => mr b a) mr_refl (fun a b c H1 H2 => mr_trans _ _ _ H2 H1)
      ltac:(intros; apply post_intro; intros [b c] Hl; by eapply mr_load)
      ltac:(intros; apply post_intro; intros [b c] Hl; apply mr_retag in Hl; subst; apply mr_refl))); done.
  Qed.
End Mr.

Lemma tree_retag_raw T m f p mt lk p' m' f' : mo_retag (TreeOps T) m f p (PRaw mt) false lk = Ret (p', m', f') -> m' = m /\ f' = f.
Proof. cbn. by intros [= _ <- <-]. Qed.
Lemma basic_retag_raw T m f p mt lk p' m' f' : mo_retag (BasicOps T) m f p (PRaw mt) false lk = Ret (p', m', f') -> m' = m /\ f' = f.
Proof. cbn. by intros [= _ <- <-]. Qed.

Lemma mr_same m n : mr mmore fewer m n -> same_but_reads m n.
Proof.
  intros (d & -> & [H _]). exists d. split; [done|]. eapply Forall2_impl; [exact H|]. by intros a b [? _].
Qed.
Lemma mr_same_basic m n : mr eq fewer m n -> same_but_accesses m n.
Proof. intros (d & -> & [H _]). by exists d. Qed.
