(** Relations on machine states that evaluation preserves: if each memory access and retag goes from a
    state to a related one, so does every expression. *)
From Verif Require Export Wp Step.

Section Rel.
  Context {P F M : Type} `{EqDecision P}.
  Variable T : Target.
  Variable MO : MemOps P F M.
  Notation Mach := (Machine P F M).

  Variable R : Mach -> Mach -> Prop.
  Hypothesis Rrefl : forall m, R m m.
  Hypothesis Rtrans : forall m1 m2 m3, R m1 m2 -> R m2 m3 -> R m1 m3.
  Hypothesis Rload : forall m p n a at_,
    post (cm_load MO (m_mem m) p n a at_) (fun r => R m (set_mem m (snd r))).
  Hypothesis Rstore : forall m p b a at_,
    post (cm_store MO (m_mem m) p b a at_) (fun mem => R m (set_mem m mem)).
  Hypothesis Rretag : forall m ptr pt fe, post (retag_ptr MO m ptr pt fe) (fun r => R m (snd r)).
  Hint Extern 0 (R _ _) => apply Rrefl : core.
  Hint Extern 0 (wp _ _ _) => apply Rrefl : core.
  Hint Extern 0 (post _ _) => apply Rrefl : core.

  Lemma typed_store_rel m ptr v ty al at_ : post (typed_store T MO m ptr v ty al at_) (R m).
  Proof.
    unfold typed_store. do 3 (apply post_bind_skip; intros ?). apply wp_bind.
    eapply wp_mono; [apply Rstore|]. done.
  Qed.
  Lemma typed_load_rel m ptr ty al at_ :
    post (typed_load T MO m ptr ty al at_) (fun r => R m (snd r)).
  Proof.
    unfold typed_load. apply post_bind_skip. intros s. apply wp_bind. eapply wp_mono; [apply Rload|].
    intros [b mem] H1. cbn in H1. apply post_bind_skip. intros [v|]; [|done]. by apply post_bind_skip.
  Qed.
  Lemma place_load_rel m pl ty : post (place_load T MO m pl ty) (fun r => R m (snd r)).
  Proof. unfold place_load. destruct (negb _); [done|apply typed_load_rel]. Qed.
  Lemma place_store_rel m pl v ty : post (place_store T MO m pl v ty) (R m).
  Proof. unfold place_store. destruct (negb _); [done|apply typed_store_rel]. Qed.
  Lemma deinit_rel m p n a : post (deinit MO m p n a) (R m).
  Proof. unfold deinit. apply wp_bind. by eapply wp_mono; [apply Rstore|]. Qed.

  Lemma map_st_rel {A B} (f : Mach -> A -> Outcome (B * Mach)) l m :
    Forall (fun x => forall m, post (f m x) (fun r => R m (snd r))) l ->
    post (map_st f l m) (fun r => R m (snd r)).
  Proof.
    intros Hf. revert m. induction Hf as [|x l Hx Hl IH]; intros m; [done|]. cbn.
    apply wp_bind. eapply wp_mono; [apply Hx|]. intros [y m1] H1. cbn in *.
    apply wp_bind. eapply wp_mono; [apply IH|]. intros [ys m2] H2. cbn in *. by eapply Rtrans.
  Qed.

  Lemma decode_discr_rel ptr d m :
    post (decode_discriminant T (load_accessor T MO ptr) d m) (fun r => R m (snd r)).
  Proof.
    revert m. induction d as [d| |o it fb ch IHf IHc] using Discriminator_ind'; intros m; cbn; [done|done|].
    apply wp_bind. eapply wp_mono with (Q := fun r => R m (snd r)).
    { unfold load_accessor. apply post_bind_skip. intros p. apply wp_bind. eapply wp_mono; [apply Rload|]. by intros [b mem]. }
    intros [bytes m1] H1. cbn in H1. apply post_bind_skip. intros [v|]; [|done].
    assert (forall l, Forall (fun c => forall m, post (decode_discriminant T (load_accessor T MO ptr) (snd c) m)
              (fun r => R m (snd r))) l ->
            forall r, find_child (fun c => decode_discriminant T (load_accessor T MO ptr) c m1) v l = Some r ->
              post r (fun r => R m1 (snd r))) as Hl.
    { intros l Hf. induction Hf as [|[[a b] c] l Hc Hl IH]; cbn; [done|]. intros r.
      destruct (in_range v (a, b)); [intros [= <-]; apply Hc|apply IH]. }
    specialize (Hl ch IHc). destruct (find_child _ _ _) as [r|].
    - eapply wp_mono; [by apply Hl|]. intros r' Hr. by eapply Rtrans.
    - eapply wp_mono; [by apply IHf|]. intros r' Hr. by eapply Rtrans.
  Qed.

  Lemma encode_discr_rel ptr tg m :
    post (encode_discriminant T (store_accessor T MO ptr) tg m) (R m).
  Proof.
    unfold encode_discriminant. apply (wp_fold_m _ True (fun _ m' => R m m')); [done|].
    intros i [o [it v]] m1 _ H1. apply post_bind_skip. intros b. unfold store_accessor.
    apply post_bind_skip. intros p. apply wp_bind. eapply wp_mono; [apply Rstore|].
    intros mem H2. cbn. by eapply Rtrans.
  Qed.

  (** ** Expressions *)

  Lemma eval_rel :
    (forall e m, post (eval_value T MO e m) (fun r => R m (snd r))) /\
    (forall p m, post (eval_place T MO p m) (fun r => R m (snd r))).
  Proof.
    apply Expr_ind'.
    - intros c ty m. cbn. by apply post_bind_skip.
    - intros es ty IH m. cbn. apply wp_bind. eapply wp_mono; [by apply map_st_rel|].
      by intros [vs m1] H1.
    - intros f e ty IH m. cbn. destruct ty; try done.
      apply post_bind_skip. intros [o ety]. apply wp_bind. eapply wp_mono; [apply IH|].
      intros [[v vty] m1] H1. do 4 (apply post_bind_skip; intros ?). done.
    - intros d e ty IH m. cbn. apply wp_bind. eapply wp_mono; [apply IH|]. by intros [[v vty] m1] H1.
    - intros p IH m. cbn. apply wp_bind. eapply wp_mono; [apply IH|]. intros [[pl ty] m1] H1. cbn in H1.
      destruct ty; try done. destruct (negb _); [done|].
      apply wp_bind. eapply wp_mono; [apply decode_discr_rel|]. intros [[d|] m2] H2; [|done].
      by eapply Rtrans.
    - intros p IH m. cbn. apply wp_bind. eapply wp_mono; [apply IH|]. intros [[pl ty] m1] H1. cbn in H1.
      apply wp_bind. eapply wp_mono; [apply place_load_rel|]. intros [v m2] H2. by eapply Rtrans.
    - intros p pt IH m. cbn. apply wp_bind. eapply wp_mono; [apply IH|]. intros [[pl ty] m1] H1. cbn in H1.
      apply post_bind_skip. intros _. apply wp_bind. eapply wp_mono; [apply Rretag|].
      intros [q m2] H2. by eapply Rtrans.
    - intros op e IH m. cbn. apply wp_bind. eapply wp_mono; [apply IH|]. intros [[v ty] m1] H1.
      by apply post_bind_skip; intros [? ?].
    - intros op l r IHl IHr m. cbn. apply wp_bind. eapply wp_mono; [apply IHl|]. intros [[v ty] m1] H1.
      apply wp_bind. eapply wp_mono; [apply IHr|]. intros [[w ty2] m2] H2. cbn in H1, H2.
      apply post_bind_skip; intros [? ?]. by eapply Rtrans.
    - intros n m. cbn. do 2 (apply post_bind_skip; intros ?). by destruct (map_get _ _).
    - intros e ty IH m. cbn. apply wp_bind. eapply wp_mono; [apply IH|]. intros [[v vty] m1] H1. cbn in H1.
      destruct v, vty; try done. do 3 (apply post_bind_skip; intros ?). done.
    - intros p f IH m. cbn. apply wp_bind. eapply wp_mono; [apply IH|]. intros [[pl ty] m1] H1. cbn in H1.
      apply post_bind_skip. intros [o fty]. do 5 (apply post_bind_skip; intros ?). done.
    - intros p e IHp IHe m. cbn. apply wp_bind. eapply wp_mono; [apply IHp|]. intros [[pl ty] m1] H1.
      apply wp_bind. eapply wp_mono; [apply IHe|]. intros [[iv ity] m2] H2. cbn in H1, H2.
      destruct iv; try done. apply post_bind_skip. intros [elem count]. destruct (_ || _); [done|].
      do 6 (apply post_bind_skip; intros ?). by eapply Rtrans.
    - intros p d IH m. cbn. apply wp_bind. eapply wp_mono; [apply IH|]. intros [[pl ty] m1] H1.
      destruct ty; try done. by apply post_bind_skip.
  Qed.
  Lemma eval_value_rel e m : post (eval_value T MO e m) (fun r => R m (snd r)).
  Proof. apply eval_rel. Qed.
  Lemma eval_place_rel p m : post (eval_place T MO p m) (fun r => R m (snd r)).
  Proof. apply eval_rel. Qed.

  (** ** Statements *)

  Lemma retag_val_rel fe ty v m : post (retag_val MO fe ty v m) (fun r => R m (snd r)).
  Proof.
    revert v m.
    induction ty as [it| |pt|fields head u IHf IHu|elem count IHe|elem IHe|fields chunks size align IHf
      |variants dty discr size align IHv|tn] using Ty_ind'; intros v m; destruct v as [i|b|p|vs|d v|ch]; cbn; try done.
    - apply wp_bind. eapply wp_mono; [apply Rretag|]. by intros [q m1] H1.
    - apply wp_bind. eapply wp_mono with (Q := fun r => R m (snd r)); [|by intros [ws m1] H1].
      clear IHu. revert vs m. induction IHf as [|f fs Hf Hfs IH]; intros vs m; [done|].
      destruct vs as [|v vs]; [done|]. cbn. apply wp_bind. eapply wp_mono; [apply Hf|].
      intros [w m1] H1. apply wp_bind. eapply wp_mono; [apply IH|]. intros [ws m2] H2. cbn in *.
      by eapply Rtrans.
    - apply wp_bind. eapply wp_mono; [apply map_st_rel|by intros [ws m1] H1].
      apply Forall_forall. intros v _ m1. apply IHe.
    - match goal with |- context [map_get_with ?f ?k ?l] =>
        assert (forall r, map_get_with f k l = Some r -> post r (fun r => R m (snd r))) as Hl end.
      { induction IHv as [|[k [t tg]] l Hk Hl IH]; cbn; [done|]. intros r.
        destruct (bool_decide _); [intros [= <-]; apply Hk|apply IH]. }
      destruct (map_get_with _ _ _) as [r|]; [|done]. apply wp_bind. eapply wp_mono; [by apply Hl|].
      by intros [w m1] H1.
  Qed.
End Rel.
