(** The relation of SimSpec is kept by encoding, decoding and checking values. *)
From Verif Require Export SimSpec.
From Verif Require Import Wp BaseProofs.
From Coq Require Import ZifyBool ZifyN ZifyNat.

(** [o] without a stop is matched by [o'] *)
Definition sim {A B} (R : A -> B -> Prop) (o : Outcome A) (o' : Outcome B) : Prop :=
  forall a, o = Ret a -> exists b, o' = Ret b /\ R a b.
(** the same for fallible computations, only successes are matched *)
Definition simo {A B} (R : A -> B -> Prop) (o : Outcome (option A)) (o' : Outcome (option B)) : Prop :=
  forall a, o = Ret (Some a) -> exists b, o' = Ret (Some b) /\ R a b.

Section Calc.
  Context {A B C D : Type}.

  Lemma sim_ret (R : A -> B -> Prop) a b : R a b -> sim R (Ret a) (Ret b).
  Proof. intros H ? [= <-]. eauto. Qed.
  Lemma sim_bind (R : A -> B -> Prop) (S : C -> D -> Prop) o o' f g :
    sim R o o' -> (forall a b, o = Ret a -> o' = Ret b -> R a b -> sim S (f a) (g b)) ->
    sim S (obind o f) (obind o' g).
  Proof.
    intros H1 H2 c H. apply obind_ret in H as (a & Ha & Hc). destruct (H1 a Ha) as (b & Hb & HR).
    rewrite Hb. simpl. by apply (H2 a b Ha Hb HR).
  Qed.
  Lemma sim_impl (R R' : A -> B -> Prop) o o' : sim R o o' -> (forall a b, R a b -> R' a b) -> sim R' o o'.
  Proof. intros H Hi a Ha. destruct (H a Ha) as (b & ? & ?). eauto. Qed.
  Lemma sim_eq (o : Outcome A) : sim eq o o.
  Proof. intros a ->. eauto. Qed.
  Lemma sim_stop (R : A -> B -> Prop) t o : sim R (Stop t) o.
  Proof. discriminate. Qed.
  Lemma sim_panic (R : A -> B -> Prop) o : sim R Panic o.
  Proof. discriminate. Qed.
  Lemma sim_nobeh (R : A -> B -> Prop) o : sim R NoBehavior o.
  Proof. discriminate. Qed.
  Lemma sim_expect (R : A -> B -> Prop) o o' : sim R o o' -> sim R (expect_ok o) (expect_ok o').
  Proof.
    intros H a Ha. destruct o as [a'| | |]; try discriminate. injection Ha as ->.
    destruct (H a eq_refl) as (b & -> & ?). eauto.
  Qed.
  Lemma sim_unwrap (R : A -> B -> Prop) o o' :
    (forall a, o = Some a -> exists b, o' = Some b /\ R a b) -> sim R (unwrap o) (unwrap o').
  Proof.
    intros H a Ha. destruct o as [a'|]; [|discriminate]. injection Ha as ->.
    destruct (H a eq_refl) as (b & -> & ?). eauto.
  Qed.
  (** a condition that has to hold is only tested *)
  Lemma sim_ok {X Y} (o : Outcome X) (o' : Outcome Y) (Q : X -> Y -> Prop) (R : A -> B -> Prop) f g :
    sim Q o o' -> (forall r, f false <> Ret r) -> (forall x y, o = Ret x -> o' = Ret y -> sim R (f true) (g true)) ->
    sim R (obind (is_ok o) f) (obind (is_ok o') g).
  Proof.
    intros H Hf Hg a Ha. destruct o as [x| | |]; try discriminate.
    - destruct (H x eq_refl) as (y & -> & _). by apply (Hg x y eq_refl eq_refl).
    - simpl in Ha. by apply Hf in Ha.
  Qed.
End Calc.

Lemma simo_ret {A B} (R : A -> B -> Prop) a b : R a b -> simo R (Ret (Some a)) (Ret (Some b)).
Proof. intros H ? [= <-]. eauto. Qed.
Lemma simo_none {A B} (R : A -> B -> Prop) o : simo R (Ret None) o.
Proof. discriminate. Qed.
Lemma simo_panic {A B} (R : A -> B -> Prop) o : simo R Panic o.
Proof. discriminate. Qed.
Lemma simo_bind {A B C D} (R : A -> B -> Prop) (S : C -> D -> Prop) o o' f g :
  sim R o o' -> (forall a b, o = Ret a -> R a b -> simo S (f a) (g b)) -> simo S (obind o f) (obind o' g).
Proof.
  intros H1 H2 c H. apply obind_ret in H as (a & Ha & Hc). destruct (H1 a Ha) as (b & -> & HR).
  by apply (H2 a b Ha HR).
Qed.
Lemma simo_map {A B C D} (R : A -> B -> Prop) (S : C -> D -> Prop) o o' f g :
  simo R o o' -> (forall a b, R a b -> S (f a) (g b)) ->
  simo S (let! x := o in Ret (option_map f x)) (let! x := o' in Ret (option_map g x)).
Proof.
  intros H Hs c Hc. apply obind_ret in Hc as ([a|] & Ha & Hc); [|discriminate]. injection Hc as <-.
  destruct (H a Ha) as (b & -> & HR). simpl. eauto.
Qed.
Lemma simo_try_map {A A' B B'} (Q : A -> A' -> Prop) (R : B -> B' -> Prop) f g l l' :
  Forall2 Q l l' -> (forall a a', In a l -> Q a a' -> simo R (f a) (g a')) ->
  simo (Forall2 R) (try_map f l) (try_map g l').
Proof.
  intros HQ. induction HQ as [|a a' l l' Ha HQ IH]; intros Hf; [by apply simo_ret|].
  intros r Hr. simpl in Hr. apply obind_ret in Hr as ([b|] & Hb & Hr); [|discriminate].
  apply obind_ret in Hr as ([bs|] & Hbs & Hr); [|discriminate]. injection Hr as <-.
  destruct (Hf a a' (or_introl eq_refl) Ha b Hb) as (b' & Hb' & HR).
  assert (forall x x', In x l -> Q x x' -> simo R (f x) (g x')) as Hf' by (intros; apply Hf; simpl; auto).
  destruct (IH Hf' bs Hbs) as (bs' & Hbs' & HRs). simpl. rewrite Hb'. simpl. rewrite Hbs'. simpl. eauto.
Qed.
Lemma sim_map_m {A A' B B'} (Q : A -> A' -> Prop) (R : B -> B' -> Prop) f g l l' :
  Forall2 Q l l' -> (forall a a', In a l -> Q a a' -> sim R (f a) (g a')) ->
  sim (Forall2 R) (map_m f l) (map_m g l').
Proof.
  intros HQ. induction HQ as [|a a' l l' Ha HQ IH]; intros Hf; [by apply sim_ret|]. simpl.
  eapply sim_bind; [apply Hf; simpl; auto|]. intros b b' _ _ Hb.
  eapply sim_bind; [apply IH; intros; apply Hf; simpl; auto|]. intros bs bs' _ _ Hbs. apply sim_ret. by constructor.
Qed.
Lemma sim_fold_m {A A' S S'} (Q : A -> A' -> Prop) (R : S -> S' -> Prop) f g l l' s s' :
  Forall2 Q l l' -> R s s' -> (forall a a' s s', In a l -> Q a a' -> R s s' -> sim R (f s a) (g s' a')) ->
  sim R (fold_m f l s) (fold_m g l' s').
Proof.
  intros HQ. revert s s'. induction HQ as [|a a' l l' Ha HQ IH]; intros s s' Hs Hf; [by apply sim_ret|]. simpl.
  eapply sim_bind; [apply Hf; simpl; auto|]. intros. apply IH; [done|]. intros; apply Hf; simpl; auto.
Qed.
Lemma sim_fold_m2 {A A' B B' S S'} (Q : A -> A' -> Prop) (Q' : B -> B' -> Prop) (R : S -> S' -> Prop) f g l l' k k' s s' :
  Forall2 Q l l' -> Forall2 Q' k k' -> R s s' ->
  (forall a a' b b' s s', In a l -> Q a a' -> Q' b b' -> R s s' -> sim R (f s a b) (g s' a' b')) ->
  sim R (fold_m2 f l k s) (fold_m2 g l' k' s').
Proof.
  intros HQ. revert k k' s s'.
  induction HQ as [|a a' l l' Ha HQ IH]; intros k k' s s' Hk Hs Hf; [by apply sim_ret|].
  destruct Hk as [|b b' k k' Hb Hk]; [by apply sim_ret|]. simpl.
  eapply sim_bind; [apply Hf; simpl; eauto|]. intros. apply IH; [done|done|]. intros; apply Hf; simpl; auto.
Qed.
Lemma sim_for_each {A A'} (Q : A -> A' -> Prop) f g l l' :
  Forall2 Q l l' -> (forall a a', In a l -> Q a a' -> sim eq (f a) (g a')) ->
  sim eq (for_each f l) (for_each g l').
Proof.
  intros HQ. induction HQ as [|a a' l l' Ha HQ IH]; intros Hf; [by apply sim_ret|]. simpl.
  eapply sim_bind; [apply Hf; simpl; auto|]. intros. apply IH; intros; apply Hf; simpl; auto.
Qed.
Lemma sim_for_each2 {A A' B B'} (Q : A -> A' -> Prop) (Q' : B -> B' -> Prop) f g l l' k k' :
  Forall2 Q l l' -> Forall2 Q' k k' -> (forall a a' b b', In a l -> Q a a' -> Q' b b' -> sim eq (f a b) (g a' b')) ->
  sim eq (for_each2 f l k) (for_each2 g l' k').
Proof.
  intros HQ. revert k k'. induction HQ as [|a a' l l' Ha HQ IH]; intros k k' Hk Hf; [by apply sim_ret|].
  destruct Hk as [|b b' k k' Hb Hk]; [by apply sim_ret|]. simpl.
  eapply sim_bind; [apply Hf; simpl; auto|]. intros. apply IH; [done|]. intros; apply Hf; simpl; auto.
Qed.
Lemma Forall2_same {A} (l : list A) : Forall2 eq l l.
Proof. induction l; auto. Qed.

Lemma map_get_with_some {K V R} `{EqDecision K} (f : V -> R) (k : K) l r :
  map_get_with f k l = Some r -> exists v, In (k, v) l /\ r = f v /\ forall R' (g : V -> R'), map_get_with g k l = Some (g v).
Proof.
  induction l as [|[k' v] l IH]; [done|]. simpl. case_bool_decide as E; [intros [= <-]; subst; eauto 6|].
  intros H. destruct (IH H) as (v' & ? & ? & ?). eauto 6.
Qed.

Section Repr.
  Context {P1 P2 : Type} `{EqDecision P1} `{EqDecision P2}.
  Variable h : P1 -> P2.
  Variable T : Target.
  Notation bytes_sim := (bytes_sim h).
  Notation byte_sim := (byte_sim h).
  Notation value_sim := (value_sim h).
  Notation thin_sim := (thin_sim h).
  Notation ptr_sim := (ptr_sim h).
  Notation meta_sim := (meta_sim h).
  Notation prov_sim := (prov_sim h).

  (** ** Bytes *)

  Lemma subslice_sim b c off len : bytes_sim b c -> sim bytes_sim (subslice b off len) (subslice c off len).
  Proof.
    intros H r. unfold subslice. rewrite (Forall2_length _ _ _ H). destruct (_ <=? _)%nat; [|done].
    intros [= <-]. eexists. split; [done|]. by apply Forall2_take, Forall2_drop.
  Qed.
  Lemma write_subslice_sim b c off x y :
    bytes_sim b c -> bytes_sim x y -> sim bytes_sim (write_subslice b off x) (write_subslice c off y).
  Proof.
    intros H Hx r. unfold write_subslice. rewrite (Forall2_length _ _ _ H), (Forall2_length _ _ _ Hx).
    destruct (_ <=? _)%nat; [|done]. intros [= <-]. eexists. split; [done|].
    apply Forall2_app; [by apply Forall2_take|]. apply Forall2_app; [done|]. by apply Forall2_drop.
  Qed.
  Lemma uninit_sim n : bytes_sim (list_repeat Uninit n) (list_repeat Uninit n).
  Proof. unfold list_repeat. induction (N.to_nat n); simpl; constructor; [constructor|done]. Qed.
  Lemma bytes_data_sim b c ds : bytes_sim b c -> bytes_data b = Some ds -> bytes_data c = Some ds.
  Proof.
    intros H. revert ds. induction H as [|x y b c Hxy H IH]; intros ds Hd; [done|]. simpl in *.
    destruct Hxy as [|d f g Hf]; simpl in *; [done|]. destruct (bytes_data b) as [r|]; [|done].
    by rewrite (IH r).
  Qed.

  Lemma decode_int_opt_sim it b c : bytes_sim b c -> simo eq (decode_int_opt T it b) (decode_int_opt T it c).
  Proof.
    intros H i. unfold decode_int_opt. rewrite (Forall2_length _ _ _ H). destruct (_ =? _)%N; [|done].
    destruct (bytes_data b) as [ds|] eqn:E; [|done]. rewrite (bytes_data_sim _ _ _ H E). intros [= <-]. eauto.
  Qed.

  Lemma prov_fold_sim b c p q i : bytes_sim b c -> prov_sim p q -> prov_sim (prov_fold p i b) (prov_fold q i c).
  Proof.
    intros H. revert p q i. induction H as [|x y b c Hxy H IH]; intros p q i Hpq; [done|]. simpl.
    apply IH. destruct Hxy as [b'|d f g Hf]; simpl; [constructor|]. destruct Hf as [f|p' j]; simpl; [constructor|].
    destruct (j =? i); simpl; [|constructor]. case_bool_decide as E; [|constructor]. subst p. inversion Hpq; subst.
    rewrite bool_decide_true by done. constructor.
  Qed.
  Lemma decode_ptr_sim b c : bytes_sim b c -> simo thin_sim (decode_ptr T b) (decode_ptr T c).
  Proof.
    intros H p. unfold decode_ptr. rewrite (Forall2_length _ _ _ H). destruct (_ =? _)%N; [|done].
    destruct (bytes_data b) as [ds|] eqn:E; [|done]. rewrite (bytes_data_sim _ _ _ H E).
    destruct b as [|b0 b]; [done|]. intros [= <-]. pose proof H as H'. inversion H as [|? c0 ? c' Hb Hc]; subst.
    eexists. split; [done|]. split; [done|]. cbn [tp_prov].
    apply (prov_fold_sim (b0 :: b) (c0 :: c') _ _ 0 H').
    destruct Hb as [|d f g Hf]; simpl; [constructor|]. destruct Hf; simpl; constructor.
  Qed.
  Lemma encode_frags_sim p q i ds : prov_sim p q -> bytes_sim (encode_frags p i ds) (encode_frags q i ds).
  Proof.
    intros H. revert i. induction ds as [|d ds IH]; intros i; simpl; constructor; [|apply IH].
    constructor. destruct H; simpl; constructor.
  Qed.
  Lemma encode_ptr_sim p q : thin_sim p q -> sim bytes_sim (encode_ptr T p) (encode_ptr T q).
  Proof.
    intros [Ha Hp]. unfold encode_ptr. rewrite Ha. eapply sim_bind; [apply sim_eq|]. intros ds ? _ _ <-.
    apply sim_ret. by apply encode_frags_sim.
  Qed.
  Lemma encode_int_sim it i : sim bytes_sim (encode_int T it i) (encode_int T it i).
  Proof.
    unfold encode_int. eapply sim_bind; [apply sim_eq|]. intros ds ? _ _ <-. apply sim_ret.
    induction ds; simpl; constructor; [|done]. constructor. constructor.
  Qed.

  (** ** Values *)

  Lemma decode_int_sim it b c : bytes_sim b c -> simo value_sim (decode_int T it b) (decode_int T it c).
  Proof. intros Hb. eapply simo_map; [by apply decode_int_opt_sim|]. intros ? ? ->. constructor. Qed.

  Lemma thin_value p q : thin_sim p q -> value_sim (VPtr (widen p None)) (VPtr (widen q None)).
  Proof. intros Hp. constructor. split; [done|]. constructor. Qed.

  Lemma decode_meta_sim mk b c : bytes_sim b c -> simo value_sim (decode_meta T mk b) (decode_meta T mk c).
  Proof.
    intros Hb. destruct mk; simpl; [apply simo_panic|by apply decode_int_sim|].
    eapply simo_map; [by apply decode_ptr_sim|]. intros. by apply thin_value.
  Qed.
  Lemma encode_meta_sim mk v w : value_sim v w -> sim bytes_sim (encode_meta T mk v) (encode_meta T mk w).
  Proof.
    intros [i|b|p q Hp|vs ws _|d v' w' _|c d _]; destruct mk; simpl; try apply sim_panic; try apply encode_int_sim.
    all: destruct p as [p pm], q as [q qm], Hp as [Hp Hm]; simpl in *; destruct Hm; try apply sim_panic;
      by apply encode_ptr_sim.
  Qed.
  Lemma meta_decode_sim mk v w : value_sim v w -> sim meta_sim (meta_decode_value mk v) (meta_decode_value mk w).
  Proof.
    intros [i|b|p q Hp|vs ws Hf|d v' w' _|c d _]; destruct mk; simpl; try apply sim_panic.
    all: try (destruct p as [p pm], q as [q qm], Hp as [Hp Hm]; simpl in *; destruct Hm).
    all: try destruct Hf.
    all: try apply sim_panic.
    all: apply sim_ret; by constructor.
  Qed.
  Lemma meta_encode_sim mk m n : meta_sim m n -> sim value_sim (meta_encode_as_value mk m) (meta_encode_as_value mk n).
  Proof.
    intros [|c|p q Hp]; destruct mk; simpl; try apply sim_panic; apply sim_ret; try constructor; [constructor|].
    split; [done|constructor].
  Qed.

  Lemma decode_pointer_sim pt b c : bytes_sim b c -> simo value_sim (decode_pointer T pt b) (decode_pointer T pt c).
  Proof.
    intros Hb. unfold decode_pointer. eapply simo_bind; [apply sim_eq|]. intros wide ? _ <-.
    destruct wide as [wd|].
    - rewrite (Forall2_length _ _ _ Hb). cbn [head_size_and_align].
      destruct (_ =? _)%N; [|apply simo_panic].
      eapply simo_bind; [by apply subslice_sim|]. intros b1 c1 _ H1. intros v Hv.
      apply obind_ret in Hv as ([p|] & Hp & Hv); [|discriminate].
      destruct (decode_ptr_sim _ _ H1 p Hp) as (q & -> & Hpq). simpl.
      revert v Hv. eapply simo_bind; [by apply subslice_sim|]. intros b2 c2 _ H2 v Hv.
      apply obind_ret in Hv as ([mv|] & Hm & Hv); [|discriminate].
      destruct (decode_meta_sim _ _ _ H2 mv Hm) as (mw & -> & Hmw). simpl.
      revert v Hv. eapply simo_bind; [by apply meta_decode_sim|]. intros m n _ Hmn.
      destruct Hmn; [apply simo_panic| |]; apply simo_ret; constructor; (split; [done|]); by constructor.
    - eapply simo_map; [by apply decode_ptr_sim|]. intros. by apply thin_value.
  Qed.
  Lemma encode_pointer_sim pt p q : ptr_sim p q -> sim bytes_sim (encode_pointer T pt p) (encode_pointer T pt q).
  Proof.
    intros [Hp Hm]. unfold encode_pointer. eapply sim_bind; [apply sim_eq|]. intros wide ? _ _ <-.
    destruct wide as [wd|].
    - eapply sim_bind; [by apply meta_encode_sim|]. intros mv mw _ _ Hmv.
      cbn [head_size_and_align].
      eapply sim_bind; [by apply encode_ptr_sim|]. intros b1 c1 _ _ H1.
      eapply sim_bind; [apply write_subslice_sim; [apply uninit_sim|done]|]. intros b2 c2 _ _ H2.
      eapply sim_bind; [by apply encode_meta_sim|]. intros b3 c3 _ _ H3. by apply write_subslice_sim.
    - destruct Hm; [by apply encode_ptr_sim|apply sim_panic|apply sim_panic].
  Qed.

  (** discriminants: the states of the accessors are related by [R] *)
  Lemma decode_discriminant_sim {S1 S2} (R : S1 -> S2 -> Prop) acc1 acc2 d :
    (forall s1 s2 o n, R s1 s2 ->
       sim (fun x y => bytes_sim (fst x) (fst y) /\ R (snd x) (snd y)) (acc1 s1 o n) (acc2 s2 o n)) ->
    forall s1 s2 z s1', R s1 s2 -> decode_discriminant T acc1 d s1 = Ret (Some z, s1') ->
    exists s2', decode_discriminant T acc2 d s2 = Ret (Some z, s2') /\ R s1' s2'.
  Proof.
    intros Hacc. induction d as [val| |off vt fb ch IHf IHc] using Discriminator_ind'; intros s1 s2 z s1' HR Hd.
    - injection Hd as <- <-. simpl. eauto.
    - discriminate.
    - cbn [decode_discriminant] in Hd |- *. apply obind_ret in Hd as ([b t1] & Hb & Hd).
      destruct (Hacc s1 s2 _ _ HR _ Hb) as ([c t2] & -> & [Hbc Ht]). cbn [fst snd obind] in *.
      apply obind_ret in Hd as ([i|] & Hi & Hd); [|discriminate].
      destruct (decode_int_opt_sim _ _ _ Hbc _ Hi) as (? & -> & <-). cbn [obind].
      clear Hi Hb. induction ch as [|[r cd] ch IH].
      + simpl in *. eauto.
      + simpl in Hd |- *. inversion IHc as [|? ? Hc1 Hc2]; subst. destruct (in_range i r).
        * eapply Hc1; eauto.
        * apply IH; auto.
  Qed.
  Lemma encode_discriminant_sim {S1 S2} (R : S1 -> S2 -> Prop) acc1 acc2 tg s1 s2 :
    (forall s1 s2 o b c, R s1 s2 -> bytes_sim b c -> sim R (acc1 s1 o b) (acc2 s2 o c)) ->
    R s1 s2 -> sim R (encode_discriminant T acc1 tg s1) (encode_discriminant T acc2 tg s2).
  Proof.
    intros Hacc HR. unfold encode_discriminant. eapply sim_fold_m; [apply Forall2_same|done|].
    intros [o [vt v]] ? t1 t2 _ <- Ht. eapply sim_bind; [apply encode_int_sim|]. intros b c _ _ Hbc. by apply Hacc.
  Qed.

  Lemma decode_bool_sim b c : bytes_sim b c -> simo value_sim (decode_bool b) (decode_bool c).
  Proof.
    intros [|x y b' c' Hx Hb]; [apply simo_panic|].
    destruct Hb as [|]; destruct Hx as [|d f g _]; try (by intros ? ?); [|by destruct d; apply simo_panic].
    destruct d; try apply simo_none; apply simo_ret; constructor.
  Qed.

  Lemma decode_sim ty b c : bytes_sim b c -> simo value_sim (decode T ty b) (decode T ty c).
  Proof.
    revert b c.
    induction ty as [it| |pt|fields head u IHf IHu|elem count IHe|elem IHe|fields chunks size align IHf
                    |variants dty discr size align IHv|tn] using Ty_ind'; intros b c Hb; cbn [decode].
    - by apply decode_int_sim.
    - by apply decode_bool_sim.
    - by apply decode_pointer_sim.
    - destruct u as [u|]; [apply simo_panic|]. rewrite (Forall2_length _ _ _ Hb).
      destruct (head_size_and_align head) as [s a]. destruct (_ =? _)%N; [|apply simo_panic].
      eapply simo_map; [|intros ? ? HR; constructor; exact HR].
      eapply simo_try_map; [apply Forall2_same|]. intros f ? Hin <-.
      eapply simo_bind; [apply sim_eq|]. intros n ? _ <-.
      eapply simo_bind; [by apply subslice_sim|]. intros b1 c1 _ H1. rewrite Forall_forall in IHf.
      apply IHf; [by apply elem_of_list_In|done].
    - eapply simo_bind; [apply sim_eq|]. intros es ? _ <-. eapply simo_bind; [apply sim_eq|]. intros fs ? _ <-.
      rewrite (Forall2_length _ _ _ Hb). destruct (_ =? _)%N; [|apply simo_panic].
      eapply simo_bind; [eapply sim_map_m; [apply Forall2_same|intros i ? _ <-; by apply subslice_sim]|].
      intros ks ls _ Hk. eapply simo_map; [|intros ? ? HR; constructor; exact HR].
      eapply simo_try_map; [exact Hk|]. auto.
    - apply simo_panic.
    - rewrite (Forall2_length _ _ _ Hb). destruct (_ =? _)%N; [|apply simo_panic].
      eapply simo_bind; [eapply sim_map_m; [apply Forall2_same|intros i ? _ <-; by apply subslice_sim]|].
      intros ks ls _ Hk. apply simo_ret. by constructor.
    - rewrite (Forall2_length _ _ _ Hb). destruct (_ =? _)%N; [|apply simo_panic].
      intros v Hv. apply obind_ret in Hv as ([[d|] []] & Hd & Hv); [|discriminate].
      destruct (decode_discriminant_sim (fun _ _ => True) (bytes_accessor b) (bytes_accessor c) discr) with
        (s1 := tt) (s2 := tt) (z := d) (s1' := tt) as ([] & -> & _); [|done|done|].
      { intros [] [] o n _. unfold bytes_accessor. eapply sim_bind; [by apply subslice_sim|].
        intros b1 c1 _ _ H1. by apply sim_ret. }
      cbn [obind]. destruct (map_get_with _ d variants) as [r|] eqn:Er; [|discriminate].
      apply map_get_with_some in Er as ([t tg] & Hin & -> & Hg). rewrite Hg. simpl in *.
      revert v Hv. eapply simo_map; [|intros ? ? HR; constructor; exact HR].
      rewrite Forall_forall in IHv. by apply (IHv _ (proj2 (elem_of_list_In _ _) Hin)).
    - apply simo_panic.
  Qed.

  Lemma encode_sim ty v w : value_sim v w -> sim bytes_sim (encode T ty v) (encode T ty w).
  Proof.
    revert v w.
    induction ty as [it| |pt|fields head u IHf IHu|elem count IHe|elem IHe|fields chunks size align IHf
                    |variants dty discr size align IHv|tn] using Ty_ind'; intros v w Hv; cbn [encode].
    - destruct Hv; try apply sim_panic. apply encode_int_sim.
    - destruct Hv; try apply sim_panic. apply sim_ret. constructor; [|constructor]. constructor. constructor.
    - destruct Hv; try apply sim_panic. by apply encode_pointer_sim.
    - destruct u as [u|]; [apply sim_panic|]. destruct (head_size_and_align head) as [s a].
      destruct Hv as [| | |vs ws HF| |]; try apply sim_panic. rewrite (Forall2_length _ _ _ HF).
      eapply sim_bind; [apply sim_eq|]. intros _ _ _ _ _.
      eapply sim_fold_m2; [apply Forall2_same|exact HF|apply uninit_sim|].
      intros f ? v w b c Hin <- Hvw Hbc. rewrite Forall_forall in IHf.
      eapply sim_bind; [apply IHf; [by apply elem_of_list_In|done]|]. intros b1 c1 _ _ H1. by apply write_subslice_sim.
    - destruct Hv as [| | |vs ws HF| |]; try apply sim_panic. rewrite (Forall2_length _ _ _ HF).
      eapply sim_bind; [apply sim_eq|]. intros _ _ _ _ _.
      eapply sim_bind.
      { eapply (sim_map_m _ bytes_sim); [exact HF|]. intros v w _ Hvw.
        eapply sim_bind; [by apply IHe|]. intros b c _ _ Hbc. eapply sim_bind; [apply sim_eq|]. intros s ? _ _ <-.
        rewrite (Forall2_length _ _ _ Hbc). eapply sim_bind; [apply sim_eq|]. intros. by apply sim_ret. }
      intros bs cs _ _ Hbs. apply sim_ret. induction Hbs as [|b c bs cs Hbc Hbs IH]; simpl; [constructor|].
      by apply Forall2_app.
    - apply sim_panic.
    - destruct Hv as [| | | | |ks ls HF]; try apply sim_panic. rewrite (Forall2_length _ _ _ HF).
      eapply sim_bind; [apply sim_eq|]. intros _ _ _ _ _.
      eapply sim_fold_m2; [apply Forall2_same|exact HF|apply uninit_sim|].
      intros k ? d e b c Hin <- Hde Hbc. rewrite (Forall2_length _ _ _ Hde).
      eapply sim_bind; [apply sim_eq|]. intros _ _ _ _ _. by apply write_subslice_sim.
    - destruct Hv as [| | | |d v w Hvw|]; try apply sim_panic.
      destruct (map_get_with _ d variants) as [r|] eqn:Er; [|apply sim_panic].
      apply map_get_with_some in Er as ([t tg] & Hin & -> & Hg). rewrite Hg. simpl.
      rewrite Forall_forall in IHv. eapply sim_bind; [by apply (IHv _ (proj2 (elem_of_list_In _ _) Hin))|].
      intros b c _ _ Hbc. apply (encode_discriminant_sim bytes_sim); [|done].
      intros. by apply write_subslice_sim.
    - apply sim_panic.
  Qed.

  (** ** Checks *)

  Variables (e1 : ChkEnv P1) (e2 : ChkEnv P2).
  Hypothesis Hderef : forall p q n, thin_sim p q -> sim eq (ce_deref e1 p n) (ce_deref e2 q n).
  Hypothesis Hfrom : forall p q, thin_sim p q -> sim eq (ce_vtable_from_ptr e1 p) (ce_vtable_from_ptr e2 q).
  Hypothesis Hlook : forall p q, thin_sim p q -> sim eq (ce_vtable_lookup e1 p) (ce_vtable_lookup e2 q).

  Lemma compute_size_and_align_sim l m n : meta_sim m n ->
    sim eq (compute_size_and_align l m (ce_vtable_lookup e1)) (compute_size_and_align l n (ce_vtable_lookup e2)).
  Proof.
    revert m n. induction l as [s a|s a|tn|hd tl IH]; intros m n Hm; simpl; destruct Hm; try apply sim_panic.
    - by apply sim_ret.
    - apply sim_eq.
    - eapply sim_bind; [by apply Hlook|]. intros vt ? _ _ <-. by apply sim_ret.
    - eapply sim_bind; [apply IH; constructor|]. intros [? ?] ? _ _ <-. by apply sim_ret.
    - eapply sim_bind; [apply IH; by constructor|]. intros [? ?] ? _ _ <-. by apply sim_ret.
  Qed.
  Lemma compute_size_sim l m n : meta_sim m n -> sim eq (compute_size e1 l m) (compute_size e2 l n).
  Proof.
    intros Hm. unfold compute_size. eapply sim_bind; [by apply compute_size_and_align_sim|].
    intros [? ?] ? _ _ <-. by apply sim_ret.
  Qed.
  Lemma compute_align_sim l m n : meta_sim m n -> sim eq (compute_align e1 l m) (compute_align e2 l n).
  Proof.
    intros Hm. unfold compute_align. eapply sim_bind; [by apply compute_size_and_align_sim|].
    intros [? ?] ? _ _ <-. by apply sim_ret.
  Qed.

  Lemma check_ptr_sim p q pt : ptr_sim p q -> sim eq (check_ptr T e1 p pt) (check_ptr T e2 q pt).
  Proof.
    intros [Hp Hm]. pose proof Hp as [Ha _]. unfold check_ptr. rewrite <- Ha.
    eapply sim_bind; [apply sim_eq|]. intros _ _ _ _ _.
    eapply sim_bind.
    { unfold check_ptr_metadata. instantiate (1 := eq).
      destruct Hm as [|c|p' q' Hp']; destruct (ptr_meta_kind pt); try apply sim_stop; [by apply sim_ret|apply sim_eq|].
      unfold check_vtable_ptr. rewrite <- (proj1 Hp'). eapply sim_bind; [apply sim_eq|]. intros _ _ _ _ _.
      eapply sim_bind; [by apply Hfrom|]. intros vt ? _ _ <-. apply sim_eq. }
    intros _ _ _ _ _. destruct (safe_pointee pt) as [pi|].
    - eapply sim_bind; [by apply compute_size_sim|]. intros s ? _ _ <-.
      eapply sim_bind; [by apply compute_align_sim|]. intros a ? _ _ <-.
      do 4 (eapply sim_bind; [apply sim_eq|]; intros _ _ _ _ _).
      eapply sim_ok; [by apply Hderef|done|]. intros. by apply sim_ret.
    - destruct pt; try by apply sim_ret. eapply sim_bind; [by apply Hfrom|]. intros vt ? _ _ <-. apply sim_eq.
  Qed.

  Lemma check_value_sim ty v w : value_sim v w -> sim eq (check_value T e1 ty v) (check_value T e2 ty w).
  Proof.
    revert v w.
    induction ty as [it| |pt|fields head u IHf IHu|elem count IHe|elem IHe|fields chunks size align IHf
                    |variants dty discr size align IHv|tn] using Ty_ind'; intros v w Hv; cbn [check_value].
    - destruct Hv; try apply sim_panic. apply sim_eq.
    - destruct Hv; try apply sim_panic. by apply sim_ret.
    - destruct Hv; try apply sim_panic. by apply check_ptr_sim.
    - destruct Hv as [| | |vs ws HF| |]; try apply sim_panic. destruct u as [u|]; [apply sim_panic|].
      rewrite (Forall2_length _ _ _ HF). eapply sim_bind; [apply sim_eq|]. intros _ _ _ _ _.
      eapply sim_for_each2; [apply Forall2_same|exact HF|]. intros f ? v w Hin <- Hvw.
      rewrite Forall_forall in IHf. apply IHf; [by apply elem_of_list_In|done].
    - destruct Hv as [| | |vs ws HF| |]; try apply sim_panic.
      rewrite (Forall2_length _ _ _ HF). eapply sim_bind; [apply sim_eq|]. intros _ _ _ _ _.
      eapply sim_for_each; [exact HF|]. auto.
    - destruct Hv; apply sim_panic.
    - destruct Hv as [| | | | |ks ls HF]; try apply sim_panic.
      rewrite (Forall2_length _ _ _ HF). eapply sim_bind; [apply sim_eq|]. intros _ _ _ _ _.
      eapply sim_for_each2; [apply Forall2_same|exact HF|]. intros f ? v w Hin <- Hvw.
      rewrite (Forall2_length _ _ _ Hvw). apply sim_eq.
    - destruct Hv as [| | | |d v w Hvw|]; try apply sim_panic.
      destruct (map_get_with _ d variants) as [r|] eqn:Er; [|apply sim_stop].
      apply map_get_with_some in Er as ([t tg] & Hin & -> & Hg). rewrite Hg. simpl.
      rewrite Forall_forall in IHv. by apply (IHv _ (proj2 (elem_of_list_In _ _) Hin)).
    - destruct Hv; apply sim_panic.
  Qed.

  Lemma transmute_sim v w t1 t2 : value_sim v w -> sim value_sim (transmute T e1 v t1 t2) (transmute T e2 w t1 t2).
  Proof.
    intros Hv. unfold transmute. do 2 (eapply sim_bind; [apply sim_eq|]; intros ? ? _ _ <-).
    eapply sim_bind; [apply sim_eq|]. intros _ _ _ _ _. eapply sim_bind; [by apply encode_sim|]. intros b c _ _ Hbc r Hr.
    apply obind_ret in Hr as ([x|] & Hx & Hr); [|discriminate]. destruct (decode_sim _ _ _ Hbc x Hx) as (y & -> & Hxy).
    simpl. revert r Hr. eapply sim_bind; [by apply check_value_sim|]. intros. by apply sim_ret.
  Qed.
End Repr.
