(** A calculus for statements about all results of a computation. [wp E o Q]: if [o] returns [a] then
    [Q a]; if [o] panics then [E]. Undefined behaviour and missing choices are allowed. *)
From Verif Require Export BaseProofs.

Definition wp {A} (E : Prop) (o : Outcome A) (Q : A -> Prop) : Prop :=
  match o with
  | Ret a => Q a
  | Stop _ => True
  | Panic => E
  | NoBehavior => True
  end.
Notation post := (wp True).

Section Wp.
  Context {A B : Type}.
  Implicit Types E : Prop.

  Lemma wp_ret E (a : A) (Q : A -> Prop) : Q a -> wp E (Ret a) Q.
  Proof. done. Qed.
  Lemma wp_bind E (o : Outcome A) (f : A -> Outcome B) Q :
    wp E o (fun a => wp E (f a) Q) -> wp E (obind o f) Q.
  Proof. by destruct o. Qed.
  Lemma wp_mono E (o : Outcome A) (Q R : A -> Prop) : wp E o Q -> (forall a, Q a -> R a) -> wp E o R.
  Proof. destruct o; cbn; auto. Qed.
  Lemma wp_weaken E E' (o : Outcome A) (Q R : A -> Prop) :
    wp E o Q -> (E -> E') -> (forall a, Q a -> R a) -> wp E' o R.
  Proof. destruct o; cbn; auto. Qed.
  Lemma wp_and E (o : Outcome A) (Q R : A -> Prop) :
    wp E o Q -> post o R -> wp E o (fun a => Q a /\ R a).
  Proof. destruct o; cbn; auto. Qed.
  Lemma wp_eq E (o : Outcome A) (Q : A -> Prop) : wp E o Q -> wp E o (fun a => Q a /\ o = Ret a).
  Proof. destruct o; cbn; auto. Qed.
  Lemma wp_use E (o : Outcome A) (Q : A -> Prop) a : wp E o Q -> o = Ret a -> Q a.
  Proof. by intros H ->. Qed.
  Lemma post_intro (o : Outcome A) (Q : A -> Prop) : (forall a, o = Ret a -> Q a) -> post o Q.
  Proof. destruct o; cbn; auto. Qed.
  Lemma post_true (o : Outcome A) : post o (fun _ => True).
  Proof. by destruct o. Qed.
  Lemma wp_safe E (o : Outcome A) (Q : A -> Prop) :
    (o = Panic -> E) -> (forall a, o = Ret a -> Q a) -> wp E o Q.
  Proof. destruct o; cbn; auto. Qed.
  Lemma wp_if E (b : bool) (o1 o2 : Outcome A) Q :
    (b = true -> wp E o1 Q) -> (b = false -> wp E o2 Q) -> wp E (if b then o1 else o2) Q.
  Proof. destruct b; auto. Qed.
End Wp.

Lemma wp_assert (E : Prop) b (Q : unit -> Prop) : b = true -> Q tt -> wp E (assert_ b) Q.
Proof. by intros ->. Qed.
Lemma post_assert b (Q : unit -> Prop) : (b = true -> Q tt) -> post (assert_ b) Q.
Proof. destruct b; cbn; auto. Qed.
Lemma wp_unwrap {A} (E : Prop) (o : option A) (Q : A -> Prop) :
  (o = None -> E) -> (forall a, o = Some a -> Q a) -> wp E (unwrap o) Q.
Proof. destruct o; cbn; auto. Qed.
Lemma post_unwrap {A} (o : option A) (Q : A -> Prop) :
  (forall a, o = Some a -> Q a) -> post (unwrap o) Q.
Proof. destruct o; cbn; auto. Qed.
Lemma wp_throw {A} (E : Prop) s (Q : A -> Prop) : wp E (throw_ub s) Q.
Proof. done. Qed.

Lemma post_bind_skip {A B} (o : Outcome A) (f : A -> Outcome B) Q :
  (forall a, post (f a) Q) -> post (obind o f) Q.
Proof. destruct o; cbn; auto. Qed.

(** ** Loops *)

Lemma wp_fold_m {A X} (f : X -> A -> Outcome X) (E : Prop) (I : nat -> X -> Prop) l s0 :
  I 0%nat s0 ->
  (forall i x s, l !! i = Some x -> I i s -> wp E (f s x) (I (S i))) ->
  wp E (fold_m f l s0) (I (length l)).
Proof.
  revert I s0. induction l as [|x l IH]; intros I s0 H0 Hs; [done|].
  cbn [fold_m]. apply wp_bind. eapply wp_mono; [by apply (Hs 0%nat)|].
  intros s' H1. apply (IH (fun i => I (S i))); [done|].
  intros i y s1 Hi. apply (Hs (S i)). done.
Qed.
