(** Two runs of the same machine whose states differ in the memory only: an exact form of the relation
    of SimSpec, in which all values, pointers and frames are the same. *)
From Verif Require Export SimSpec.
From Verif Require Import SimRepr Wp BaseProofs StopProofs.
From Coq Require Import ZifyBool ZifyN ZifyNat.

(** if the first computation succeeds so does the second, and if the first ends properly the second ends
    in the same way *)
Definition xsim {A B} (R : A -> B -> Prop) (x : Outcome A) (y : Outcome B) : Prop :=
  match x with
  | Ret a => exists b, y = Ret b /\ R a b
  | Stop t => proper t -> y = Stop t
  | Panic | NoBehavior => True
  end.

Lemma xsim_ret {A B} (R : A -> B -> Prop) a b : R a b -> xsim R (Ret a) (Ret b).
Proof. intros. by exists b. Qed.
Lemma xsim_eq {A} (x : Outcome A) : xsim eq x x.
Proof. destruct x; simpl; eauto. Qed.
Lemma xsim_ub {A B} (R : A -> B -> Prop) s y : xsim R (Stop (TUb s)) y.
Proof. intros H. by destruct (H s). Qed.
Lemma xsim_bind {A B C D} (R : A -> B -> Prop) (Q : C -> D -> Prop) x y f g :
  xsim R x y -> (forall a b, R a b -> xsim Q (f a) (g b)) -> xsim Q (obind x f) (obind y g).
Proof.
  intros H K. destruct x as [a|t| |]; simpl in *; try done.
  - destruct H as (b & -> & Hab). by apply K.
  - intros Ht. by rewrite (H Ht).
Qed.
Lemma xsim_same {A C D} (Q : C -> D -> Prop) (x : Outcome A) f g :
  (forall a, xsim Q (f a) (g a)) -> xsim Q (obind x f) (obind x g).
Proof. intros K. eapply xsim_bind; [apply xsim_eq|]. by intros ? ? <-. Qed.
Lemma xsim_impl {A B} (R Q : A -> B -> Prop) x y : xsim R x y -> (forall a b, R a b -> Q a b) -> xsim Q x y.
Proof. intros H K. destruct x; simpl in *; try done. destruct H as (b & ? & ?). eauto. Qed.
Lemma xsim_expect {A B} (R : A -> B -> Prop) x y : xsim R x y -> xsim R (expect_ok x) (expect_ok y).
Proof. destruct x; simpl; try done. intros (b & -> & ?). simpl. eauto. Qed.
Lemma sim_xsim {A B} (R : A -> B -> Prop) x y : sim R x y -> (forall t, x = Stop t -> exists s, t = TUb s) -> xsim R x y.
Proof.
  intros H K. destruct x as [a|t| |]; simpl; try done; [by apply H|]. destruct (K t eq_refl) as [s ->]. intros Hp. by destruct (Hp s).
Qed.

Lemma xsim_fold_m {A B S} (R : A -> B -> Prop) f g (l : list S) a b : R a b ->
  (forall a b x, R a b -> xsim R (f a x) (g b x)) -> xsim R (fold_m f l a) (fold_m g l b).
Proof.
  intros H K. revert a b H. induction l as [|x l IH]; intros a b H; simpl; [by apply xsim_ret|].
  eapply xsim_bind; [by apply K|]. intros. by apply IH.
Qed.
Lemma xsim_fold_m2 {A B S S'} (R : A -> B -> Prop) f g (l : list S) (k : list S') a b : R a b ->
  (forall a b x y, R a b -> xsim R (f a x y) (g b x y)) -> xsim R (fold_m2 f l k a) (fold_m2 g l k b).
Proof.
  intros H K. revert k a b H. induction l as [|x l IH]; intros [|y k] a b H; simpl; try by apply xsim_ret.
  eapply xsim_bind; [by apply K|]. intros. by apply IH.
Qed.

#[local] Arguments xsim : simpl never.

(** ** Memories *)

(** what a relation on memories has to satisfy *)
Record mem_xsim {P F M} (MO : MemOps P F M) (MR : M -> M -> Prop) : Prop := {
  xs_allocate m n k s a ad : MR m n ->
    xsim (fun x y => fst x = fst y /\ MR (snd x) (snd y)) (mo_allocate MO m k s a ad) (mo_allocate MO n k s a ad);
  xs_deallocate m n p k s a : MR m n -> xsim MR (mo_deallocate MO m p k s a) (mo_deallocate MO n p k s a);
  xs_store m n p b a : MR m n -> xsim MR (mo_store MO m p b a) (mo_store MO n p b a);
  xs_load m n p l a : MR m n ->
    xsim (fun x y => fst x = fst y /\ MR (snd x) (snd y)) (mo_load MO m p l a) (mo_load MO n p l a);
  xs_deref m n p l : MR m n -> mo_deref MO n p l = mo_deref MO m p l;
  xs_retag m n f p pt fe lk : MR m n ->
    xsim (fun x y => fst (fst x) = fst (fst y) /\ snd x = snd y /\ MR (snd (fst x)) (snd (fst y)))
      (mo_retag MO m f p pt fe lk) (mo_retag MO n f p pt fe lk);
  xs_end_call m n f : MR m n -> xsim MR (mo_end_call MO m f) (mo_end_call MO n f);
  xs_leak_check m n : MR m n -> mo_leak_check MO n = mo_leak_check MO m;
}.

(** ** Values *)

Lemma for_each_ext {A} (f g : A -> Outcome unit) l : (forall x, f x = g x) -> for_each f l = for_each g l.
Proof. intros H. induction l as [|x l IH]; simpl; [done|]. by rewrite H, IH. Qed.
Lemma for_each2_ext {A B} (f g : A -> B -> Outcome unit) l k : (forall x y, In x l -> f x y = g x y) -> for_each2 f l k = for_each2 g l k.
Proof.
  revert k. induction l as [|x l IH]; intros [|y k] H; simpl; try done. rewrite H by (simpl; auto).
  rewrite IH by (intros; apply H; simpl; auto). done.
Qed.
Lemma map_get_with_ext {K A B} `{EqDecision K} (f g : A -> B) (k : K) l :
  (forall kv, In kv l -> f (snd kv) = g (snd kv)) -> map_get_with f k l = map_get_with g k l.
Proof.
  induction l as [|[k' a] l IH]; intros H; simpl; [done|]. destruct (bool_decide _).
  - f_equal. apply (H (k', a)). simpl; auto.
  - apply IH. intros. apply H. simpl; auto.
Qed.

Lemma obind_ext {A B} (x : Outcome A) (f g : A -> Outcome B) : (forall a, f a = g a) -> obind x f = obind x g.
Proof. intros H. destruct x; simpl; auto. Qed.

Section Values.
  Context {P : Type} `{EqDecision P}.
  Variable T : Target.

  Lemma check_value_env d1 d2 vf vl ty (v : Value P) : (forall p s, d1 p s = d2 p s) ->
    check_value T (mkChkEnv d1 vf vl) ty v = check_value T (mkChkEnv d2 vf vl) ty v.
  Proof.
    intros Hd. revert v. induction ty as [it| |pt|fields head unsized IHf IHu|elem count IHe|elem IHe|fields chunks size align IHf
      |variants dty discr size align IHv|tn] using Ty_ind'; intros v; cbn [check_value]; try done.
    - destruct v; try done. unfold check_ptr. do 2 (apply obind_ext; intros _). destruct (safe_pointee _); [|done].
      apply obind_ext; intros s. apply obind_ext; intros a. do 4 (apply obind_ext; intros _).
      cbn [ce_deref]. by rewrite Hd.
    - destruct v; try done. destruct unsized; [done|]. apply obind_ext. intros _. apply for_each2_ext. intros [o ty] y Hx.
      rewrite Forall_forall in IHf. apply (IHf (o, ty)). by apply elem_of_list_In.
    - destruct v; try done. apply obind_ext. intros _. apply for_each_ext. apply IHe.
    - destruct v; try done. rewrite (map_get_with_ext _ (fun var => check_value T (mkChkEnv d2 vf vl) (fst var) v)); [done|].
      intros kv Hk. rewrite Forall_forall in IHv. apply (IHv kv). by apply elem_of_list_In.
  Qed.
  Lemma transmute_env d1 d2 vf vl (v : Value P) t1 t2 : (forall p s, d1 p s = d2 p s) ->
    transmute T (mkChkEnv d1 vf vl) v t1 t2 = transmute T (mkChkEnv d2 vf vl) v t1 t2.
  Proof.
    intros Hd. unfold transmute. apply obind_ext; intros s1. apply obind_ext; intros s2. apply obind_ext; intros _.
    apply obind_ext; intros b. apply obind_ext; intros [raw|]; [|done]. by rewrite (check_value_env d1 d2).
  Qed.
End Values.

(** ** The machine *)
Section Machine.
  Context {P F M : Type} `{EqDecision P}.
  Variable T : Target.
  Variable MO : MemOps P F M.
  Variable MR : M -> M -> Prop.
  Hypothesis XS : mem_xsim MO MR.
  (** a relation on the recorded accesses *)
  Variable AR : list Access -> list Access -> Prop.
  Hypothesis AR_push : forall a b x, AR a b -> AR (a ++ [x]) (b ++ [x]).
  Hypothesis AR_nil : AR [] [].
  Hypothesis AR_incl : forall a b, AR a b -> incl b a.
  Notation Mach := (Machine P F M).

  (** related memories *)
  Definition cr (c d : ConcMem M) : Prop := MR (cm_mem c) (cm_mem d) /\ AR (cm_accesses c) (cm_accesses d).
  (** the states agree except for their memories, which are related *)
  Definition mr (m n : Mach) : Prop := exists d, n = set_mem m d /\ cr (m_mem m) d.
  (** results with a state *)
  Definition vr {A} (x y : A * Mach) : Prop := fst x = fst y /\ mr (snd x) (snd y).
  Definition mcr (x y : Mach * list (Choice P)) : Prop := mr (fst x) (fst y) /\ snd x = snd y.
  Definition vmcr {A} (x y : A * Mach * list (Choice P)) : Prop := vr (fst x) (fst y) /\ snd x = snd y.
  (** results with a memory *)
  Definition ar {A} (x y : A * ConcMem M) : Prop := fst x = fst y /\ cr (snd x) (snd y).
  Definition acr {A} (x y : A * ConcMem M * list (Choice P)) : Prop := ar (fst x) (fst y) /\ snd x = snd y.

  Lemma mr_mem m d : cr (m_mem m) d -> mr m (set_mem m d).
  Proof. intros. by exists d. Qed.
  Lemma mr_set m d c c' : cr c c' -> mr (set_mem m c) (set_mem (set_mem m d) c').
  Proof. intros. by exists c'. Qed.
  Lemma vr_i {A} (a : A) m n : mr m n -> vr (a, m) (a, n).
  Proof. by split. Qed.
  Lemma mcr_i m n cs : mr m n -> mcr (m, cs) (n, cs).
  Proof. by split. Qed.
  Lemma vmcr_i {A} (a : A) m n cs : mr m n -> vmcr (a, m, cs) (a, n, cs).
  Proof. by repeat split. Qed.
  Lemma set_threads_mr m n ts : mr m n -> mr (set_threads m ts) (set_threads n ts).
  Proof. intros (d & -> & Hd). by exists d. Qed.
  Lemma set_locks_mr m n ts : mr m n -> mr (set_locks m ts) (set_locks n ts).
  Proof. intros (d & -> & Hd). by exists d. Qed.
  Lemma set_sync_mr m n ts : mr m n -> mr (set_sync m ts) (set_sync n ts).
  Proof. intros (d & -> & Hd). by exists d. Qed.

  (** *** Memory *)
  Lemma cm_allocate_x c d k s a ad : cr c d -> xsim ar (cm_allocate MO c k s a ad) (cm_allocate MO d k s a ad).
  Proof.
    intros [Hm Ha]. eapply xsim_bind; [by apply (xs_allocate _ _ XS)|]. intros [p m] [q n] [Hp Hmn]. cbn [fst snd] in *. subst.
    apply xsim_ret. by repeat split.
  Qed.
  Lemma cm_deallocate_x c d p k s a : cr c d -> xsim cr (cm_deallocate MO c p k s a) (cm_deallocate MO d p k s a).
  Proof. intros [Hm Ha]. eapply xsim_bind; [by apply (xs_deallocate _ _ XS)|]. intros m n Hmn. apply xsim_ret. by split. Qed.
  Lemma cm_store_x c d p b a at_ : cr c d -> xsim cr (cm_store MO c p b a at_) (cm_store MO d p b a at_).
  Proof.
    intros [Hm Ha]. eapply xsim_bind; [by apply (xs_store _ _ XS)|]. intros m n Hmn. apply xsim_ret.
    split; [done|]. by apply AR_push.
  Qed.
  Lemma cm_load_x c d p l a at_ : cr c d -> xsim ar (cm_load MO c p l a at_) (cm_load MO d p l a at_).
  Proof.
    intros [Hm Ha]. eapply xsim_bind; [by apply (xs_load _ _ XS)|]. intros [b m] [b' n] [Hb Hmn]. cbn [fst snd] in *. subst.
    apply xsim_ret. split; [done|]. split; [done|]. by apply AR_push.
  Qed.
  Lemma cm_end_call_x c d f : cr c d -> xsim cr (cm_end_call MO c f) (cm_end_call MO d f).
  Proof. intros [Hm Ha]. eapply xsim_bind; [by apply (xs_end_call _ _ XS)|]. intros m n Hmn. apply xsim_ret. by split. Qed.
  Lemma cm_deref_x c d p l : cr c d -> cm_deref MO d p l = cm_deref MO c p l.
  Proof. intros [Hm _]. by apply (xs_deref _ _ XS). Qed.
  Lemma cm_signed_deref_x c d p l : cr c d -> cm_signed_deref MO d p l = cm_signed_deref MO c p l.
  Proof.
    intros [Hm _]. unfold cm_signed_deref, mo_signed_deref. destruct (0 <? l); apply obind_ext; intros; by apply (xs_deref _ _ XS).
  Qed.
  Lemma cm_leak_x c d : cr c d -> cm_leak_check MO d = cm_leak_check MO c.
  Proof. intros [Hm _]. by apply (xs_leak_check _ _ XS). Qed.
  Lemma races_x c d i sy pa pb : cr c d -> incl pb pa ->
    xsim (fun _ _ => True) (cm_check_data_races c i sy pa) (cm_check_data_races d i sy pb).
  Proof.
    intros [_ Ha%AR_incl] Hp. unfold cm_check_data_races. destruct (bool_decide _); [by apply xsim_ret|].
    apply sim_xsim.
    - intros [] Hr. exists tt. split; [|done]. apply for_each_ret. apply for_each_ret in Hr. rewrite Forall_forall in Hr |- *.
      intros x Hx. apply elem_of_list_In, Ha, elem_of_list_In, Hr in Hx. destruct (existsb (races x) pb) eqn:E; [|done].
      apply existsb_exists in E as (y & Hy & Hxy). assert (existsb (races x) pa = true) as E.
      { apply existsb_exists. exists y. auto. }
      by rewrite E in Hx.
    - intros t. clear Ha. induction (cm_accesses c) as [|x l IH]; simpl; [done|]. destruct (existsb _ _); simpl; [|done].
      intros [= <-]. eauto.
  Qed.

  (** *** What the machine looks up *)
  Lemma check_value_x m n ty v : mr m n -> check_value T (chk_env MO n) ty v = check_value T (chk_env MO m) ty v.
  Proof. intros (d & -> & Hd). apply check_value_env. intros. by apply cm_deref_x. Qed.
  Lemma transmute_x m n v t1 t2 : mr m n -> transmute T (chk_env MO n) v t1 t2 = transmute T (chk_env MO m) v t1 t2.
  Proof. intros (d & -> & Hd). apply transmute_env. intros. by apply cm_deref_x. Qed.
  Lemma compute_size_x m n l mt : mr m n -> compute_size (chk_env MO n) l mt = compute_size (chk_env MO m) l mt.
  Proof. by intros (d & -> & Hd). Qed.
  Lemma compute_align_x m n l mt : mr m n -> compute_align (chk_env MO n) l mt = compute_align (chk_env MO m) l mt.
  Proof. by intros (d & -> & Hd). Qed.
  Lemma vtable_lookup_x m n : mr m n -> vtable_lookup n = vtable_lookup m.
  Proof. by intros (d & -> & Hd). Qed.
  Lemma fn_from_ptr_x m n v : mr m n -> fn_from_ptr n v = fn_from_ptr m v.
  Proof. by intros (d & -> & Hd). Qed.
  Lemma active_thread_x m n : mr m n -> active_thread n = active_thread m.
  Proof. by intros (d & -> & Hd). Qed.
  Lemma cur_frame_x m n : mr m n -> cur_frame n = cur_frame m.
  Proof. by intros (d & -> & Hd). Qed.
  Lemma m_threads_x m n : mr m n -> m_threads n = m_threads m.
  Proof. by intros (d & -> & Hd). Qed.
  Lemma m_active_x m n : mr m n -> m_active n = m_active m.
  Proof. by intros (d & -> & Hd). Qed.
  Lemma m_locks_x m n : mr m n -> m_locks n = m_locks m.
  Proof. by intros (d & -> & Hd). Qed.
  Lemma m_sync_x m n : mr m n -> m_sync n = m_sync m.
  Proof. by intros (d & -> & Hd). Qed.
  Lemma m_exposed_x m n : mr m n -> m_exposed n = m_exposed m.
  Proof. by intros (d & -> & Hd). Qed.
  Lemma m_fnptrs_x m n : mr m n -> m_fnptrs n = m_fnptrs m.
  Proof. by intros (d & -> & Hd). Qed.
  Lemma m_stdout_x m n : mr m n -> m_stdout n = m_stdout m.
  Proof. by intros (d & -> & Hd). Qed.
  Lemma m_stderr_x m n : mr m n -> m_stderr n = m_stderr m.
  Proof. by intros (d & -> & Hd). Qed.
  Lemma m_mem_x m n : mr m n -> cr (m_mem m) (m_mem n).
  Proof. by intros (d & -> & Hd). Qed.
  Lemma eval_constant_x m n c : mr m n -> eval_constant T n c = eval_constant T m c.
  Proof. by intros (d & -> & Hd). Qed.
  Lemma set_mem_x m n c d : mr m n -> cr c d -> mr (set_mem m c) (set_mem n d).
  Proof. intros (e & -> & He) Hd. by exists d. Qed.

  (** rewrite with what is the same in [m] and [n] *)
  Ltac same H := repeat first
    [ rewrite (check_value_x _ _ _ _ H) | rewrite (transmute_x _ _ _ _ _ H) | rewrite (compute_size_x _ _ _ _ H)
    | rewrite (compute_align_x _ _ _ _ H) | rewrite (vtable_lookup_x _ _ H) | rewrite (fn_from_ptr_x _ _ _ H)
    | rewrite (active_thread_x _ _ H) | rewrite (cur_frame_x _ _ H) | rewrite (m_threads_x _ _ H) | rewrite (m_active_x _ _ H)
    | rewrite (m_locks_x _ _ H) | rewrite (m_sync_x _ _ H) | rewrite (m_exposed_x _ _ H) | rewrite (m_fnptrs_x _ _ H)
    | rewrite (m_stdout_x _ _ H) | rewrite (m_stderr_x _ _ H) | rewrite (eval_constant_x _ _ _ H)
    | rewrite (cm_deref_x _ _ _ _ (m_mem_x _ _ H)) | rewrite (cm_signed_deref_x _ _ _ _ (m_mem_x _ _ H))
    | rewrite (cm_leak_x _ _ (m_mem_x _ _ H)) ].
  Ltac sames := repeat match goal with H : mr _ _ |- _ => progress (same H) end.
  (** take results apart *)
  Ltac parts := cbn [fst snd] in *; subst; repeat match goal with
    | H : vr ?x ?y |- _ => destruct x, y, H; cbn [fst snd] in *; subst
    | H : mcr ?x ?y |- _ => destruct x, y, H; cbn [fst snd] in *; subst
    | H : vmcr ?x ?y |- _ => destruct x, y, H; cbn [fst snd] in *; subst
    | H : ar ?x ?y |- _ => destruct x, y, H; cbn [fst snd] in *; subst
    | H : acr ?x ?y |- _ => destruct x, y, H; cbn [fst snd] in *; subst
    | p : (_ * _)%type |- _ => destruct p; cbn [fst snd] in *
    end.
  Ltac x0 := lazymatch goal with
    | |- xsim _ (Ret _) (Ret _) => sames; apply xsim_ret; eauto using vr_i, mcr_i, vmcr_i, set_mem_x, set_threads_mr, set_locks_mr, set_sync_mr
    | |- xsim _ (Stop (TUb _)) _ => apply xsim_ub
    | |- xsim _ (throw_ub _) _ => apply xsim_ub
    | |- xsim _ Panic _ => exact I
    | |- xsim _ NoBehavior _ => exact I
    | |- xsim _ (obind ?x _) (obind ?x _) => apply xsim_same; intros ?
    | |- xsim _ (match ?x with _ => _ end) (match ?x with _ => _ end) => destruct x
    end.
  Ltac x1 := first [x0 | progress sames; x0].
  (** a step with a lemma *)
  Ltac xl tac := eapply xsim_bind; [solve [tac; eauto using m_mem_x]|intros ? ? ?; parts].
  Ltac xs := repeat x1.

  Lemma set_cur_frame_x m n f : mr m n -> xsim mr (set_cur_frame m f) (set_cur_frame n f).
  Proof.
    intros H. unfold set_cur_frame. xs. unfold set_active_thread, set_thread. sames. by apply set_threads_mr.
  Qed.
  Lemma jump_x m n b : mr m n -> xsim mr (jump_to_block m b) (jump_to_block n b).
  Proof. intros H. unfold jump_to_block. xs. by apply set_cur_frame_x. Qed.
  Lemma typed_store_x m n p v ty a at_ : mr m n -> xsim mr (typed_store T MO m p v ty a at_) (typed_store T MO n p v ty a at_).
  Proof. intros H. unfold typed_store. xs. xl ltac:(apply cm_store_x). xs. Qed.
  Lemma typed_load_x m n p ty a at_ : mr m n -> xsim vr (typed_load T MO m p ty a at_) (typed_load T MO n p ty a at_).
  Proof.
    intros H. unfold typed_load. xs. xl ltac:(apply cm_load_x).
    match goal with Hc : cr ?c ?d |- _ => pose proof (set_mem_x _ _ _ _ H Hc) end. cbv zeta. xs.
  Qed.
  Lemma place_load_x m n p ty : mr m n -> xsim vr (place_load T MO m p ty) (place_load T MO n p ty).
  Proof. intros H. unfold place_load. xs. by apply typed_load_x. Qed.
  Lemma place_store_x m n p v ty : mr m n -> xsim mr (place_store T MO m p v ty) (place_store T MO n p v ty).
  Proof. intros H. unfold place_store. xs. by apply typed_store_x. Qed.
  Lemma deinit_x m n p l a : mr m n -> xsim mr (deinit MO m p l a) (deinit MO n p l a).
  Proof. intros H. unfold deinit. xl ltac:(apply cm_store_x). xs. Qed.
  Lemma retag_ptr_x m n p pt fe : mr m n -> xsim vr (retag_ptr MO m p pt fe) (retag_ptr MO n p pt fe).
  Proof.
    intros H. unfold retag_ptr. xs. eapply (xsim_bind (fun x y => fst (fst x) = fst (fst y) /\ snd x = snd y /\ cr (snd (fst x)) (snd (fst y)))).
    { destruct (m_mem_x _ _ H) as [Hm Ha]. eapply xsim_bind; [by apply (xs_retag _ _ XS)|]. intros [[q c] f] [[q' c'] f'] (Hq & Hf & Hc).
      cbn [fst snd] in *. subst. apply xsim_ret. by repeat split. }
    intros [[q c] f] [[q' c'] f'] (Hq & Hf & Hc). cbn [fst snd] in *. subst.
    eapply xsim_bind; [apply set_cur_frame_x; by apply set_mem_x|]. intros. xs.
  Qed.
  Lemma offset_inbounds_x m n p o : mr m n -> ptr_offset_inbounds T MO n p o = ptr_offset_inbounds T MO m p o.
  Proof. intros H. unfold ptr_offset_inbounds. by sames. Qed.
  Lemma un_op_x m n op v : mr m n -> eval_un_op T MO n op v = eval_un_op T MO m op v.
  Proof.
    intros H. unfold eval_un_op. destruct v as [v ty]. destruct op as [iop|[it|nt]| | | | |]; sames; try done.
    all: repeat first [apply obind_ext; intros; cbv zeta; sames; try done
      |match goal with |- (match ?x with _ => _ end) = _ => destruct x; try done end].
  Qed.
  Lemma bin_op_x m n op v w : mr m n -> eval_bin_op T MO n op v w = eval_bin_op T MO m op v w.
  Proof.
    intros H. unfold eval_bin_op. destruct v as [v ty], w as [w ty']. destruct op as [| | |ib|ib nn|pt]; try done.
    - destruct v as [| |[? []]| | |]; try done. destruct w; try done. by rewrite (offset_inbounds_x _ _ _ _ H).
    - destruct v as [| |[? []]| | |]; try done. destruct w as [| |[? []]| | |]; try done. cbv zeta. by sames.
    - destruct v as [| |[? []]| | |]; try done. apply obind_ext. intros. cbv zeta. by sames.
  Qed.
  Lemma field_of_x m n ty mt f : mr m n -> field_of T MO n ty mt f = field_of T MO m ty mt f.
  Proof.
    intros H. unfold field_of. destruct ty; try done. destruct (_ && _); [done|]. destruct (_ =? _); [|done].
    do 2 (apply obind_ext; intros). by sames.
  Qed.
  Lemma load_accessor_x m n p i s : mr m n -> xsim vr (load_accessor T MO p m i s) (load_accessor T MO p n i s).
  Proof.
    intros H. unfold load_accessor. rewrite (offset_inbounds_x _ _ _ _ H). xs. xl ltac:(apply cm_load_x). xs.
  Qed.
  Lemma store_accessor_x m n p i b : mr m n -> xsim mr (store_accessor T MO p m i b) (store_accessor T MO p n i b).
  Proof.
    intros H. unfold store_accessor. rewrite (offset_inbounds_x _ _ _ _ H). xs. xl ltac:(apply cm_store_x). xs.
  Qed.

  (** *** Expressions *)
  Lemma map_st_x {A B} (f : Mach -> A -> Outcome (B * Mach)) l m n :
    (forall x m n, In x l -> mr m n -> xsim vr (f m x) (f n x)) -> mr m n -> xsim vr (map_st f l m) (map_st f l n).
  Proof.
    intros Hf. revert m n. induction l as [|x l IH]; intros m n H; simpl; [by xs|].
    xl ltac:(apply Hf; [simpl; auto|]). xl ltac:(apply IH; [intros; apply Hf; [simpl; auto|]|]). xs.
  Qed.
  Lemma map_st2_x {A B C} (f : Mach -> A -> B -> Outcome (C * Mach)) l k m n :
    (forall x y m n, In x l -> mr m n -> xsim vr (f m x y) (f n x y)) -> mr m n -> xsim vr (map_st2 f l k m) (map_st2 f l k n).
  Proof.
    intros Hf. revert k m n. induction l as [|x l IH]; intros [|y k] m n H; simpl; try by xs.
    xl ltac:(apply Hf; [simpl; auto|]). xl ltac:(apply IH; [intros; apply Hf; [simpl; auto|]|]). xs.
  Qed.
  Lemma decode_discriminant_x p d m n : mr m n ->
    xsim vr (decode_discriminant T (load_accessor T MO p) d m) (decode_discriminant T (load_accessor T MO p) d n).
  Proof.
    revert m n. induction d as [val| |off vt fb ch IHf IHc] using Discriminator_ind'; intros m n H; cbn [decode_discriminant]; try by xs.
    xl ltac:(apply load_accessor_x). xs. induction ch as [|[r cd] ch IH]; simpl; [by apply IHf|].
    inversion IHc; subst. destruct (in_range _ r); [|by apply IH]. by apply H3.
  Qed.
  Lemma encode_discriminant_x p tg m n : mr m n ->
    xsim mr (encode_discriminant T (store_accessor T MO p) tg m) (encode_discriminant T (store_accessor T MO p) tg n).
  Proof.
    intros H. unfold encode_discriminant. apply xsim_fold_m; [done|]. intros a b [o [vt v]] Hab. xs. by apply store_accessor_x.
  Qed.

  Ltac ops := repeat match goal with H : mr _ _ |- _ => first
    [rewrite (un_op_x _ _ _ _ H)|rewrite (bin_op_x _ _ _ _ _ H)|rewrite (field_of_x _ _ _ _ _ H)|rewrite (offset_inbounds_x _ _ _ _ H)] end.
  Lemma eval_x :
    (forall e m n, mr m n -> xsim vr (eval_value T MO e m) (eval_value T MO e n)) /\
    (forall p m n, mr m n -> xsim vr (eval_place T MO p m) (eval_place T MO p n)).
  Proof.
    apply Expr_ind'.
    - intros c ty m n H. cbn [eval_value]. xs.
    - intros es ty IH m n H. cbn [eval_value].
      xl ltac:(apply map_st_x; [intros e m' n' Hin Hm; rewrite Forall_forall in IH; apply (IH e); [by apply elem_of_list_In|]|]). xs.
    - intros f e ty IH m n H. cbn [eval_value]. xs. parts. xl ltac:(apply IH). xs.
    - intros d e ty IH m n H. cbn [eval_value]. xl ltac:(apply IH). xs.
    - intros p IH m n H. cbn [eval_value]. xl ltac:(apply IH). xs. xl ltac:(apply decode_discriminant_x). xs.
    - intros p IH m n H. cbn [eval_value]. xl ltac:(apply IH). xl ltac:(apply place_load_x). xs.
    - intros p pt IH m n H. cbn [eval_value]. xl ltac:(apply IH). sames. apply xsim_same. intros _. xl ltac:(apply retag_ptr_x). xs.
    - intros op e IH m n H. cbn [eval_value]. xl ltac:(apply IH). ops. xs.
    - intros op l r IHl IHr m n H. cbn [eval_value]. xl ltac:(apply IHl). xl ltac:(apply IHr). ops. xs.
    - intros x m n H. cbn [eval_place]. xs.
    - intros e ty IH m n H. cbn [eval_place]. xl ltac:(apply IH). destruct v; try exact I. destruct t; try exact I.
      eapply (xsim_bind eq).
      { destruct (safe_pointee _); xs. sames. apply xsim_eq. }
      intros ? ? <-. xs.
    - intros p f IH m n H. cbn [eval_place]. xl ltac:(apply IH). ops. xs. parts. xs.
      ops. xs.
    - intros p i IHp IHi m n H. cbn [eval_place]. xl ltac:(apply IHp). xl ltac:(apply IHi). destruct v; try exact I.
      apply xsim_same. intros [elem count]. xs. ops. xs.
    - intros p d IH m n H. cbn [eval_place]. xl ltac:(apply IH). xs.
  Qed.
  Lemma eval_value_x e m n : mr m n -> xsim vr (eval_value T MO e m) (eval_value T MO e n).
  Proof. apply eval_x. Qed.
  Lemma eval_place_x p m n : mr m n -> xsim vr (eval_place T MO p m) (eval_place T MO p n).
  Proof. apply eval_x. Qed.

  (** *** Statements *)
  Lemma retag_val_x fe ty v m n : mr m n -> xsim vr (retag_val MO fe ty v m) (retag_val MO fe ty v n).
  Proof.
    revert v m n.
    induction ty as [it| |pt|fields head u IHf IHu|elem count IHe|elem IHe|fields chunks size align IHf
      |variants dty discr size align IHv|tn] using Ty_ind'; intros v m n H; destruct v as [i|b|p|vs|d v|c];
      cbn [retag_val]; try exact I; try by xs.
    - xl ltac:(apply retag_ptr_x). xs.
    - xl ltac:(apply map_st2_x; [intros f v m' n' Hin Hm; rewrite Forall_forall in IHf; by apply (IHf f (proj2 (elem_of_list_In _ _) Hin))|]). xs.
    - xl ltac:(apply map_st_x; [intros v m' n' Hin Hm; by apply IHe|]). xs.
    - destruct (map_get_with (fun var => retag_val MO fe (fst var) v m) d variants) as [r|] eqn:Er; [|exact I].
      apply map_get_with_some in Er as ([t tg] & Hin & -> & Hg). rewrite Hg. simpl.
      rewrite Forall_forall in IHv. xl ltac:(apply (IHv _ (proj2 (elem_of_list_In _ _) Hin))). xs.
  Qed.
  Lemma storage_dead_x f c d l : cr c d -> xsim ar (storage_dead T MO f c l) (storage_dead T MO f d l).
  Proof.
    intros Hc. unfold storage_dead. do 3 (apply xsim_same; intros ?). destruct (map_get _ _); [|by apply xsim_ret].
    xl ltac:(apply cm_deallocate_x). apply xsim_ret. by split.
  Qed.
  Lemma storage_live_x f c d l cs : cr c d -> xsim acr (storage_live T MO f c l cs) (storage_live T MO f d l cs).
  Proof.
    intros Hc. unfold storage_live. xl ltac:(apply storage_dead_x). do 3 (apply xsim_same; intros ?). apply xsim_same. intros [ad cs'].
    xl ltac:(apply cm_allocate_x). apply xsim_ret. split; [by split|done].
  Qed.
  Lemma eval_statement_x s m n cs : mr m n -> xsim mcr (eval_statement T MO s m cs) (eval_statement T MO s n cs).
  Proof.
    intros H. destruct s as [dst e|p|dst v|p fe|p|l|l]; cbn [eval_statement].
    - xl ltac:(apply eval_place_x). xl ltac:(apply eval_value_x). xl ltac:(apply place_store_x). xs.
    - xl ltac:(apply eval_place_x). xs.
    - xl ltac:(apply eval_place_x). xs. xl ltac:(apply encode_discriminant_x). xs.
    - xl ltac:(apply eval_place_x). xl ltac:(apply place_load_x). xl ltac:(apply retag_val_x). xl ltac:(apply place_store_x). xs.
    - xl ltac:(apply eval_place_x). xs. xl ltac:(apply deinit_x). xs.
    - xs. xl ltac:(apply storage_live_x). xl ltac:(apply set_cur_frame_x, set_mem_x). xs.
    - xs. xl ltac:(apply storage_dead_x). xl ltac:(apply set_cur_frame_x, set_mem_x). xs.
  Qed.

  (** *** Calls *)
  Lemma prepare_x m n p ty : mr m n -> xsim mr (prepare_for_inplace_passing T MO m p ty) (prepare_for_inplace_passing T MO n p ty).
  Proof. intros H. unfold prepare_for_inplace_passing. xs. by apply deinit_x. Qed.
  Lemma eval_argument_x m n a : mr m n -> xsim vr (eval_argument T MO m a) (eval_argument T MO n a).
  Proof.
    intros H. destruct a; cbn [eval_argument]; [by apply eval_value_x|].
    xl ltac:(apply eval_place_x). xl ltac:(apply place_load_x). xl ltac:(apply prepare_x). xs.
  Qed.
  Lemma create_frame_x m n fn a conv rty args cs : mr m n ->
    xsim vmcr (create_frame T MO m fn a conv rty args cs) (create_frame T MO n fn a conv rty args cs).
  Proof.
    intros H. unfold create_frame. cbv zeta. eapply (xsim_bind acr).
    { apply xsim_fold_m; [split; [split; [done|]|done]; by apply m_mem_x|]. intros [[f c] ks] [[g d] ls] l [[Hf Hc] Hk].
      cbn [fst snd] in *. subst. by apply storage_live_x. }
    intros [[f c] ks] [[g d] ls] [[Hf Hc] Hk]. cbn [fst snd] in *. subst. xs.
    eapply (xsim_bind mr).
    { apply xsim_fold_m2; [by apply set_mem_x|]. intros m1 n1 l v H1. xs. apply xsim_expect. by apply typed_store_x. }
    intros. xs.
  Qed.
  Lemma set_active_thread_x m n t : mr m n -> mr (set_active_thread m t) (set_active_thread n t).
  Proof. intros (d & -> & Hd). by exists d. Qed.
  Lemma set_thread_x m n i t : mr m n -> mr (set_thread m i t) (set_thread n i t).
  Proof. intros (d & -> & Hd). by exists d. Qed.
  Lemma eval_call_x m n fn conv args p rty nb ub cs : mr m n ->
    xsim mcr (eval_call T MO m fn conv args p rty nb ub cs) (eval_call T MO n fn conv args p rty nb ub cs).
  Proof.
    intros H. unfold eval_call. cbv zeta. xl ltac:(apply create_frame_x). xs. apply mcr_i. by apply set_active_thread_x.
  Qed.
  Lemma new_thread_x m n fn args cs : mr m n -> xsim vmcr (new_thread T MO m fn args cs) (new_thread T MO n fn args cs).
  Proof. intros H. unfold new_thread. xl ltac:(apply create_frame_x). cbv zeta. xs. Qed.

  (** *** Locks and intrinsics *)
  Lemma thread_in_x m n s i : mr m n -> thread_in n s i = thread_in m s i.
  Proof. by intros (d & -> & Hd). Qed.
  Lemma lock_acquire_x m n i : mr m n -> xsim mr (lock_acquire m i) (lock_acquire n i).
  Proof. intros H. unfold lock_acquire. xs. by apply set_active_thread_x. Qed.
  Lemma lock_release_x m n i cs : mr m n -> xsim mcr (lock_release m i cs) (lock_release n i cs).
  Proof.
    intros (d & -> & Hd). unfold lock_release. cbn [m_locks set_mem m_active]. destruct (list_get _ _) as [[|o]|]; try apply xsim_ub.
    destruct (negb _); [apply xsim_ub|]. cbv zeta. change (some_thread_in (set_mem m d)) with (some_thread_in m).
    destruct (some_thread_in _ _).
    - apply xsim_same. intros [a ks]. apply xsim_same. intros t. apply xsim_ret. apply mcr_i. by exists d.
    - apply xsim_ret. apply mcr_i. by exists d.
  Qed.
  Lemma spawn_x m n fn v ty cs : mr m n -> xsim vmcr (spawn T MO m fn v ty cs) (spawn T MO n fn v ty cs).
  Proof. intros H. unfold spawn. xl ltac:(apply new_thread_x). xs. Qed.
  Lemma join_x m n i : mr m n -> xsim mr (Step.join m i) (Step.join n i).
  Proof. intros H. unfold Step.join. xs; try done; by apply set_active_thread_x. Qed.
  Lemma load_raw_x m n p pt : mr m n -> xsim vr (load_raw_data MO m p pt) (load_raw_data MO n p pt).
  Proof. intros H. unfold load_raw_data. xs. xl ltac:(apply cm_load_x). xs. Qed.

  Lemma eval_intrinsic_x m n op args rty cs : mr m n ->
    xsim vmcr (eval_intrinsic T MO m op args rty cs) (eval_intrinsic T MO n op args rty cs).
  Proof.
    intros H. destruct op as [| | | | | | | | | | | | |iop|[]| | |]; cbn [eval_intrinsic]; xs; parts; xs.
    all: try (apply xsim_eq || (intros _; reflexivity)).
    all: try (apply vmcr_i; destruct H as (d & -> & Hd); by exists d).
    all: try (xl ltac:(apply cm_allocate_x); xs).
    all: try (xl ltac:(apply cm_deallocate_x); xs).
    all: try (xl ltac:(apply spawn_x); xs).
    all: try (xl ltac:(apply join_x); xs).
    all: try (xl ltac:(apply load_raw_x); xl ltac:(apply load_raw_x); xs).
    all: try (xl ltac:(apply typed_store_x); xs).
    all: try (xl ltac:(apply lock_acquire_x); xs).
    all: try (xl ltac:(apply lock_release_x); xs).
    all: try (xl ltac:(apply typed_load_x); xs).
    all: try (xl ltac:(apply typed_store_x); xs).
    unfold lock_create. destruct H as (d & -> & Hd). apply xsim_ret. apply vmcr_i. by exists d.
  Qed.

  (** *** Terminators and steps *)
  Lemma terminate_x m n : mr m n -> xsim mr (terminate_active_thread m) (terminate_active_thread n).
  Proof.
    intros (d & -> & Hd). unfold terminate_active_thread. cbn [m_active set_mem]. destruct (_ =? _)%nat; [apply xsim_ub|].
    apply xsim_same. intros t. apply xsim_same. intros _. apply xsim_ret. by exists d.
  Qed.
  Lemma pop_frame_x m n : mr m n -> xsim vr (pop_frame m) (pop_frame n).
  Proof. intros H. unfold pop_frame. xs. apply vr_i. by apply set_active_thread_x. Qed.
  Lemma dealloc_locals_x f c d : cr c d -> xsim ar (dealloc_locals T MO f c) (dealloc_locals T MO f d).
  Proof.
    intros Hc. unfold dealloc_locals. apply xsim_fold_m; [by split|]. intros [f1 c1] [g1 d1] l [Hf Hc1]. cbn [fst snd] in *. subst.
    by apply storage_dead_x.
  Qed.
  Lemma eval_terminator_x t m n cs : mr m n -> xsim mcr (eval_terminator T MO t m cs) (eval_terminator T MO t n cs).
  Proof.
    intros H. destruct t; cbn [eval_terminator].
    - xl ltac:(apply jump_x). xs.
    - xl ltac:(apply eval_value_x). destruct v; try exact I. xl ltac:(apply jump_x). xs.
    - apply xsim_ub.
    - xl ltac:(apply eval_place_x). xl ltac:(apply map_st_x; [intros; by apply eval_value_x|]). xl ltac:(apply eval_intrinsic_x).
      xl ltac:(apply place_store_x). xs. xl ltac:(apply jump_x). xs.
    - xl ltac:(apply eval_place_x). xl ltac:(apply prepare_x). xl ltac:(apply eval_value_x). xs.
      xl ltac:(apply map_st_x; [intros; by apply eval_argument_x|]). by apply eval_call_x.
    - xl ltac:(apply pop_frame_x). xs. xl ltac:(apply typed_load_x). xl ltac:(apply dealloc_locals_x). xl ltac:(apply cm_end_call_x).
      match goal with Hm : mr ?a ?b, Hc : cr ?c ?d |- context [set_mem ?a ?c] => pose proof (set_mem_x _ _ _ _ Hm Hc) end.
      cbv zeta. destruct (f_action _); [xl ltac:(apply terminate_x); xs|]. xs.
      xl ltac:(apply typed_store_x). xs. xl ltac:(apply jump_x). xs.
    - xl ltac:(apply eval_value_x). xs. xl ltac:(apply jump_x, set_active_thread_x). xs.
    - xs. xl ltac:(apply jump_x, set_active_thread_x). xs.
    - xl ltac:(apply pop_frame_x). xl ltac:(apply dealloc_locals_x). xl ltac:(apply cm_end_call_x).
      match goal with Hm : mr ?a ?b, Hc : cr ?c ?d |- context [set_mem ?a ?c] => pose proof (set_mem_x _ _ _ _ Hm Hc) end.
      cbv zeta. xs. xl ltac:(apply jump_x). xs.
  Qed.

  Theorem step_x cs m n : mr m n -> xsim mr (step T MO cs m) (step T MO cs n).
  Proof.
    intros (d & -> & [Hm Ha]). unfold step, reset_data_race_tracking, cm_reset_accesses. cbv zeta.
    change (some_thread_in (set_mem m d)) with (some_thread_in m). destruct (negb _); [by intros ?|].
    cbn [m_mem set_mem m_sync m_active]. apply xsim_same. intros [a ks].
    assert (mr (set_active (set_mem m (mkConc (cm_mem (m_mem m)) [])) a) (set_active (set_mem (set_mem m d) (mkConc (cm_mem d) [])) a)) as H.
    { exists (mkConc (cm_mem d) []). split; [done|]. split; [done|]. apply AR_nil. }
    revert H. generalize (set_active (set_mem m (mkConc (cm_mem (m_mem m)) [])) a), (set_active (set_mem (set_mem m d) (mkConc (cm_mem d) [])) a).
    intros m1 n1 H. rewrite (cur_frame_x _ _ H). apply xsim_same. intros f. apply xsim_same. intros b.
    eapply (xsim_bind mcr).
    - destruct (_ =? _)%nat; [by apply eval_terminator_x|]. apply xsim_same. intros s. xl ltac:(apply eval_statement_x).
      xs. xl ltac:(apply set_cur_frame_x). xs.
    - intros [m2 k] [n2 k'] [H2 _]. cbn [fst] in H2. rewrite (m_active_x _ _ H2).
      eapply xsim_bind; [apply races_x; [by apply m_mem_x|by apply AR_incl]|]. intros. by apply xsim_ret.
  Qed.

  Theorem runs_xa m n css m' : mr m n -> runs T MO m css m' -> exists n', runs T MO n css n' /\ mr m' n'.
  Proof.
    intros H Hr. revert n H. induction Hr as [m|m m1 m2 cs css Hs _ IH]; intros n H; [exists n; split; [constructor|done]|].
    pose proof (step_x cs m n H) as Hx. rewrite Hs in Hx. destruct Hx as (n1 & Hn & H1). destruct (IH _ H1) as (n2 & Hn2 & H2).
    exists n2. split; [|done]. by econstructor.
  Qed.
  Theorem stop_xa m n cs t : mr m n -> step T MO cs m = Stop t -> proper t -> step T MO cs n = Stop t.
  Proof. intros H Hs Ht. pose proof (step_x cs m n H) as Hx. rewrite Hs in Hx. by apply Hx. Qed.
End Machine.

(** the second state has recorded fewer accesses *)
Definition fewer (a b : list Access) : Prop := incl b a.
Lemma fewer_push a b x : fewer a b -> fewer (a ++ [x]) (b ++ [x]).
Proof. intros H. apply incl_app; [by apply incl_appl|by apply incl_appr, incl_refl]. Qed.

Section Fewer.
  Context {P F M : Type} `{EqDecision P}.
  Variable T : Target.
  Variable MO : MemOps P F M.
  Variable MR : M -> M -> Prop.
  Hypothesis XS : mem_xsim MO MR.
  Theorem runs_x m n css m' : mr MR fewer m n -> runs T MO m css m' -> exists n', runs T MO n css n' /\ mr MR fewer m' n'.
  Proof. apply (runs_xa T MO MR XS fewer fewer_push (incl_refl _) (fun a b H => H)). Qed.
  Theorem stop_x m n cs t : mr MR fewer m n -> step T MO cs m = Stop t -> proper t -> step T MO cs n = Stop t.
  Proof. apply (stop_xa T MO MR XS fewer fewer_push (incl_refl _) (fun a b H => H)). Qed.
End Fewer.
