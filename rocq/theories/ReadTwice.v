(** Expressions that only read: evaluated again they change nothing, and two of them can be swapped. *)
From Verif Require Export TwiceSpec TreeSwap ReadExpr.
From Verif Require Import BaseProofs TreeProofs TreeLike TreeMore SafeFrame StopProofs.
From Coq Require Import ZifyBool ZifyN ZifyNat.
Local Open Scope Z_scope.

(** ** The same load again *)
Lemma perm_again p r p1 : perm_transition p AkRead r = Ret p1 -> perm_transition p1 AkRead r = Ret p1.
Proof. destruct p as [[]|[|[] []| |[]|]], r; simpl; intros [= <-]; reflexivity. Qed.
Lemma perms_again ps r o s ps1 : perms_transition ps r AkRead o s = Ret ps1 -> perms_transition ps1 r AkRead o s = Ret ps1.
Proof.
  intros V. apply perms_transition_iff. apply perms_transition_ret in V as [L V]. split; [done|]. intros x.
  destruct (V x) as [A B]. split; [|done]. intros R. destruct (A R) as (p & p1 & Hp & T1 & E1).
  exists p1, p1. split; [done|]. split; [by eapply perm_again|done].
Qed.
Lemma nodes_again n q o s n1 : node_access n q AkRead o s = Ret n1 -> node_access n1 q AkRead o s = Ret n1.
Proof.
  revert q n1. induction n as [cs ps pr IH] using Node_ind'. intros q n1 H. cbn [node_access] in H.
  apply obind_ret in H as (ps1 & Hp & H). apply obind_ret in H as (cs1 & Hc & [= <-]). cbn [node_access].
  rewrite (perms_again _ _ _ _ _ Hp). cbn [obind].
  assert (map_idx_m (fun i c => node_access c (sub_path q i) AkRead o s) 0 cs1 = Ret cs1) as ->; [|done].
  clear -IH Hc. revert cs1 Hc. generalize 0%nat. induction IH as [|c cs Hx IH IHl]; intros i cs1 Hc; cbn in Hc.
  - by injection Hc as <-.
  - apply obind_ret in Hc as (c1 & E1 & Hc). apply obind_ret in Hc as (r1 & Er & [= <-]). cbn.
    rewrite (Hx _ _ E1). cbn. by rewrite (IHl _ _ Er).
Qed.
Theorem load_again T m r l al b m1 : mo_load (TreeOps T) m r l al = Ret (b, m1) -> mo_load (TreeOps T) m1 r l al = Ret (b, m1).
Proof.
  intros H. apply tb_load_iff. apply tb_load_iff in H as [Hal [(E1 & -> & ->)|(Hl & i & q & o & a & root & Hp & Ha & Hli & Hin & Hoff & Hacc & Hb & ->)]].
  { split; [done|]. by left. }
  split; [done|]. right. split; [done|]. exists i, q, o, (set_extra a root), root.
  rewrite list_lookup_insert by (by eapply lookup_lt_Some). do 5 (split; [done|]). split; [by apply nodes_again in Hacc|].
  split; [done|]. by rewrite list_insert_insert.
Qed.

(** ** Any memory model in which loads can be swapped and repeated *)
Definition anyacc (a b : list Access) : Prop := True.
Section Twice.
  Context {P F M : Type} `{EqDecision P}.
  Variable T : Target.
  Variable MO : MemOps P F M.
  Notation Mach := (Machine P F M).
  Hypothesis Lagain : forall m p l a b m1, mo_load MO m p l a = Ret (b, m1) -> mo_load MO m1 p l a = Ret (b, m1).
  Hypothesis Lswap : forall m p1 l1 a1 b1 m1 p2 l2 a2 b2 m12, mo_load MO m p1 l1 a1 = Ret (b1, m1) ->
    mo_load MO m1 p2 l2 a2 = Ret (b2, m12) ->
    exists m2, mo_load MO m p2 l2 a2 = Ret (b2, m2) /\ mo_load MO m2 p1 l1 a1 = Ret (b1, m12).
  Hypothesis Lboth : forall m p1 l1 a1 b1 m1 p2 l2 a2 b2 m2, mo_load MO m p1 l1 a1 = Ret (b1, m1) ->
    mo_load MO m p2 l2 a2 = Ret (b2, m2) ->
    exists m', mo_load MO m1 p2 l2 a2 = Ret (b2, m') /\ mo_load MO m2 p1 l1 a1 = Ret (b1, m').
  Hypothesis Lderef : forall m p l a b m1 q k, mo_load MO m p l a = Ret (b, m1) -> mo_deref MO m1 q k = mo_deref MO m q k.
  Hypothesis Lub : forall m p l a t, mo_load MO m p l a = Stop t -> exists s, t = TUb s.
  Hypothesis Lraw : forall m f p mt lk, mo_retag MO m f p (PRaw mt) false lk = Ret (p, m, f).

  Notation later := (loaded MO).
  Lemma later_trans a b c : later a b -> later b c -> later a c.
  Proof. intros H K. induction H; [done|]. econstructor; eauto. Qed.
  Lemma later_one m p l a b m1 : mo_load MO m p l a = Ret (b, m1) -> later m m1.
  Proof. intros. econstructor; [done|constructor]. Qed.
  Lemma later_deref m n q k : later m n -> mo_deref MO n q k = mo_deref MO m q k.
  Proof. intros H. induction H as [|m p l a b m1 n H1 H2 IH]; [done|]. rewrite IH. by eapply Lderef. Qed.
  Lemma later_fwd m n p l a b m1 : later m n -> mo_load MO m p l a = Ret (b, m1) ->
    exists n1, mo_load MO n p l a = Ret (b, n1) /\ later m1 n1.
  Proof.
    intros H. revert m1. induction H as [m|m q k c d m' n H1 H2 IH]; intros m1 E; [exists m1; split; [done|constructor]|].
    destruct (Lboth _ _ _ _ _ _ _ _ _ _ _ H1 E) as (x & Hx & Hx'). destruct (IH _ Hx) as (n1 & Hn & Hl).
    exists n1. split; [done|]. by eapply loaded_load.
  Qed.
  Lemma later_bwd m n p l a b n1 : later m n -> mo_load MO n p l a = Ret (b, n1) ->
    exists m1, mo_load MO m p l a = Ret (b, m1) /\ later m1 n1.
  Proof.
    intros H. revert n1. induction H as [m|m q k c d m' n H1 H2 IH]; intros n1 E; [exists n1; split; [done|constructor]|].
    destruct (IH _ E) as (x & Hx & Hl). destruct (Lswap _ _ _ _ _ _ _ _ _ _ _ H1 Hx) as (m1 & Hm & Hm').
    exists m1. split; [done|]. by eapply loaded_load.
  Qed.
  Lemma later_fixed m n p l a b : later m n -> mo_load MO m p l a = Ret (b, m) -> mo_load MO n p l a = Ret (b, n).
  Proof.
    intros H. induction H as [m|m q k c d m' n H1 H2 IH]; intros E; [done|]. apply IH.
    destruct (Lboth _ _ _ _ _ _ _ _ _ _ _ H1 E) as (x & Hx & Hx'). rewrite H1 in Hx'. by injection Hx' as <-.
  Qed.
  Lemma later_again m p l a b m1 n : mo_load MO m p l a = Ret (b, m1) -> later m1 n -> mo_load MO n p l a = Ret (b, n).
  Proof. intros E H. eapply later_fixed; [done|]. by eapply Lagain. Qed.
  Lemma later_antisym m n : later m n -> later n m -> m = n.
  Proof.
    intros H. induction H as [m|m q k c d m' n H1 H2 IH]; intros K; [done|].
    assert (mo_load MO m q k c = Ret (d, m)) as E by (eapply later_again; [exact H1|by eapply later_trans]).
    rewrite H1 in E. injection E as ->. by apply IH.
  Qed.

  (** *** The memory with nothing but loads *)
  Definition ro : MemOps P F M := mkMemOps _ _ _ (mo_new MO) (fun _ _ _ _ _ => throw_ub "") (fun _ _ _ _ _ => throw_ub "")
    (fun _ _ _ _ => throw_ub "") (mo_load MO) (mo_deref MO)
    (fun m f p pt fe lk => match pt with
                           | PRaw _ => if fe then throw_ub "" else mo_retag MO m f p pt fe lk
                           | _ => throw_ub ""
                           end)
    (mo_new_call MO) (fun _ _ => throw_ub "") (fun _ => Ret tt).
  Lemma ro_x (R : M -> M -> Prop) :
    (forall m n p l a b m1, R m n -> mo_load MO m p l a = Ret (b, m1) -> exists n1, mo_load MO n p l a = Ret (b, n1) /\ R m1 n1) ->
    (forall m n p l, R m n -> mo_deref MO n p l = mo_deref MO m p l) -> mem_xsim ro R.
  Proof.
    intros Hl Hd. split; intros; try apply xsim_ub; try done.
    - cbn. unfold xsim. destruct (mo_load MO m p l a) as [[b m1]|t| |] eqn:E; try done.
      + destruct (Hl _ _ _ _ _ _ _ H E) as (n1 & Hn & Hr). exists (b, n1). by repeat split.
      + intros Hp. destruct (Lub _ _ _ _ _ E) as (s & ->). by destruct (Hp s).
    - by apply Hd.
    - cbn. destruct pt; try apply xsim_ub. destruct fe; [apply xsim_ub|]. rewrite !Lraw. apply xsim_ret. by repeat split.
  Qed.
  Lemma ro_fwd : mem_xsim ro later.
  Proof. apply ro_x; [intros; by eapply later_fwd|intros; by apply later_deref]. Qed.
  Lemma ro_bwd : mem_xsim ro (fun n m => later m n).
  Proof. apply ro_x; [intros; by eapply later_bwd|intros; symmetry; by apply later_deref]. Qed.

  Lemma map_st_ext {A B S} (f g : S -> A -> Outcome (B * S)) l s : Forall (fun x => forall s, f s x = g s x) l -> map_st f l s = map_st g l s.
  Proof.
    intros H. revert s. induction H as [|x l Hx H IH]; intros s; [done|]. cbn. rewrite Hx. apply obind_ext. intros [y s1].
    fold (map_st f). fold (map_st g). by rewrite IH.
  Qed.
  Lemma eval_ro :
    (forall e m, only_reads e = true -> eval_value T ro e m = eval_value T MO e m) /\
    (forall p m, only_reads_place p = true -> eval_place T ro p m = eval_place T MO p m).
  Proof.
    apply Expr_ind'.
    - done.
    - intros es ty IH m He. cbn [eval_value only_reads] in *. rewrite (map_st_ext _ (fun m e => eval_value T MO e m)); [done|].
      induction IH as [|e es Hx IH IHl]; [constructor|]. simpl in He. apply andb_true_iff in He as [H1 H2]. constructor; auto.
    - intros f e ty IH m He. cbn [eval_value only_reads] in *. destruct ty; try done. apply obind_ext. intros [o t]. by rewrite IH.
    - intros d e ty IH m He. cbn [eval_value only_reads] in *. by rewrite IH.
    - intros p IH m He. cbn [eval_value only_reads] in *. by rewrite IH.
    - intros p IH m He. cbn [eval_value only_reads] in *. by rewrite IH.
    - intros p pt IH m He. cbn [eval_value only_reads] in *. destruct pt; try done. by rewrite IH.
    - intros op e IH m He. cbn [eval_value only_reads] in *. by rewrite IH.
    - intros op l r IHl IHr m He. cbn [eval_value only_reads] in *. apply andb_true_iff in He as [H1 H2]. rewrite IHl by done.
      apply obind_ext. intros [[v ty] m1]. by rewrite IHr.
    - done.
    - intros e ty IH m He. cbn [eval_place only_reads_place] in *. by rewrite IH.
    - intros p f IH m He. cbn [eval_place only_reads_place] in *. by rewrite IH.
    - intros p e IHp IHe m He. cbn [eval_place only_reads_place] in *. apply andb_true_iff in He as [H1 H2]. rewrite IHp by done.
      apply obind_ext. intros [[v ty] m1]. by rewrite IHe.
    - intros p d IH m He. cbn [eval_place only_reads_place] in *. by rewrite IH.
  Qed.

  (** *** States *)
  Notation ml := (mr later anyacc).
  Notation me := (mr eq anyacc).
  Lemma ml_refl (m : Mach) : ml m m.
  Proof. exists (m_mem m). split; [by destruct m|]. split; [constructor|done]. Qed.
  Lemma ml_trans (a b c : Mach) : ml a b -> ml b c -> ml a c.
  Proof. intros (d & -> & [H1 _]) (e & -> & [H2 _]). exists e. split; [done|]. split; [by eapply later_trans|done]. Qed.
  Lemma me_refl (m : Mach) : me m m.
  Proof. exists (m_mem m). split; [by destruct m|]. by split. Qed.
  Lemma me_trans (a b c : Mach) : me a b -> me b c -> me a c.
  Proof. intros (d & -> & [H1 _]) (e & -> & [H2 _]). exists e. split; [done|]. split; [|done]. cbn in *. congruence. Qed.
  Lemma me_ml (a b : Mach) : me a b -> ml a b.
  Proof. intros (d & -> & [H1 _]). exists d. split; [done|]. split; [|done]. rewrite H1. constructor. Qed.
  Lemma me_sym (a b : Mach) : me a b -> me b a.
  Proof. intros (d & -> & [H1 _]). exists (m_mem a). split; [by destruct a|]. by split. Qed.
  Lemma ml_antisym (a b : Mach) : ml a b -> ml b a -> me a b.
  Proof.
    intros (d & -> & [H1 _]) (e & E & [H2 _]). exists d. split; [done|]. split; [|done].
    assert (m_mem a = e) as <- by (rewrite E; by destruct a). cbn in H2. by apply later_antisym.
  Qed.

  (** a computation that does the same again, and then changes nothing *)
  Definition settled {A} (X : Mach -> Outcome (A * Mach)) : Prop := forall m a m1, X m = Ret (a, m1) ->
    ml m m1 /\ forall n, ml m1 n -> exists n', X n = Ret (a, n') /\ me n n'.

  Lemma settled_load p l a at_ : settled (fun m : Mach => let! '(b, c) := cm_load MO (m_mem m) p l a at_ in Ret (b, set_mem m c)).
  Proof.
    intros m b m1 E. apply obind_ret in E as ([b' c] & E & [= <- <-]). unfold cm_load in E.
    apply obind_ret in E as ([b1 x] & E & [= <- <-]). cbn in E. split.
    - eexists. split; [reflexivity|]. split; [by eapply later_one|done].
    - intros n (d & -> & [Hd _]). cbn in Hd. exists (set_mem m (cm_set (cm_push d (mkAccess AcLoad at_ (tp_addr p) l)) (cm_mem d))).
      unfold cm_load. cbn. rewrite (later_again _ _ _ _ _ _ _ E Hd). cbn. split; [done|].
      eexists. split; [reflexivity|]. by split.
  Qed.
  Lemma look_check (m n : Mach) ty v : ml m n -> check_value T (chk_env MO n) ty v = check_value T (chk_env MO m) ty v.
  Proof. exact (check_value_x T ro later ro_fwd anyacc m n ty v). Qed.
  Lemma look_offset (m n : Mach) p o : ml m n -> ptr_offset_inbounds T MO n p o = ptr_offset_inbounds T MO m p o.
  Proof. exact (offset_inbounds_x T ro later ro_fwd anyacc m n p o). Qed.
  Lemma look_un (m n : Mach) op v : ml m n -> eval_un_op T MO n op v = eval_un_op T MO m op v.
  Proof. exact (un_op_x T ro later ro_fwd anyacc m n op v). Qed.
  Lemma look_bin (m n : Mach) op v w : ml m n -> eval_bin_op T MO n op v w = eval_bin_op T MO m op v w.
  Proof. exact (bin_op_x T ro later ro_fwd anyacc m n op v w). Qed.
  Lemma look_deref (m n : Mach) p s : ml m n -> cm_deref MO (m_mem n) p s = cm_deref MO (m_mem m) p s.
  Proof. intros (d & -> & [H _]). by apply later_deref. Qed.
  Lemma look_field (m n : Mach) ty mt f : ml m n -> field_of T MO n ty mt f = field_of T MO m ty mt f.
  Proof. by intros (d & -> & _). Qed.
  Lemma look_size (m n : Mach) l mt : ml m n -> compute_size (chk_env MO n) l mt = compute_size (chk_env MO m) l mt.
  Proof. by intros (d & -> & _). Qed.
  Lemma look_align (m n : Mach) l mt : ml m n -> compute_align (chk_env MO n) l mt = compute_align (chk_env MO m) l mt.
  Proof. by intros (d & -> & _). Qed.
  Lemma look_const (m n : Mach) c : ml m n -> eval_constant T n c = eval_constant T m c.
  Proof. by intros (d & -> & _). Qed.
  Lemma look_frame (m n : Mach) : ml m n -> cur_frame n = cur_frame m.
  Proof. by intros (d & -> & _). Qed.

  Definition thenS {A B} (X : Mach -> Outcome (A * Mach)) (f : A -> Mach -> Outcome (B * Mach)) (m : Mach) : Outcome (B * Mach) :=
    let! r := X m in f (fst r) (snd r).
  Lemma settled_bind {A B} (X : Mach -> Outcome (A * Mach)) (f : A -> Mach -> Outcome (B * Mach)) :
    settled X -> (forall a, settled (f a)) -> settled (thenS X f).
  Proof.
    unfold thenS. intros HX Hf m b m2 E. apply obind_ret in E as ([a m1] & E1 & E2). cbn [fst snd] in E2.
    destruct (HX _ _ _ E1) as [L1 K1]. destruct (Hf _ _ _ _ E2) as [L2 K2]. split; [by eapply ml_trans|].
    intros n Hn. destruct (K1 n) as (n1 & -> & N1); [by eapply ml_trans|]. cbn [obind fst snd].
    destruct (K2 n1) as (n2 & -> & N2); [eapply ml_trans; [done|by apply me_ml]|]. exists n2. split; [done|by eapply me_trans].
  Qed.
  Lemma settled_look {A B} (x : Mach -> Outcome A) (f : A -> Mach -> Outcome (B * Mach)) :
    (forall m n, ml m n -> x n = x m) -> (forall a, settled (f a)) -> settled (fun m => let! a := x m in f a m).
  Proof.
    intros Hx Hf m b m1 E. apply obind_ret in E as (a & E1 & E2). destruct (Hf _ _ _ _ E2) as [L2 K2]. split; [done|].
    intros n Hn. rewrite (Hx m n) by (by eapply ml_trans). rewrite E1. cbn [obind]. by apply K2.
  Qed.
  Lemma settled_ret {A} (a : A) : settled (fun m => Ret (a, m)).
  Proof. intros m b m1 [= <- <-]. split; [apply ml_refl|]. intros n _. exists n. split; [done|apply me_refl]. Qed.
  Lemma settled_not {A} (x : Outcome (A * Mach)) : (forall r, x <> Ret r) -> settled (fun _ => x).
  Proof. intros H m a m1 E. by destruct (H _ E). Qed.
  Lemma settled_ext {A} (X Y : Mach -> Outcome (A * Mach)) : (forall m, X m = Y m) -> settled Y -> settled X.
  Proof. intros H HY m a m1. rewrite H. intros E. destruct (HY _ _ _ E) as [L K]. split; [done|]. intros n. rewrite H. apply K. Qed.
  Ltac sret := first [apply settled_ret|apply settled_not; done].
  (** the next step is a computation that is settled by [H] *)
  Ltac sbind f H := eapply settled_ext; [|apply (settled_bind _ f H)].

  Lemma settled_typed_load p ty a at_ : settled (fun m => typed_load T MO m p ty a at_).
  Proof.
    unfold typed_load. apply (settled_look (fun _ => size_of T ty)); [done|]. intros s.
    apply (settled_ext _ (thenS (fun m => let! '(b, c) := cm_load MO (m_mem m) p s a at_ in Ret (b, set_mem m c))
      (fun b m => let! o := decode T ty b in match o with
        | Some v => let! _ := check_value T (chk_env MO m) ty v in Ret (v, m)
        | None => throw_ub "load at type but the data in memory violates the language invariant" end))).
    { intros m. unfold thenS. by destruct (cm_load MO (m_mem m) p s a at_) as [[b c]| | |]. }
    apply settled_bind; [apply settled_load|]. intros b. apply (settled_look (fun _ => decode T ty b)); [done|]. intros [v|]; [|sret].
    apply (settled_look (fun m => check_value T (chk_env MO m) ty v)); [intros; by apply look_check|]. intros _. sret.
  Qed.
  Lemma settled_place_load pl ty : settled (fun m => place_load T MO m pl ty).
  Proof. unfold place_load. destruct (negb _); [sret|]. apply settled_typed_load. Qed.
  Lemma settled_accessor p i s : settled (fun m : Mach => load_accessor T MO p m i s).
  Proof.
    unfold load_accessor. apply (settled_look (fun m => ptr_offset_inbounds T MO m p (Z.of_N i))); [intros; by apply look_offset|].
    intros q. apply settled_load.
  Qed.
  Lemma settled_discr p d : settled (fun m => decode_discriminant T (load_accessor T MO p) d m).
  Proof.
    induction d as [val| |off vt fb ch IHf IHc] using Discriminator_ind'; cbn [decode_discriminant]; try sret.
    apply (settled_ext _ (thenS (fun m => load_accessor T MO p m off (it_size vt))
      (fun b m => let! o := decode_int_opt T vt b in match o with
        | None => Ret (None, m)
        | Some val => match find_child (fun c => decode_discriminant T (load_accessor T MO p) c m) val ch with
                      | Some r => r
                      | None => decode_discriminant T (load_accessor T MO p) fb m
                      end end))).
    { intros m. unfold thenS. by destruct (load_accessor T MO p m off (it_size vt)) as [[b c]| | |]. }
    apply settled_bind; [apply settled_accessor|]. intros b. apply (settled_look (fun _ => decode_int_opt T vt b)); [done|].
    intros [val|]; [|sret]. induction ch as [|[r cd] ch IH]; simpl; [done|]. inversion IHc; subst. destruct (in_range _ r); [done|by apply IH].
  Qed.
  Lemma retag_raw m ptr mt f : cur_frame m = Ret f -> retag_ptr MO m ptr (PRaw mt) false = Ret (ptr, m).
  Proof.
    intros Hf. destruct (retag_ptr MO m ptr (PRaw mt) false) as [[q m']| | |] eqn:E.
    - pose proof E as E'. apply mr_retag in E' as ->; [|intros *; rewrite Lraw; by intros [= <- <- <-]]. f_equal. f_equal.
      unfold retag_ptr in E. rewrite Hf in E. cbn in E. unfold cm_retag in E. rewrite Lraw in E. cbn in E.
      apply obind_ret in E as (? & _ & E). congruence.
    - unfold retag_ptr in E. rewrite Hf in E. cbn in E. unfold cm_retag in E. rewrite Lraw in E. cbn in E.
      unfold set_cur_frame, cur_frame, active_thread in *. cbn in *. apply obind_ret in Hf as (t' & Ht & Hf). rewrite Ht in E. cbn in E.
      apply unwrap_ret in Hf. by destruct (t_stack t').
    - unfold retag_ptr in E. rewrite Hf in E. cbn in E. unfold cm_retag in E. rewrite Lraw in E. cbn in E.
      unfold set_cur_frame, cur_frame, active_thread in *. cbn in *. apply obind_ret in Hf as (t' & Ht & Hf). rewrite Ht in E. cbn in E.
      apply unwrap_ret in Hf. by destruct (t_stack t').
    - unfold retag_ptr in E. rewrite Hf in E. cbn in E. unfold cm_retag in E. rewrite Lraw in E. cbn in E.
      unfold set_cur_frame, cur_frame, active_thread in *. cbn in *. apply obind_ret in Hf as (t' & Ht & Hf). rewrite Ht in E. cbn in E.
      apply unwrap_ret in Hf. by destruct (t_stack t').
  Qed.
  Lemma settled_retag ptr mt : settled (fun m => retag_ptr MO m ptr (PRaw mt) false).
  Proof.
    intros m q m1 E. assert (exists f, cur_frame m = Ret f) as (f & Hf).
    { unfold retag_ptr in E. apply obind_ret in E as (f & Hf & _). eauto. }
    rewrite (retag_raw _ _ _ _ Hf) in E. injection E as <- <-. split; [apply ml_refl|]. intros n Hn. exists n.
    split; [|apply me_refl]. apply (retag_raw _ _ _ f). by rewrite (look_frame _ _ Hn).
  Qed.
  Lemma settled_map {A B} (f : Mach -> A -> Outcome (B * Mach)) l : Forall (fun x => settled (fun m => f m x)) l -> settled (map_st f l).
  Proof.
    induction 1 as [|x l Hx H IH]; [sret|]. 
    apply (settled_ext _ (thenS (fun m => f m x) (fun y => thenS (map_st f l) (fun ys m => Ret (y :: ys, m))))).
    { intros m. unfold thenS. cbn. destruct (f m x) as [[y s]| | |]; try done. cbn. fold (map_st f). by destruct (map_st f l s) as [[ys s']| | |]. }
    apply settled_bind; [done|]. intros y. apply settled_bind; [done|]. intros ys. sret.
  Qed.

  Ltac hd x := match goal with |- obind ?y _ = _ => change y with x end.
  Lemma eval_settled :
    (forall e, only_reads e = true -> settled (eval_value T MO e)) /\
    (forall p, only_reads_place p = true -> settled (eval_place T MO p)).
  Proof.
    apply Expr_ind'.
    - intros c ty _. cbn [eval_value]. apply (settled_look (fun m => eval_constant T m c)); [intros; by apply look_const|]. intros v. sret.
    - intros es ty IH He. cbn [only_reads] in He.
      eapply settled_ext; [|apply (settled_bind (map_st (fun m e => eval_value T MO e m) es) (fun vals m => Ret (VTuple (List.map fst vals), ty, m)));
        [apply settled_map|intros; sret]].
      + intros m. unfold thenS. cbn. by destruct (map_st _ es m) as [[vs m1]| | |].
      + induction IH as [|e es Hx IH IHl]; [constructor|]. simpl in He. apply andb_true_iff in He as [H1 H2]. constructor; [by apply Hx|auto].
    - intros f e ty IH He. cbn [eval_value only_reads] in *. destruct ty as [| | | | | |fields chunks size align| |]; try sret.
      apply (settled_look (fun _ => unwrap (list_get fields f))); [done|]. intros [o ety].
      eapply settled_ext; [|apply (settled_bind (eval_value T MO e) (fun v m => let! bytes := encode T ety (fst v) in
            let! data := write_subslice (list_repeat Uninit size) o bytes in
            let! o := decode T (TUnion fields chunks size align) data in
            let! u := unwrap o in
            Ret (u, TUnion fields chunks size align, m)))].
      + intros m. unfold thenS. by destruct (eval_value T MO e m) as [[[v t] m1]| | |].
      + by apply IH.
      + intros [v t]. cbn [fst]. apply (settled_look (fun _ => encode T ety v)); [done|]. intros bytes.
        apply (settled_look (fun _ => write_subslice _ _ _)); [done|]. intros data.
        apply (settled_look (fun _ => decode T _ _)); [done|]. intros x.
        apply (settled_look (fun _ => unwrap x)); [done|]. intros u. sret.
    - intros d e ty IH He. eapply settled_ext; [|apply (settled_bind (eval_value T MO e) (fun v m => Ret (VVariant d (fst v), ty, m)))].
      + intros m. unfold thenS. cbn [eval_value eval_place]. hd (eval_value T MO e m). by destruct (eval_value T MO e m) as [[[v t] m1]| | |].
      + by apply IH.
      + intros; sret.
    - intros p IH He. eapply settled_ext; [|apply (settled_bind (eval_place T MO p) (fun x => match snd x with
        | TEnum _ dty discr _ _ =>
            if negb (pl_aligned (fst x))
            then fun _ => throw_ub "Getting the discriminant of a place based on a misaligned pointer."
            else
              thenS (fun m => decode_discriminant T (load_accessor T MO (p_thin (pl_ptr (fst x)))) discr m)
              (fun o m => match o with
              | Some d => Ret (VInt d, TInt dty, m)
              | None => throw_ub "ValueExpr::GetDiscriminant encountered invalid discriminant."
              end)
        | _ => fun _ => Panic end))].
      + intros m. unfold thenS. cbn [eval_value eval_place]. hd (eval_place T MO p m). destruct (eval_place T MO p m) as [[[v t] m1]| | |]; try done. cbn [obind fst snd].
        destruct t; try done. destruct (negb _); [done|]. by destruct (decode_discriminant _ _ _ _) as [[o s]| | |].
      + by apply IH.
      + intros [pl ty]. cbn [fst snd]. destruct ty; try sret. destruct (negb _); [sret|]. apply settled_bind; [apply settled_discr|].
        intros [d|]; sret.
    - intros p IH He. eapply settled_ext; [|apply (settled_bind (eval_place T MO p) (fun x =>
        thenS (fun m => place_load T MO m (fst x) (snd x)) (fun v m => Ret (v, snd x, m))))].
      + intros m. unfold thenS. cbn [eval_value eval_place]. hd (eval_place T MO p m). destruct (eval_place T MO p m) as [[[v t] m1]| | |]; try done. cbn [obind fst snd].
        by destruct (place_load T MO m1 v t) as [[o s]| | |].
      + by apply IH.
      + intros [pl ty]. apply settled_bind; [apply settled_place_load|]. intros; sret.
    - intros p pt IH He. cbn [only_reads] in He. assert (exists mt, pt = PRaw mt) as [mt ->] by (destruct pt; eauto; done).
      cbn in He.
      eapply settled_ext; [|apply (settled_bind (eval_place T MO p) (fun x m =>
        let! _ := check_value T (chk_env MO m) (TPtr (PRaw mt)) (VPtr (pl_ptr (fst x))) in
        thenS (fun m => retag_ptr MO m (pl_ptr (fst x)) (PRaw mt) false) (fun v m => Ret (VPtr v, TPtr (PRaw mt), m)) m))].
      + intros m. unfold thenS. cbn [eval_value eval_place]. hd (eval_place T MO p m). destruct (eval_place T MO p m) as [[[v t] m1]| | |]; try done. cbn [obind fst snd].
        apply obind_ext. intros _. by destruct (retag_ptr _ _ _ _ _) as [[o s]| | |].
      + by apply IH.
      + intros [pl ty]. cbn [fst]. apply (settled_look (fun m => check_value T (chk_env MO m) (TPtr (PRaw mt)) (VPtr (pl_ptr pl)))); [intros; by apply look_check|].
        intros _. apply settled_bind; [apply settled_retag|]. intros; sret.
    - intros op e IH He. eapply settled_ext; [|apply (settled_bind (eval_value T MO e) (fun x m =>
        let! r := eval_un_op T MO m op x in Ret (r, m)))].
      + intros m. unfold thenS. cbn [eval_value eval_place]. hd (eval_value T MO e m). destruct (eval_value T MO e m) as [[[v t] m1]| | |]; try done. cbn [obind fst snd].
        by destruct (eval_un_op _ _ _ _ _) as [[o s]| | |].
      + by apply IH.
      + intros x. apply (settled_look (fun m => eval_un_op T MO m op x)); [intros; by apply look_un|]. intros; sret.
    - intros op l r IHl IHr He. cbn [only_reads] in He. apply andb_true_iff in He as [H1 H2].
      eapply settled_ext; [|apply (settled_bind (eval_value T MO l) (fun x =>
        thenS (eval_value T MO r) (fun y m => let! r := eval_bin_op T MO m op x y in Ret (r, m))))].
      + intros m. unfold thenS. cbn [eval_value eval_place]. hd (eval_value T MO l m). destruct (eval_value T MO l m) as [[[v t] m1]| | |]; try done. cbn [obind fst snd].
        destruct (eval_value T MO r m1) as [[[w t1] m2]| | |]; try done. cbn [obind fst snd].
        by destruct (eval_bin_op _ _ _ _ _ _) as [[o s]| | |].
      + by apply IHl.
      + intros x. apply settled_bind; [by apply IHr|]. intros y.
        apply (settled_look (fun m => eval_bin_op T MO m op x y)); [intros; by apply look_bin|]. intros; sret.
    - intros x _. cbn [eval_place]. apply (settled_look cur_frame); [intros; by apply look_frame|]. intros f.
      apply (settled_look (fun _ => unwrap _)); [done|]. intros ty. destruct (map_get _ _); sret.
    - intros e ty IH He. eapply settled_ext; [|apply (settled_bind (eval_value T MO e) (fun x m => match fst x, snd x with
        | VPtr ptr, TPtr pt =>
            let! _ :=
              match safe_pointee pt with
              | Some pi =>
                  let! a := compute_align (chk_env MO m) (pi_layout pi) (p_meta ptr) in
                  let! _ := assert_ (is_aligned a (tp_addr (p_thin ptr))) in
                  let! s := compute_size (chk_env MO m) (pi_layout pi) (p_meta ptr) in
                  cm_deref MO (m_mem m) (p_thin ptr) s
              | None => Ret tt
              end in
            let! l := layout T ty in
            let! a := compute_align (chk_env MO m) l (p_meta ptr) in
            Ret (mkPlace ptr (is_aligned a (tp_addr (p_thin ptr))), ty, m)
        | _, _ => Panic
        end))].
      + intros m. unfold thenS. cbn [eval_value eval_place]. hd (eval_value T MO e m). by destruct (eval_value T MO e m) as [[[v t] m1]| | |].
      + by apply IH.
      + intros [v t]. cbn [fst snd]. destruct v as [| |ptr| | |]; try sret. destruct t as [| |pt| | | | | |]; try sret.
        apply (settled_look (fun m => match safe_pointee pt with Some pi => _ | None => _ end)).
        { intros m n H. destruct (safe_pointee pt) as [pi|]; [|done]. rewrite (look_align _ _ _ _ H). apply obind_ext. intros a.
          apply obind_ext. intros _. rewrite (look_size _ _ _ _ H). apply obind_ext. intros s. by rewrite (look_deref _ _ _ _ H). }
        intros _. apply (settled_look (fun _ => layout T ty)); [done|]. intros l.
        apply (settled_look (fun m => compute_align (chk_env MO m) l (p_meta ptr))); [intros; by apply look_align|]. intros a. sret.
    - intros p f IH He. eapply settled_ext; [|apply (settled_bind (eval_place T MO p) (fun x m =>
        let! r := field_of T MO m (snd x) (p_meta (pl_ptr (fst x))) f in
        let! l := layout T (snd x) in
        let! s := compute_size (chk_env MO m) l (p_meta (pl_ptr (fst x))) in
        let! _ := assert_ (fst r <=? s)%N in
        let! ptr := ptr_offset_inbounds T MO m (p_thin (pl_ptr (fst x))) (Z.of_N (fst r)) in
        let! fl := layout T (snd r) in
        Ret (mkPlace (widen ptr (if is_sized fl then None else p_meta (pl_ptr (fst x)))) (pl_aligned (fst x)), snd r, m)))].
      + intros m. unfold thenS. cbn [eval_value eval_place]. hd (eval_place T MO p m). destruct (eval_place T MO p m) as [[[v t] m1]| | |]; try done. cbn [obind fst snd].
        by destruct (field_of _ _ _ _ _ _) as [[o s]| | |].
      + by apply IH.
      + intros [pl ty]. cbn [fst snd].
        apply (settled_look (fun m => field_of T MO m ty (p_meta (pl_ptr pl)) f)); [intros; by apply look_field|]. intros [o t].
        apply (settled_look (fun _ => layout T ty)); [done|]. intros l.
        apply (settled_look (fun m => compute_size (chk_env MO m) l (p_meta (pl_ptr pl)))); [intros; by apply look_size|]. intros s.
        apply (settled_look (fun _ => assert_ (o <=? s)%N)); [done|]. intros _. cbn [fst snd].
        apply (settled_look (fun m => ptr_offset_inbounds T MO m (p_thin (pl_ptr pl)) (Z.of_N o))); [intros; by apply look_offset|]. intros q.
        apply (settled_look (fun _ => layout T t)); [done|]. intros fl. sret.
    - intros p e IHp IHe He. cbn [only_reads_place] in He. apply andb_true_iff in He as [H1 H2].
      eapply settled_ext; [|apply (settled_bind (eval_place T MO p) (fun x =>
        thenS (eval_value T MO e) (fun y m => match fst y with
        | VInt i =>
            let! ec :=
              match snd x, p_meta (pl_ptr (fst x)) with
              | TArray elem count, _ => Ret (elem, count)
              | TSlice elem, Some (MElementCount count) => Ret (elem, count)
              | _, _ => Panic
              end in
            if (i <? 0) || (snd ec <=? i) then throw_ub "access to out-of-bounds index" else
            let! elem_size := size_of T (fst ec) in
            let! offset := size_mul elem_size i in
            let! l := layout T (snd x) in
            let! s := compute_size (chk_env MO m) l (p_meta (pl_ptr (fst x))) in
            let! _ := assert_ (offset <=? s)%N in
            let! ptr := ptr_offset_inbounds T MO m (p_thin (pl_ptr (fst x))) (Z.of_N offset) in
            Ret (mkPlace (widen ptr None) (pl_aligned (fst x)), fst ec, m)
        | _ => Panic
        end)))].
      + intros m. unfold thenS. cbn [eval_value eval_place]. hd (eval_place T MO p m). destruct (eval_place T MO p m) as [[[v t] m1]| | |]; try done. cbn [obind fst snd].
        hd (eval_value T MO e m1). destruct (eval_value T MO e m1) as [[[w t1] m2]| | |]; try done. cbn [obind fst snd].
        destruct w; try done. apply obind_ext. by intros [elem count].
      + by apply IHp.
      + intros [pl ty]. apply settled_bind; [by apply IHe|]. intros [iv it]. cbn [fst snd]. destruct iv as [i| | | | |]; try sret.
        apply (settled_look (fun _ => match ty with TArray _ _ => _ | _ => _ end)); [done|]. intros [elem count]. cbn [fst snd].
        destruct (_ || _); [sret|].
        apply (settled_look (fun _ => size_of T elem)); [done|]. intros es.
        apply (settled_look (fun _ => size_mul es i)); [done|]. intros o.
        apply (settled_look (fun _ => layout T ty)); [done|]. intros l.
        apply (settled_look (fun m => compute_size (chk_env MO m) l (p_meta (pl_ptr pl)))); [intros; by apply look_size|]. intros s.
        apply (settled_look (fun _ => assert_ (o <=? s)%N)); [done|]. intros _.
        apply (settled_look (fun m => ptr_offset_inbounds T MO m (p_thin (pl_ptr pl)) (Z.of_N o))); [intros; by apply look_offset|]. intros q. sret.
    - intros p d IH He. eapply settled_ext; [|apply (settled_bind (eval_place T MO p) (fun x m => match snd x with
        | TEnum variants _ _ _ _ => let! v := unwrap (map_get variants d) in Ret (fst x, fst v, m)
        | _ => Panic end))].
      + intros m. unfold thenS. cbn [eval_value eval_place]. hd (eval_place T MO p m). by destruct (eval_place T MO p m) as [[[v t] m1]| | |].
      + by apply IH.
      + intros [pl ty]. cbn [fst snd]. destruct ty as [| | | | | | |variants ? ? ? ?|]; try sret.
        apply (settled_look (fun _ => unwrap (map_get variants d))); [done|]. intros v. sret.
  Qed.

  (** *** Results *)
  Lemma fwd e (m n : Mach) v m1 : only_reads e = true -> ml m n -> eval_value T MO e m = Ret (v, m1) ->
    exists n1, eval_value T MO e n = Ret (v, n1) /\ ml m1 n1.
  Proof.
    intros He H E. pose proof (eval_value_x T ro later ro_fwd anyacc ltac:(done) e m n H) as X.
    rewrite !(proj1 eval_ro) in X by done. rewrite E in X. destruct X as ([w n1] & Hn & [Hv Hm]). cbn in Hv, Hm. subst. eauto.
  Qed.
  Lemma ml_flip (m n : Mach) : ml m n <-> mr (fun n m => later m n) anyacc n m.
  Proof.
    split; intros (d & -> & [H _]).
    - exists (m_mem m). split; [by destruct m|]. by split.
    - exists (m_mem n). split; [by destruct n|]. by split.
  Qed.
  Lemma bwd e (m n : Mach) v n1 : only_reads e = true -> ml m n -> eval_value T MO e n = Ret (v, n1) ->
    exists m1, eval_value T MO e m = Ret (v, m1) /\ ml m1 n1.
  Proof.
    intros He H E. pose proof (eval_value_x T ro _ ro_bwd anyacc ltac:(done) e n m (proj1 (ml_flip _ _) H)) as X.
    rewrite !(proj1 eval_ro) in X by done. rewrite E in X. destruct X as ([w m1] & Hn & [Hv Hm]). cbn [fst snd] in Hv, Hm. subst.
    exists m1. split; [done|]. by apply ml_flip.
  Qed.
  Theorem eval_again e (m : Mach) v m1 n : only_reads e = true -> eval_value T MO e m = Ret (v, m1) -> ml m1 n ->
    exists n', eval_value T MO e n = Ret (v, n') /\ me n n'.
  Proof. intros He E H. destruct (proj1 eval_settled e He _ _ _ E) as [_ K]. by apply K. Qed.
  Theorem eval_later e (m : Mach) v m1 : only_reads e = true -> eval_value T MO e m = Ret (v, m1) -> ml m m1.
  Proof. intros He E. by destruct (proj1 eval_settled e He _ _ _ E). Qed.
  Theorem eval_order e1 e2 (m : Mach) v1 m1 v2 m12 : only_reads e1 = true -> only_reads e2 = true ->
    eval_value T MO e1 m = Ret (v1, m1) -> eval_value T MO e2 m1 = Ret (v2, m12) ->
    exists m2 m21, eval_value T MO e2 m = Ret (v2, m2) /\ eval_value T MO e1 m2 = Ret (v1, m21) /\ me m12 m21.
  Proof.
    intros R1 R2 E1 E2. pose proof (eval_later _ _ _ _ R1 E1) as L1. pose proof (eval_later _ _ _ _ R2 E2) as L12.
    destruct (bwd _ _ _ _ _ R2 L1 E2) as (m2 & F2 & K2). pose proof (eval_later _ _ _ _ R2 F2) as L2.
    destruct (fwd _ _ _ _ _ R1 L2 E1) as (m21 & F1 & K1). pose proof (eval_later _ _ _ _ R1 F1) as L21.
    exists m2, m21. split; [done|]. split; [done|]. apply ml_antisym.
    - destruct (fwd _ _ _ _ _ R2 K1 E2) as (x & Hx & Kx). destruct (eval_again _ _ _ _ _ R2 F2 L21) as (y & Hy & Ky).
      rewrite Hx in Hy. injection Hy as <-. eapply ml_trans; [exact Kx|]. apply me_ml. by apply me_sym.
    - destruct (fwd _ _ _ _ _ R1 K2 F1) as (x & Hx & Kx). destruct (eval_again _ _ _ _ _ R1 E1 L12) as (y & Hy & Ky).
      rewrite Hx in Hy. injection Hy as <-. eapply ml_trans; [exact Kx|]. apply me_ml. by apply me_sym.
  Qed.
End Twice.

(** ** The two memory models *)
Lemma me_same {P F M} (m n : Machine P F M) : mr eq anyacc m n <-> same_state m n.
Proof. split; intros (d & -> & H); exists d; [by destruct H as [-> _]|by split; [split|]]. Qed.
Lemma tree_load_deref T m p l a b m1 q k : mo_load (TreeOps T) m p l a = Ret (b, m1) -> mo_deref (TreeOps T) m1 q k = mo_deref (TreeOps T) m q k.
Proof. intros H%load_more. symmetry. by apply (xs_deref _ _ (tree_drop T)). Qed.
Lemma tree_load_ub T m p l a t : mo_load (TreeOps T) m p l a = Stop t -> exists s, t = TUb s.
Proof. apply (tree_ub T). Qed.
Lemma tree_raw T m f p mt lk : mo_retag (TreeOps T) m f p (PRaw mt) false lk = Ret (p, m, f).
Proof. done. Qed.
Lemma basic_load_again T m p l a b m1 : mo_load (BasicOps T) m p l a = Ret (b, m1) -> mo_load (BasicOps T) m1 p l a = Ret (b, m1).
Proof. intros H. pose proof H as ->%basic_load. by apply basic_load in H as E. Qed.
Lemma basic_loads_swap T m p1 l1 a1 b1 m1 p2 l2 a2 b2 m12 : mo_load (BasicOps T) m p1 l1 a1 = Ret (b1, m1) ->
  mo_load (BasicOps T) m1 p2 l2 a2 = Ret (b2, m12) ->
  exists m2, mo_load (BasicOps T) m p2 l2 a2 = Ret (b2, m2) /\ mo_load (BasicOps T) m2 p1 l1 a1 = Ret (b1, m12).
Proof. intros H1 H2. pose proof (basic_load _ _ _ _ _ _ _ H1). pose proof (basic_load _ _ _ _ _ _ _ H2). subst. eauto. Qed.
Lemma basic_loads_both T m p1 l1 a1 b1 m1 p2 l2 a2 b2 m2 : mo_load (BasicOps T) m p1 l1 a1 = Ret (b1, m1) ->
  mo_load (BasicOps T) m p2 l2 a2 = Ret (b2, m2) ->
  exists m', mo_load (BasicOps T) m1 p2 l2 a2 = Ret (b2, m') /\ mo_load (BasicOps T) m2 p1 l1 a1 = Ret (b1, m').
Proof. intros H1 H2. pose proof (basic_load _ _ _ _ _ _ _ H1). pose proof (basic_load _ _ _ _ _ _ _ H2). subst. eauto. Qed.
Lemma basic_load_deref T m p l a b m1 q k : mo_load (BasicOps T) m p l a = Ret (b, m1) -> mo_deref (BasicOps T) m1 q k = mo_deref (BasicOps T) m q k.
Proof. by intros ->%basic_load. Qed.
Lemma basic_load_ub T m p l a t : mo_load (BasicOps T) m p l a = Stop t -> exists s, t = TUb s.
Proof. apply (basic_ub T). Qed.
Lemma basic_raw T m f p mt lk : mo_retag (BasicOps T) m f p (PRaw mt) false lk = Ret (p, m, f).
Proof. done. Qed.
