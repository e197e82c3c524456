(** Proofs about the translation of types (C83, C84). *)
From Verif Require Export MirTySpec ChunksProofs MiniExpr.

(** ** Enough fuel *)

(** with enough fuel, [f] returns [a] *)
Definition enough {A} (f : nat -> Outcome A) (a : A) : Prop := exists n, forall m, (n <= m)%nat -> f m = Ret a.
Definition yields {A} (f : nat -> Outcome A) (Q : A -> Prop) : Prop := exists a, enough f a /\ Q a.

Lemma yields_ret {A} (a : A) (Q : A -> Prop) : Q a -> yields (fun _ => Ret a) Q.
Proof. intros H. exists a. split; [|done]. by exists 0%nat. Qed.
Lemma yields_const {A} o (a : A) (Q : A -> Prop) : o = Ret a -> Q a -> yields (fun _ => o) Q.
Proof. intros -> H. by apply yields_ret. Qed.
Lemma yields_bind {A B} (f : nat -> Outcome A) (g : nat -> A -> Outcome B) P Q :
  yields f P -> (forall a, P a -> yields (fun m => g m a) Q) -> yields (fun m => let! a := f m in g m a) Q.
Proof.
  intros (a & (n & Hf) & Ha) Hg. destruct (Hg a Ha) as (b & (n' & Hb) & HQ). exists b. split; [|done].
  exists (n + n')%nat. intros m Hm. rewrite Hf by lia. cbn. apply Hb. lia.
Qed.
Lemma yields_S {A} (f : nat -> Outcome A) Q : yields (fun m => f (S m)) Q -> yields f Q.
Proof.
  intros (a & (n & Hf) & Ha). exists a. split; [|done]. exists (S n). intros [|m] Hm; [lia|]. apply Hf. lia.
Qed.
Lemma yields_mono {A} (f : nat -> Outcome A) (P Q : A -> Prop) : yields f P -> (forall a, P a -> Q a) -> yields f Q.
Proof. intros (a & H & Ha) HPQ. exists a. auto. Qed.
Lemma yields_ext {A} (f g : nat -> Outcome A) Q : (forall m, f m = g m) -> yields f Q -> yields g Q.
Proof. intros E (a & (n & H) & Ha). exists a. split; [|done]. exists n. intros m Hm. rewrite <- E. by apply H. Qed.
Lemma yields_map {A B} (f : nat -> A -> Outcome B) (Q : A -> B -> Prop) l :
  (forall x, x ∈ l -> yields (fun m => f m x) (Q x)) -> yields (fun m => map_m (f m) l) (Forall2 Q l).
Proof.
  induction l as [|x l IH]; intros H; [apply yields_ret; constructor|].
  cbn [map_m]. eapply yields_bind; [apply H; left|]. cbn beta. intros y Hy.
  eapply yields_bind; [apply IH; intros z Hz; apply H; by right|]. cbn beta. intros ys Hys. apply yields_ret. by constructor.
Qed.
Lemma yields_self {A} (f : nat -> Outcome A) (Q : A -> Prop) : yields f Q -> yields f (fun a => Q a /\ enough f a).
Proof. intros (a & H & Ha). exists a. done. Qed.
Lemma enough_fun {A} (f : nat -> Outcome A) a b : enough f a -> enough f b -> a = b.
Proof. intros (n & H) (n' & H'). specialize (H (n + n')%nat). specialize (H' (n + n')%nat). rewrite H in H' by lia. injection H' as ->; [done|lia]. Qed.

(** ** Sorting *)

Section Sort.
  Context {A : Type} (off sz : A -> N).
  Definition placed (x y : A) : Prop :=
    (off x + sz x <= off y \/ off y + sz y <= off x)%N /\ (off x = off y -> sz x = 0%N).
  Definition before (x y : A) : Prop := (off x + sz x <= off y)%N.

  Lemma insert_before x l : Forall (placed x) l -> ForallOrdPairs before l -> ForallOrdPairs before (insert_by_key off x l).
  Proof.
    induction l as [|y l IH]; intros Hp Hl; cbn [insert_by_key]; [repeat constructor|].
    inversion Hp as [|? ? Hy Hpl]; subst. inversion Hl as [|? ? Hyl Hll]; subst.
    destruct (N.leb_spec (off x) (off y)) as [Hle|Hlt].
    - assert (before x y) as Hxy. { unfold placed, before in *. lia. }
      constructor; [|by constructor]. constructor; [done|]. rewrite List.Forall_forall in Hyl |- *. intros z Hz.
      specialize (Hyl z Hz). unfold before in *. lia.
    - constructor; [|by apply IH]. rewrite List.Forall_forall in Hyl |- *. intros z Hz.
      assert (z ∈ x :: l) as Hz'. { rewrite <- insert_by_key_perm. by apply elem_of_list_In. }
      apply elem_of_cons in Hz' as [->|Hz']; [|by apply Hyl, elem_of_list_In]. unfold placed, before in *. lia.
  Qed.
  Lemma sort_before l : ForallOrdPairs placed l -> ForallOrdPairs before (sort_by_key off l).
  Proof.
    induction l as [|x l IH]; intros Hl; [constructor|]. inversion Hl as [|? ? Hx Hll]; subst. cbn [sort_by_key].
    apply insert_before; [|by apply IH]. by rewrite sort_by_key_perm.
  Qed.
  (** the scan of a list in ascending order *)
  Lemma scan_ok (f : N -> A -> Outcome N) (size : N) l e :
    (forall e x, x ∈ l -> (e <= off x)%N -> f e x = Ret (off x + sz x)%N) ->
    (e <= size)%N -> Forall (fun x => e <= off x /\ off x + sz x <= size)%N l -> ForallOrdPairs before l ->
    exists e', fold_m f l e = Ret e' /\ (e' <= size)%N.
  Proof.
    revert e. induction l as [|x l IH]; intros e Hf He Hin Hb; [by exists e|].
    inversion Hin as [|? ? [Hx1 Hx2] Hl]; subst. inversion Hb as [|? ? Hxl Hbl]; subst. cbn [fold_m].
    rewrite Hf; [|left|done]. cbn [obind]. apply IH; [|done| |done].
    - intros e' y Hy. apply Hf. by right.
    - rewrite List.Forall_forall in Hl, Hxl |- *. intros y Hy. split; [apply (Hxl y Hy)|apply (Hl y Hy)].
  Qed.
End Sort.

Lemma sort_scan {A} (off sz : A -> N) (f : N -> A -> Outcome N) (size : N) l :
  (forall e x, x ∈ l -> (e <= off x)%N -> f e x = Ret (off x + sz x)%N) ->
  Forall (fun x => off x + sz x <= size)%N l -> ForallOrdPairs (placed off sz) l ->
  exists e', fold_m f (sort_by_key off l) 0%N = Ret e' /\ (e' <= size)%N.
Proof.
  intros Hf Hin Hp. apply (scan_ok off sz).
  - intros e x. rewrite (sort_by_key_perm off l). apply Hf.
  - lia.
  - rewrite sort_by_key_perm. eapply Forall_impl; [exact Hin|]. cbn. lia.
  - by apply sort_before.
Qed.

Lemma FOP_app {A} (R : A -> A -> Prop) l1 l2 :
  ForallOrdPairs R l1 -> ForallOrdPairs R l2 -> (forall x y, x ∈ l1 -> y ∈ l2 -> R x y) -> ForallOrdPairs R (l1 ++ l2).
Proof.
  intros H1 H2 H. induction H1 as [|x l1 Hx Hl IH]; [done|]. cbn. constructor.
  - apply Forall_app. split; [done|]. apply List.Forall_forall. intros y Hy. apply H; [left|by apply elem_of_list_In].
  - apply IH. intros a b Ha. apply H. by right.
Qed.
Lemma FOP_concat {A} (R : A -> A -> Prop) (ls : list (list A)) :
  Forall (ForallOrdPairs R) ls -> ForallOrdPairs (fun l1 l2 => forall x y, x ∈ l1 -> y ∈ l2 -> R x y) ls -> ForallOrdPairs R (concat ls).
Proof.
  induction ls as [|l ls IH]; intros Hl Ho; [constructor|]. inversion Hl; subst. inversion Ho as [|? ? Hh ?]; subst. cbn.
  apply FOP_app; [done|by apply IH|]. intros x y Hx Hy. apply elem_of_list_In, in_concat in Hy as (l' & Hl' & Hy).
  rewrite List.Forall_forall in Hh. apply (Hh l' Hl'); [done|by apply elem_of_list_In].
Qed.
Lemma FOP_map {A B} (R : B -> B -> Prop) (f : A -> B) l : ForallOrdPairs R (List.map f l) <-> ForallOrdPairs (fun x y => R (f x) (f y)) l.
Proof.
  induction l as [|x l IH]; cbn; split; intros H; try constructor; inversion H; subst.
  - by apply List.Forall_map.
  - by apply IH.
  - by apply List.Forall_map.
  - by apply IH.
Qed.
Lemma FOP_impl {A} (R R' : A -> A -> Prop) l : (forall x y, x ∈ l -> y ∈ l -> R x y -> R' x y) -> ForallOrdPairs R l -> ForallOrdPairs R' l.
Proof.
  intros H Ho. induction Ho as [|x l Hx Hl IH]; constructor.
  - rewrite List.Forall_forall in Hx |- *. intros y Hy. apply H; [left|right; by apply elem_of_list_In|by apply Hx].
  - apply IH. intros a b Ha Hb. apply H; by right.
Qed.

(** ** Cells *)

(** non-empty, apart ranges inside a type *)
Definition cells_fit (cs : list (Offset * Size)) (size : N) : Prop :=
  Forall (fun c => fst c + snd c <= size /\ 0 < snd c)%N cs /\ ForallOrdPairs (fun c d => apart c d) cs.

Lemma cells_fit_check cs size : cells_fit cs size -> check_cells (sort_by_key fst cs) size = Ret tt.
Proof.
  intros [Hf Hd]. unfold check_cells.
  destruct (sort_scan fst snd (fun last_end c => let! _ := ensure_wf (last_end <=? fst c)%N "LayoutStrategy: invalid cells" in
        Ret (fst c + snd c)%N) size cs) as (e & He & Hle).
  - intros e x _ He. rewrite (proj2 (N.leb_le _ _) He). done.
  - eapply Forall_impl; [exact Hf|]. cbn. lia.
  - eapply FOP_impl; [|exact Hd]. intros x y Hx Hy H. split; [exact H|]. rewrite List.Forall_forall in Hf.
    pose proof (Hf x ltac:(by apply elem_of_list_In)). pose proof (Hf y ltac:(by apply elem_of_list_In)). unfold apart in H. lia.
  - rewrite He. cbn [obind]. by rewrite (proj2 (N.leb_le _ _) Hle).
Qed.
Lemma cells_fit_nil size : cells_fit [] size.
Proof. split; constructor. Qed.
Lemma cells_fit_one size : size <> 0%N -> cells_fit [(0%N, size)] size.
Proof. intros H. split; repeat constructor; cbn; lia. Qed.

(** the cells of several parts *)
Lemma cells_fit_parts (parts : list (Offset * Size * list (Offset * Size))) size :
  Forall (fun p => let '(o, s, cs) := p in (o + s <= size)%N /\ cells_fit cs s) parts ->
  ForallOrdPairs (fun p q => apart (fst p) (fst q)) parts ->
  cells_fit (concat (List.map (fun p => let '(o, s, cs) := p in shift_cells o cs) parts)) size.
Proof.
  intros Hp Hd.
  assert (Hin : forall p c, In p parts -> c ∈ shift_cells (fst (fst p)) (snd p) ->
     (fst (fst p) <= fst c /\ fst c + snd c <= fst (fst p) + snd (fst p) /\ fst c + snd c <= size /\ 0 < snd c)%N).
  { intros [[o s] cs] c Hi Hc. rewrite List.Forall_forall in Hp. destruct (Hp _ Hi) as (Hs & Hf & _). cbn in *.
    apply elem_of_list_In, in_map_iff in Hc as ([a b] & <- & Hab). rewrite List.Forall_forall in Hf. specialize (Hf _ Hab). cbn in *. lia. }
  split.
  - apply List.Forall_forall. intros c Hc. apply in_concat in Hc as (l & Hl & Hc). apply in_map_iff in Hl as ([[o s] cs] & <- & Hi).
    pose proof (Hin _ c Hi ltac:(by apply elem_of_list_In)). cbn in *. lia.
  - apply FOP_concat.
    + apply List.Forall_map. rewrite List.Forall_forall in Hp |- *. intros [[o s] cs] Hi. destruct (Hp _ Hi) as (_ & _ & Hc).
      unfold shift_cells. rewrite FOP_map. eapply FOP_impl; [|exact Hc]. unfold apart. cbn. lia.
    + rewrite FOP_map. eapply FOP_impl; [|exact Hd]. intros [[o s] cs] [[o' s'] cs'] Hx Hy HD c d Hc Hd'.
      pose proof (Hin _ c (proj1 (elem_of_list_In _ _) Hx) Hc). pose proof (Hin _ d (proj1 (elem_of_list_In _ _) Hy) Hd').
      unfold apart in *. cbn in *. lia.
Qed.

Lemma cells_of_array elem n size :
  cells_fit (cells_in_sized_ty elem) (rs_size elem) -> size = (rs_size elem * n)%N ->
  cells_in_sized_ty elem = [] \/ (2 <= n)%N -> cells_fit (cells_in_sized_ty (RsArray elem n size)) size.
Proof.
  intros Hc Hs Hn. cbn [cells_in_sized_ty]. destruct (cells_in_sized_ty elem) as [|c cs] eqn:E; [apply cells_fit_nil|].
  destruct Hn as [|Hn]; [done|]. rewrite <- E in *.
  pose proof (cells_fit_parts [(0%N, rs_size elem, cells_in_sized_ty elem); (rs_size elem, rs_size elem, cells_in_sized_ty elem)] size) as H.
  cbn [List.map concat seq length] in H |- *. rewrite N.mul_0_r, N.mul_1_r. apply H.
  - repeat constructor; try (apply Hc); nia.
  - repeat constructor; cbn; lia.
Qed.

(** ** Fields *)
Lemma lookup_zip {A B} (l : list A) (k : list B) i x y : l !! i = Some x -> k !! i = Some y -> zip l k !! i = Some (x, y).
Proof. intros H1 H2. apply lookup_zip_with_Some. eauto. Qed.

(** a loop over the fields of a layout *)
Lemma fields_loop {B} (offs : list Offset) (tys : list RTy) (f : nat -> RTy -> Outcome B) (Q : RTy -> B -> Prop) :
  length offs = length tys -> (forall ty, ty ∈ tys -> yields (fun m => f m ty) (Q ty)) ->
  yields (fun m => map_m (fun i => let! o := unwrap (offs !! i) in let! ty := unwrap (tys !! i) in let! t := f m ty in Ret (o, t)) (seq 0 (length offs)))
    (fun fs => length fs = length tys /\ fs.*1 = offs /\ Forall2 Q tys fs.*2).
Proof.
  intros Hlen Hf.
  eapply yields_mono; [eapply (yields_map _ (fun i ft => exists o ty, offs !! i = Some o /\ tys !! i = Some ty /\ fst ft = o /\ Q ty (snd ft)))|].
  - intros i Hi. apply elem_of_seq in Hi.
    destruct (lookup_lt_is_Some_2 offs i ltac:(lia)) as [o Ho]. destruct (lookup_lt_is_Some_2 tys i ltac:(lia)) as [ty Hty].
    rewrite Ho, Hty. cbn [unwrap obind]. eapply yields_bind; [apply (Hf ty); by eapply elem_of_list_lookup_2|].
    cbn beta. intros t Ht. apply yields_ret. by exists o, ty.
  - cbn beta. intros fs HF. pose proof (Forall2_length _ _ _ HF) as Hl. rewrite seq_length in Hl.
    assert (Hall : forall i ft, fs !! i = Some ft -> exists o ty, offs !! i = Some o /\ tys !! i = Some ty /\ fst ft = o /\ Q ty (snd ft)).
    { intros i ft Hi. rewrite Forall2_lookup in HF. specialize (HF i). rewrite Hi in HF.
      inversion HF as [j ? Hj Hs|]; subst. symmetry in Hs. apply lookup_seq in Hs as [-> _]. exact Hj. }
    split; [lia|]. split.
    + apply list_eq. intros i. rewrite list_lookup_fmap. destruct (fs !! i) as [ft|] eqn:E; cbn.
      * destruct (Hall _ _ E) as (o & ty & Ho & _ & Hfo & _). by rewrite Ho, Hfo.
      * symmetry. apply lookup_ge_None_2. apply lookup_ge_None_1 in E. lia.
    + apply Forall2_lookup. intros i. rewrite list_lookup_fmap. destruct (fs !! i) as [ft|] eqn:E; cbn.
      * destruct (Hall _ _ E) as (o & ty & _ & Hty & _ & HQ). rewrite Hty. by constructor.
      * apply lookup_ge_None_1 in E. rewrite lookup_ge_None_2 by lia. constructor.
Qed.

Section Cells.
  Context (L : RTypes).
  Notation lsize := (lsize L).

  Lemma cell_tree_size r m t : cell_tree L m r = Ret t -> rs_size t = lsize r.
  Proof.
    destruct m as [|m]; [done|]. cbn [cell_tree]. destruct (ty_kind L r); try done; try (intros [= <-]; done);
      try (destruct is_unsafe_cell); try (intros [= <-]; done); try (intros H; apply obind_ret in H as (? & _ & [= <-]); done).
  Qed.

  Lemma fields_FOP offs tys size (P : Prop) : fields_ok L P offs tys size -> forall fs : list (Offset * RsTy),
    fs.*1 = offs -> Forall2 (fun ty t => rs_size t = lsize ty) tys fs.*2 ->
    Forall (fun f => fst f + rs_size (snd f) <= size)%N fs /\
    ForallOrdPairs (fun f g => apart (fst f, rs_size (snd f)) (fst g, rs_size (snd g))) fs.
  Proof.
    intros (Hlen & Hfit & Hd) fs E HF.
    assert (Ez : zip offs (List.map lsize tys) = List.map (fun f => (fst f, rs_size (snd f))) fs).
    { subst offs. revert HF. clear. revert tys. induction fs as [|[o t] fs IH]; intros tys HF; [done|].
      cbn in HF. inversion HF as [|ty ? tys' ? H1 H2]; subst. cbn. rewrite H1. f_equal. by apply IH. }
    rewrite Ez in Hfit, Hd. split.
    - by rewrite List.Forall_map in Hfit.
    - rewrite FOP_map in Hd. eapply FOP_impl; [|exact Hd]. cbn beta. intros x y _ _ [H _]. exact H.
  Qed.

  Lemma cells_yield r : cells_ok L True r ->
    yields (fun m => cell_tree L m r) (fun t => rs_size t = lsize r /\ cells_fit (cells_in_sized_ty t) (lsize r) /\
                                                 (cell_free L r -> cells_in_sized_ty t = [])).
  Proof.
    intros H. induction H as [r Hk|r it Hk|r p Hk|r mu p Hk|r p Hk|r inner Hk Hn|r tys Hk Hs|r tys Hk Hs|r dty vs Hk Hs|r tys Hk Hf _ IH|r e n Hk Hs _ IH Hc];
      apply yields_S; cbn [cell_tree]; try (rewrite Hk).
    - assert (E : forall A (x y : A), match ty_kind L r with
        | RkBool | RkInt _ | RkChar | RkRawPtr _ | RkRef _ _ | RkBox _ | RkFnPtr | RkFnDef | RkNever => x | _ => y end = x).
      { intros A x y. repeat (apply elem_of_cons in Hk as [->|Hk]; [done|]). by apply elem_of_nil in Hk. }
      eapply yields_ext with (f := fun _ => Ret (RsPlain (lsize r))).
      + intros m. repeat (apply elem_of_cons in Hk as [->|Hk]; [done|]). by apply elem_of_nil in Hk.
      + apply yields_ret. split; [done|]. split; [apply cells_fit_nil|done].
    - apply yields_ret. split; [done|]. split; [apply cells_fit_nil|done].
    - apply yields_ret. split; [done|]. split; [apply cells_fit_nil|done].
    - apply yields_ret. split; [done|]. split; [apply cells_fit_nil|done].
    - apply yields_ret. split; [done|]. split; [apply cells_fit_nil|done].
    - by destruct Hn.
    - apply yields_ret. split; [done|]. split; [by apply cells_fit_one, Hs|]. intros Hc. inversion Hc; try congruence.
      + match goal with H : ty_kind L r ∈ _ |- _ => rewrite Hk in H; repeat (apply elem_of_cons in H as [H|H]; [done|]); by apply elem_of_nil in H end.
      + match goal with H : _ \/ _ |- _ => destruct H as [H|[H|H]]; congruence end.
    - apply yields_ret. split; [done|]. cbn [cells_in_sized_ty]. destruct (ty_freeze L r) eqn:E; [split; [apply cells_fit_nil|done]|].
      split. { apply cells_fit_one. destruct (Hs I); [done|]. done. }
      intros Hc. inversion Hc; try congruence.
      + match goal with H : ty_kind L r ∈ _ |- _ => rewrite Hk in H; repeat (apply elem_of_cons in H as [H|H]; [done|]); by apply elem_of_nil in H end.
      + match goal with H : _ \/ _ |- _ => destruct H as [H|[H|H]]; congruence end.
    - apply yields_ret. split; [done|]. cbn [cells_in_sized_ty]. destruct (ty_freeze L r) eqn:E; [split; [apply cells_fit_nil|done]|].
      split. { apply cells_fit_one. destruct (Hs I); [done|]. done. }
      intros Hc. inversion Hc; try congruence.
      + match goal with H : ty_kind L r ∈ _ |- _ => rewrite Hk in H; repeat (apply elem_of_cons in H as [H|H]; [done|]); by apply elem_of_nil in H end.
      + match goal with H : _ \/ _ |- _ => destruct H as [H|[H|H]]; congruence end.
    - eapply yields_ext with (f := fun m => let! fs := map_m (fun i =>
              let! o := unwrap (rl_offsets (ty_layout L r) !! i) in
              let! ty := unwrap (tys !! i) in
              let! t := cell_tree L m ty in
              Ret (o, t)) (seq 0 (length (rl_offsets (ty_layout L r)))) in
          Ret (RsFields fs (lsize r))).
      { intros m. destruct Hk as [-> |[-> | ->]]; done. }
      eapply yields_bind; [apply (fields_loop _ tys (cell_tree L)); [apply Hf|exact IH]|].
      cbn beta. intros fs (Hl & E1 & HF). apply yields_ret. split; [done|].
      assert (HF' : Forall2 (fun ty t => rs_size t = lsize ty) tys fs.*2).
      { eapply Forall2_impl; [exact HF|]. by intros ty t (? & _). }
      destruct (fields_FOP _ _ _ _ Hf fs E1 HF') as [Hfit Hd].
      split.
      + cbn [cells_in_sized_ty].
        pose proof (cells_fit_parts (List.map (fun f => (fst f, rs_size (snd f), cells_in_sized_ty (snd f))) fs) (lsize r)) as HP.
        rewrite List.map_map in HP. cbn beta iota in HP. apply HP.
        * apply List.Forall_map. apply List.Forall_forall. intros [o t] Hi. cbn. rewrite List.Forall_forall in Hfit. split; [apply (Hfit _ Hi)|].
          apply elem_of_list_In, elem_of_list_lookup in Hi as [i Hi]. rewrite Forall2_lookup in HF. specialize (HF i).
          rewrite list_lookup_fmap, Hi in HF. cbn in HF. inversion HF as [ty ? (Hsz & Hcf & _)|]; subst. by rewrite Hsz.
        * rewrite FOP_map. eapply FOP_impl; [|exact Hd]. by intros x y _ _.
      + intros Hc. assert (Hall : forall ty, ty ∈ tys -> cell_free L ty).
        { inversion Hc; try (destruct Hk as [Hk|[Hk|Hk]]; congruence).
          - match goal with H : ty_kind L r ∈ _ |- _ => destruct Hk as [Hk|[Hk|Hk]]; rewrite Hk in H;
              repeat (apply elem_of_cons in H as [H|H]; [done|]); by apply elem_of_nil in H end.
          - match goal with H : ty_kind L r = RkTuple ?x \/ _ |- _ => assert (x = tys) as -> by (destruct H as [H|[H|H]], Hk as [Hk|[Hk|Hk]]; congruence) end. done. }
        cbn [cells_in_sized_ty]. apply List.concat_nil_Forall. apply List.Forall_map. apply List.Forall_forall. intros [o t] Hi. cbn.
        apply elem_of_list_In, elem_of_list_lookup in Hi as [i Hi]. rewrite Forall2_lookup in HF. specialize (HF i).
        rewrite list_lookup_fmap, Hi in HF. cbn in HF. inversion HF as [ty ? (_ & _ & Hcf) Ety|]; subst.
        rewrite Hcf; [done|]. apply Hall. by eapply elem_of_list_lookup_2.
    - eapply yields_bind; [exact IH|]. cbn beta. intros t (Hsz & Hfit & Hcf). apply yields_ret. split; [done|].
      rewrite <- Hsz in Hfit. split.
      + apply cells_of_array; [done|by rewrite Hsz|]. destruct (Hc I) as [Hc'|Hc']; [left; by apply Hcf|by right].
      + intros Hr. cbn [cells_in_sized_ty]. rewrite Hcf; [done|]. inversion Hr; try congruence.
        * match goal with H : ty_kind L r ∈ _ |- _ => rewrite Hk in H; repeat (apply elem_of_cons in H as [H|H]; [done|]); by apply elem_of_nil in H end.
        * match goal with H : _ \/ _ |- _ => destruct H as [H|[H|H]]; congruence end.
  Qed.
End Cells.

(** ** Tag values *)
Section Tag.
  Context (it : IntType) (Hit : rust_int it).
  Notation M := (tag_values it).

  Lemma rust_int_nz : it_size it <> 0%N.
  Proof. intros E. red in Hit. rewrite E in Hit. repeat (apply elem_of_cons in Hit as [Hit|Hit]; [done|]). by apply elem_of_nil in Hit. Qed.
  Lemma rust_int_pow2 : is_power_of_two (it_size it) = true.
  Proof. red in Hit. repeat (apply elem_of_cons in Hit as [->|Hit]; [done|]). by apply elem_of_nil in Hit. Qed.
  Lemma tag_half : exists H, M = 2 * H /\ 0 < H /\ 2 ^ (size_bits (it_size it) - 1) = H.
  Proof.
    exists (2 ^ (size_bits (it_size it) - 1)). pose proof rust_int_nz as Hn. split; [|split; [by apply half_pos|done]].
    unfold tag_values. rewrite <- size_bits_half by done. done.
  Qed.
  Lemma tag_bounds z : can_represent it z = true <->
    match it_signed it with Unsigned => 0 <= z < M | Signed => - M <= 2 * z < M end.
  Proof.
    destruct tag_half as (H & EM & HH & EH). unfold can_represent, in_bounds. rewrite (proj2 (N.eqb_neq _ _) rust_int_nz).
    destruct (it_signed it); rewrite andb_true_iff, Z.leb_le, Z.ltb_lt.
    - rewrite EH, EM. lia.
    - unfold size_bits. fold M. lia.
  Qed.
  Lemma bits_value b : 0 <= b < M -> int_from_bits b it =
    match it_signed it with Unsigned => b | Signed => if 2 * b <? M then b else b - M end.
  Proof. intros Hb. unfold int_from_bits. fold M. rewrite Z.mod_small by done. done. Qed.
  Lemma value_bits z : can_represent it z = true -> z mod M = if 0 <=? z then z else z + M.
  Proof.
    rewrite tag_bounds. destruct tag_half as (H & EM & HH & _). intros Hz. destruct (Z.leb_spec 0 z).
    - apply Z.mod_small. destruct (it_signed it); lia.
    - replace (z mod M) with ((z + 1 * M) mod M) by (apply Z.mod_add; lia). rewrite Z.mul_1_l. apply Z.mod_small. destruct (it_signed it); lia.
  Qed.
  Lemma bits_in b : can_represent it (int_from_bits b it) = true.
  Proof. apply int_from_bits_fits, rust_int_nz. Qed.
  Lemma bits_mod b : int_from_bits b it mod M = b mod M.
  Proof.
    destruct tag_half as (H & EM & HH & _). unfold int_from_bits. fold M. destruct (it_signed it); [|apply Z.mod_mod; lia].
    destruct (2 * (b mod M) <? M); [apply Z.mod_mod; lia|]. rewrite <- (Z.mod_add _ 1) by lia. rewrite Z.mul_1_l, Z.sub_add. apply Z.mod_mod. lia.
  Qed.
  Lemma value_unique z w : can_represent it z = true -> can_represent it w = true -> z mod M = w mod M -> z = w.
  Proof. apply in_bounds_unique. Qed.
  Lemma bits_id z : can_represent it z = true -> int_from_bits z it = z.
  Proof. intros Hz. apply value_unique; [apply bits_in|done|apply bits_mod]. Qed.

  (** a range of bits as a range of values *)
  Lemma range_values s e z : 0 <= s < M -> 0 <= e < M -> can_represent it z = true ->
    let S := int_from_bits s it in let E := int_from_bits e it in
    wrapping_range s e (z mod M) <-> if S <=? E then S <= z <= E else z <= E \/ S <= z.
  Proof.
    intros Hs He Hz. cbv zeta. rewrite value_bits by done. rewrite !bits_value by done. apply tag_bounds in Hz.
    destruct tag_half as (H & EM & HH & _). rewrite EM in *. clear EM. unfold wrapping_range.
    destruct (it_signed it).
    - destruct (Z.ltb_spec (2 * s) (2 * H)), (Z.ltb_spec (2 * e) (2 * H)), (Z.leb_spec 0 z);
      repeat match goal with |- context [?a <=? ?b] => destruct (Z.leb_spec a b) end; lia.
    - destruct (Z.leb_spec 0 z); destruct (Z.leb_spec s e); lia.
  Qed.
End Tag.

(** ** Layout checks *)
Section Layouts.
  Notation T := x86_64.
  Context (ht : TraitName -> bool).
  Notation wf t := (ty_check_wf T ht t = Ret tt).

  Lemma align_bytes_inj a b : align_bytes a = align_bytes b -> a = b.
  Proof.
    intros H. destruct (align_le_bytes a b) as [_ H1], (align_le_bytes b a) as [_ H2]. rewrite H in H1, H2.
    specialize (H1 ltac:(lia)). specialize (H2 ltac:(lia)). destruct a as [x], b as [y]. unfold align_le in *. cbn in *. f_equal. lia.
  Qed.

  Lemma final_sized t s a : layout T t = Ret (LSized s a) -> ty_meta_kind t = MKNone -> valid_size T s = true -> (s mod align_bytes a = 0)%N ->
    final_check_wf T ht t = Ret tt.
  Proof.
    intros Hl Hm Hv Ha. unfold final_check_wf. rewrite Hl. cbn [obind layout_check_wf layout_check_aligned]. rewrite Hv, Ha, Hm. done.
  Qed.
  Lemma tuple_layout fields s a : (s mod align_bytes a = 0)%N -> layout T (b_tuple_ty fields s a) = Ret (LSized s a).
  Proof. intros Ha. unfold b_tuple_ty. cbn. by rewrite align_to_id. Qed.

  Lemma b_tuple_wf fields s a :
    Forall (fun f => wf (snd f) /\ sized T (snd f) /\ (fst f + tsize T (snd f) <= s)%N) fields ->
    ForallOrdPairs (placed fst (fun f => tsize T (snd f))) fields ->
    valid_size T s = true -> (s mod align_bytes a = 0)%N -> wf (b_tuple_ty fields s a).
  Proof.
    intros Hf Hp Hv Ha. unfold b_tuple_ty. cbn [ty_check_wf].
    set (checked := List.map (fun f => (fst f, (ty_check_wf T ht (snd f), snd f))) fields).
    set (step := fun (last_end : N) (f : N * (Outcome unit * Ty)) => _).
    destruct (sort_scan fst (fun f => tsize T (snd (snd f))) step s checked) as (e & He & Hle).
    - intros e x Hx Hex. unfold checked in Hx. apply elem_of_list_In, in_map_iff in Hx as (f & <- & Hi).
      rewrite List.Forall_forall in Hf. destruct (Hf _ Hi) as (Hw & Hs & _). cbn [fst snd] in *. unfold step. cbn [fst snd].
      rewrite Hw. cbn [obind]. rewrite (proj2 (N.leb_le _ _) Hex). cbn [ensure_wf obind]. rewrite (sized_layout T _ Hs). done.
    - unfold checked. apply List.Forall_map. eapply Forall_impl; [exact Hf|]. cbn. intros f (_ & _ & ?). done.
    - unfold checked. rewrite FOP_map. eapply FOP_impl; [|exact Hp]. by intros.
    - rewrite He. cbn [obind]. unfold head_check_wf. cbn [th_end th_packed th_align]. rewrite Hv. cbn [ensure_wf obind].
      rewrite (proj2 (N.leb_le _ _) Hle). cbn [ensure_wf obind]. eapply final_sized; [by apply tuple_layout|done|done|done].
  Qed.

  Lemma for_each_idx_ok {A} (f : nat -> A -> Outcome unit) i l :
    (forall j x, l !! j = Some x -> f (i + j)%nat x = Ret tt) -> for_each_idx f i l = Ret tt.
  Proof.
    revert i. induction l as [|y l IH]; intros i H; [done|]. cbn. rewrite <- (Nat.add_0_r i), (H 0%nat y eq_refl). cbn. rewrite Nat.add_0_r.
    apply IH. intros j x Hj. replace (S i + j)%nat with (i + S j)%nat by lia. by apply H.
  Qed.
  Definition branch_apart (b c : (Z * Z) * Discriminator) : Prop := snd (fst b) <= fst (fst c) \/ snd (fst c) <= fst (fst b).
  Lemma FOP_lookup {A} (R : A -> A -> Prop) l i j x y : ForallOrdPairs R l -> (i < j)%nat -> l !! i = Some x -> l !! j = Some y -> R x y.
  Proof.
    intros H. revert i j. induction H as [|z l Hz Hl IH]; intros i j Hij Hi Hj; [done|]. destruct j as [|j]; [lia|]. cbn in Hj.
    destruct i as [|i]; cbn in Hi; [|eapply IH; [|exact Hi|exact Hj]; lia]. injection Hi as ->. rewrite List.Forall_forall in Hz.
    apply Hz, elem_of_list_In. by eapply elem_of_list_lookup_2.
  Qed.
  Lemma branch_wf size (vs : list (Z * (Ty * Tagger))) off it fb br :
    is_power_of_two (it_size it) = true -> (off + it_size it <= size)%N -> discr_check_wf size vs fb = Ret tt ->
    Forall (fun c => can_represent it (fst (fst c)) = true /\ can_represent it (snd (fst c) - 1) = true /\ fst (fst c) < snd (fst c) /\
                     discr_check_wf size vs (snd c) = Ret tt) br ->
    ForallOrdPairs branch_apart br -> discr_check_wf size vs (DBranch off it fb br) = Ret tt.
  Proof.
    intros Hp Ho Hfb Hbr Ha. cbn [discr_check_wf]. unfold inttype_check_wf. rewrite Hp. cbn [ensure_wf obind].
    rewrite (proj2 (N.leb_le _ _) Ho). cbn [ensure_wf obind]. rewrite Hfb. cbn [obind]. apply for_each_idx_ok.
    intros j c Hj. cbn [Nat.add]. rewrite List.Forall_forall in Hbr. destruct (Hbr c) as (H1 & H2 & H3 & H4).
    { apply elem_of_list_In. by eapply elem_of_list_lookup_2. }
    cbn zeta. rewrite H1. cbn [ensure_wf obind]. rewrite H2. cbn [ensure_wf obind]. rewrite (proj2 (Z.ltb_lt _ _) H3). cbn [ensure_wf obind].
    assert (ranges_disjoint j (fst (fst c)) (snd (fst c)) br = true) as ->; [|done].
    unfold ranges_disjoint. apply forallb_forall. intros [k [s e]] Hk. apply elem_of_list_In, elem_of_list_lookup in Hk as [n Hn].
    apply lookup_zip_with_Some in Hn as (k' & [s' e'] & [= -> -> ->] & Hk' & Hse). apply lookup_seq in Hk' as [-> Hlt]. cbn [Nat.add] in *.
    change (List.map fst br) with (fst <$> br) in Hse. rewrite list_lookup_fmap in Hse. destruct (br !! n) as [d|] eqn:Hd; [|done]. cbn in Hse. injection Hse as Hse.
    destruct (Nat.eqb_spec j n) as [->|Hne]; [by rewrite !orb_true_r|]. rewrite orb_false_r. apply orb_true_iff. rewrite !Z.leb_le.
    assert (branch_apart c d \/ branch_apart d c) as Hcd.
    { destruct (Nat.lt_trichotomy j n) as [Hl|[Hl|Hl]]; [left; by eapply FOP_lookup|lia|right; by eapply FOP_lookup]. }
    unfold branch_apart in Hcd. rewrite Hse in Hcd. cbn in Hcd. lia.
  Qed.
  Lemma find_child_in {R} (f : Discriminator -> R) z br r c :
    ForallOrdPairs branch_apart br -> In (r, c) br -> in_range z r = true -> find_child f z br = Some (f c).
  Proof.
    intros Ha Hi Hz. induction Ha as [|[r' c'] l Hx Hl IH]; [done|]. cbn [find_child]. destruct Hi as [[= -> ->]|Hi]; [by rewrite Hz|].
    destruct (in_range z r') eqn:E; [|by apply IH]. exfalso. rewrite List.Forall_forall in Hx. specialize (Hx _ Hi).
    unfold branch_apart, in_range in *. cbn in *. lia.
  Qed.
  Lemma find_child_none {R} (f : Discriminator -> R) z br : (forall r c, In (r, c) br -> in_range z r = false) -> find_child f z br = None.
  Proof.
    induction br as [|[r c] br IH]; intros H; [done|]. cbn [find_child]. rewrite (H r c) by (by left). apply IH. intros ? ? ?. eapply H. by right.
  Qed.
  Lemma map_insert_fresh {K V} `{EqDecision K} (m : list (K * V)) k v : ~ In k (List.map fst m) -> map_insert m k v = m ++ [(k, v)].
  Proof.
    induction m as [|[k' v'] m IH]; intros H; [done|]. cbn in H |- *. rewrite bool_decide_eq_false_2 by tauto. rewrite IH by tauto. done.
  Qed.
End Layouts.

(** ** Fields of tuples and variants *)
Section Variants.
  Notation T := x86_64.
  Context (L : RTypes) (ht : TraitName -> bool).
  Notation wf t := (ty_check_wf T ht t = Ret tt).
  Notation lsize := (lsize L).
  Notation lalign := (lalign L).

  (** a translated sized type *)
  Definition fty_ok (ty : RTy) (t : Ty) : Prop := wf t /\ layout T t = Ret (LSized (lsize ty) (lalign ty)).
  Definition trans := nat -> RTy -> Outcome Ty.
  Definition ftr (tr : trans) (ty : RTy) (t : Ty) : Prop := fty_ok ty t /\ enough (fun m => tr m ty) t.
  Lemma ftr_all tr tys ts : Forall2 (ftr tr) tys ts -> Forall2 fty_ok tys ts.
  Proof. intros H. eapply Forall2_impl; [exact H|]. by intros ? ? [? _]. Qed.

  Lemma fty_sized ty t : fty_ok ty t -> sized T t /\ tsize T t = lsize ty.
  Proof.
    intros [_ H]. split; [by exists (lsize ty), (lalign ty)|]. apply size_of_tsize. unfold size_of. by rewrite H.
  Qed.

  Lemma fields_collect {B} (offs : list Offset) (tys : list RTy) (Q : RTy -> B -> Prop) fs :
    length offs = length tys -> length fs = length tys ->
    (forall i ft, fs !! i = Some ft -> exists o ty, offs !! i = Some o /\ tys !! i = Some ty /\ fst ft = o /\ Q ty (snd ft)) ->
    fs.*1 = offs /\ Forall2 Q tys fs.*2.
  Proof.
    intros Hlen Hl Hall. split.
    - apply list_eq. intros i. rewrite list_lookup_fmap. destruct (fs !! i) as [ft|] eqn:E; cbn.
      * destruct (Hall _ _ E) as (o & ty & Ho & _ & Hfo & _). by rewrite Ho, Hfo.
      * symmetry. apply lookup_ge_None_2. apply lookup_ge_None_1 in E. lia.
    - apply Forall2_lookup. intros i. rewrite list_lookup_fmap. destruct (fs !! i) as [ft|] eqn:E; cbn.
      * destruct (Hall _ _ E) as (o & ty & _ & Hty & _ & HQ). rewrite Hty. by constructor.
      * apply lookup_ge_None_1 in E. rewrite lookup_ge_None_2 by lia. constructor.
  Qed.

  Lemma enumerate_lookup {A} (l : list A) i x : enumerate l !! i = Some x <-> l !! i = Some (snd x) /\ fst x = i.
  Proof.
    unfold enumerate. rewrite lookup_zip_with_Some. split.
    - intros (j & y & -> & Hj & Hy). apply lookup_seq in Hj as [-> _]. done.
    - intros [Hx Hi]. exists i, (snd x). split; [destruct x; cbn in *; by subst|]. split; [|done]. apply lookup_seq. split; [done|].
      by eapply lookup_lt_Some.
  Qed.
  Lemma enumerate_length {A} (l : list A) : length (enumerate l) = length l.
  Proof. unfold enumerate. rewrite zip_with_length, seq_length. lia. Qed.

  Lemma fields_some (tr : trans) offs tys : length offs = length tys ->
    (forall ty, ty ∈ tys -> yields (fun m => tr m ty) (fty_ok ty)) ->
    yields (fun m => variant_fields (tr m) (Some offs) tys) (fun fs => fs.*1 = offs /\ Forall2 (ftr tr) tys fs.*2).
  Proof.
    intros Hlen Htr. unfold variant_fields.
    eapply yields_mono; [apply (yields_map (fun m x => let '(i, ty) := x in let! t := tr m ty in let! o := unwrap (offs !! i) in Ret (o, t))
      (fun x ft => offs !! fst x = Some (fst ft) /\ ftr tr (snd x) (snd ft)))|].
    - intros [i ty] Hx. apply elem_of_list_lookup in Hx as [j Hj]. apply enumerate_lookup in Hj as [Hty Hi]. cbn in Hty, Hi. subst j.
      eapply yields_bind; [apply yields_self, Htr; by eapply elem_of_list_lookup_2|]. cbn beta. intros t Ht.
      destruct (lookup_lt_is_Some_2 offs i) as [o Ho]; [rewrite Hlen; by eapply lookup_lt_Some|]. rewrite Ho. cbn.
      apply yields_ret. done.
    - cbn beta. intros fs HF. pose proof (Forall2_length _ _ _ HF) as Hl. rewrite enumerate_length in Hl.
      apply fields_collect; [done|done|]. intros i ft Hi. rewrite Forall2_lookup in HF. specialize (HF i). rewrite Hi in HF.
      inversion HF as [x ? [H1 H2] Hx|]; subst. symmetry in Hx. apply enumerate_lookup in Hx as [Hty <-]. by exists (fst ft), (snd x).
  Qed.
  Lemma fields_none (tr : trans) tys :
    (forall ty, ty ∈ tys -> yields (fun m => tr m ty) (fty_ok ty)) -> (forall ty, ty ∈ tys -> lsize ty = 0%N) ->
    yields (fun m => variant_fields (tr m) None tys) (fun fs => fs.*1 = replicate (length tys) 0%N /\ Forall2 (ftr tr) tys fs.*2).
  Proof.
    intros Htr Hz. unfold variant_fields.
    eapply yields_mono; [apply (yields_map (fun m x => let '(i, ty) := x in let! t := tr m ty in
        let! o := (let! s := size_of T t in let! _ := assert_ (s =? 0)%N in Ret 0%N) in Ret (o, t))
      (fun x ft => fst ft = 0%N /\ ftr tr (snd x) (snd ft)))|].
    - intros [i ty] Hx. apply elem_of_list_lookup in Hx as [j Hj]. apply enumerate_lookup in Hj as [Hty Hi]. cbn in Hty, Hi. subst j.
      assert (ty ∈ tys) as Hin by (by eapply elem_of_list_lookup_2).
      eapply yields_bind; [by apply yields_self, Htr|]. cbn beta. intros t Ht. pose proof Ht as [[_ Hl] _]. unfold size_of. rewrite Hl. cbn [obind expect_size].
      rewrite (Hz ty Hin). apply yields_ret. done.
    - cbn beta. intros fs HF. pose proof (Forall2_length _ _ _ HF) as Hl. rewrite enumerate_length in Hl.
      apply fields_collect; [by rewrite replicate_length|done|]. intros i ft Hi. rewrite Forall2_lookup in HF. specialize (HF i). rewrite Hi in HF.
      inversion HF as [x ? [H1 H2] Hx|]; subst. symmetry in Hx. apply enumerate_lookup in Hx as [Hty <-].
      exists 0%N, (snd x). split; [apply lookup_replicate; split; [done|by eapply lookup_lt_Some]|]. done.
  Qed.
  Lemma fields_layout (tr : trans) (l : RLayout) tys : length (rl_offsets l) = length tys ->
    (forall ty, ty ∈ tys -> yields (fun m => tr m ty) (fty_ok ty)) ->
    yields (fun m => tuple_from_layout (tr m) l tys)
      (fun t => exists fs, t = b_tuple_ty fs (rl_size l) (rl_align l) /\ fs.*1 = rl_offsets l /\ Forall2 (ftr tr) tys fs.*2).
  Proof.
    intros Hlen Htr. unfold tuple_from_layout. eapply yields_bind.
    - apply (yields_map (fun m i => let! ty := unwrap (tys !! i) in let! t := tr m ty in let! o := unwrap (rl_offsets l !! i) in Ret (o, t))
        (fun i ft => exists ty, tys !! i = Some ty /\ rl_offsets l !! i = Some (fst ft) /\ ftr tr ty (snd ft))).
      intros i Hi. apply elem_of_seq in Hi. destruct (lookup_lt_is_Some_2 tys i) as [ty Hty]; [lia|]. rewrite Hty. cbn [unwrap obind].
      eapply yields_bind; [apply yields_self, Htr; by eapply elem_of_list_lookup_2|]. cbn beta. intros t Ht.
      destruct (lookup_lt_is_Some_2 (rl_offsets l) i) as [o Ho]; [lia|]. rewrite Ho. cbn. apply yields_ret. by exists ty.
    - cbn beta. intros fs HF. pose proof (Forall2_length _ _ _ HF) as Hl. rewrite seq_length in Hl.
      apply yields_ret. exists fs. split; [done|]. apply fields_collect; [done|lia|]. intros i ft Hi. rewrite Forall2_lookup in HF. specialize (HF i). rewrite Hi in HF.
      inversion HF as [x ? (ty & H1 & H2 & H3) Hx|]; subst. symmetry in Hx. apply lookup_seq in Hx as [-> _]. by exists (fst ft), ty.
  Qed.

  (** the tuple of the fields *)
  Lemma fields_zip tys (fs : list (Offset * Ty)) : Forall2 fty_ok tys fs.*2 ->
    zip fs.*1 (List.map lsize tys) = List.map (fun f => (fst f, tsize T (snd f))) fs.
  Proof.
    revert tys. induction fs as [|[o t] fs IH]; intros tys HF; cbn in HF; [done|].
    inversion HF as [|ty ? tys' ? H1 H2]; subst. cbn. rewrite (proj2 (fty_sized _ _ H1)). f_equal. by apply IH.
  Qed.
  Lemma fields_tuple_wf fs tys s a :
    Forall2 fty_ok tys fs.*2 -> Forall (fun f => fst f + snd f <= s)%N (zip fs.*1 (List.map lsize tys)) ->
    ForallOrdPairs (fun f g => apart f g /\ (fst f = fst g -> snd f = 0%N)) (zip fs.*1 (List.map lsize tys)) ->
    valid_size T s = true -> (s mod align_bytes a = 0)%N -> wf (b_tuple_ty fs s a).
  Proof.
    intros HF Hin Hd Hv Ha. rewrite (fields_zip _ _ HF) in Hin, Hd. rewrite FOP_map in Hd. rewrite List.Forall_map in Hin.
    apply b_tuple_wf; [|done|done|done]. apply List.Forall_forall. intros f Hf. rewrite List.Forall_forall in Hin. specialize (Hin _ Hf).
    apply elem_of_list_In, elem_of_list_lookup in Hf as [i Hi]. rewrite Forall2_lookup in HF. specialize (HF i). rewrite list_lookup_fmap, Hi in HF.
    inversion HF as [ty ? H1|]; subst. split; [apply H1|]. split; [by eapply fty_sized|exact Hin].
  Qed.
  Lemma fields_ok_wf offs fs tys s a :
    fields_ok L True offs tys s -> fs.*1 = offs -> Forall2 fty_ok tys fs.*2 -> valid_size T s = true -> (s mod align_bytes a = 0)%N ->
    wf (b_tuple_ty fs s a).
  Proof.
    intros (_ & Hin & Hd) <- HF. apply fields_tuple_wf with (tys := tys); [done|done|]. eapply FOP_impl; [|exact Hd]. cbn beta. intros x y _ _ [H1 H2]. auto.
  Qed.
  Lemma fields_zero_wf fs tys s a :
    fs.*1 = replicate (length tys) 0%N -> Forall2 fty_ok tys fs.*2 -> (forall ty, ty ∈ tys -> lsize ty = 0%N) ->
    valid_size T s = true -> (s mod align_bytes a = 0)%N -> wf (b_tuple_ty fs s a).
  Proof.
    intros E HF Hz. assert (G : forall f, f ∈ zip fs.*1 (List.map lsize tys) -> f = (0%N, 0%N)).
    { intros f Hf. apply elem_of_list_lookup in Hf as [i Hi]. apply lookup_zip_with_Some in Hi as (o & sz & -> & Ho & Hs). rewrite E in Ho.
      apply lookup_replicate in Ho as [-> _]. change (List.map lsize tys) with (lsize <$> tys) in Hs. rewrite list_lookup_fmap in Hs.
      destruct (tys !! i) as [ty|] eqn:Ety; [|done]. cbn in Hs. injection Hs as <-. rewrite Hz; [done|]. by eapply elem_of_list_lookup_2. }
    apply fields_tuple_wf with (tys := tys); [done| |].
    - apply List.Forall_forall. intros f Hf%elem_of_list_In%G. subst f. cbn. lia.
    - generalize G. generalize (zip fs.*1 (List.map lsize tys)). clear. intros l. induction l as [|x l IH]; intros G; constructor.
      + apply List.Forall_forall. intros y Hy. rewrite (G x) by left. rewrite (G y) by (right; by apply elem_of_list_In). split; [left; cbn; lia|done].
      + apply IH. intros f Hf. apply G. by right.
  Qed.
End Variants.

(** ** Loops that insert into maps *)
Lemma fold_m_ext {A B} (f g : B -> A -> Outcome B) l b : (forall b x, f b x = g b x) -> fold_m f l b = fold_m g l b.
Proof. intros E. revert b. induction l as [|x l IH]; intros b; [done|]. cbn. rewrite E. destruct (g b x); cbn; auto. Qed.
Lemma fold_yield {X A F} (f : nat -> X -> Outcome F) (g : X -> F -> A -> A) (Q : X -> F -> Prop) xs acc :
  (forall x, x ∈ xs -> yields (fun m => f m x) (Q x)) ->
  yields (fun m => fold_m (fun acc x => let! fl := f m x in Ret (g x fl acc)) xs acc)
    (fun r => exists fls, Forall2 Q xs fls /\ r = fold_left (fun a xf => g (fst xf) (snd xf) a) (zip xs fls) acc).
Proof.
  revert acc. induction xs as [|x xs IH]; intros acc H; cbn [fold_m].
  { apply yields_ret. exists []. split; [constructor|done]. }
  eapply yields_ext with (f := fun m => let! fl := f m x in fold_m (fun acc x => let! fl := f m x in Ret (g x fl acc)) xs (g x fl acc)).
  { intros m. destruct (f m x); done. }
  eapply yields_bind; [apply H; left|]. cbn beta. intros fl Hfl.
  eapply yields_mono; [apply IH; intros y Hy; apply H; by right|]. cbn beta. intros r (fls & HF & ->). exists (fl :: fls). split; [by constructor|done].
Qed.

Section Inserts.
  Context {X K1 V1 K2 V2 : Type} `{EqDecision K1} `{EqDecision K2}.
  Context (kv : X -> K1 * V1) (b : X -> option (K2 * V2)).
  Definition insert2 (a : list (K1 * V1) * list (K2 * V2)) (x : X) : list (K1 * V1) * list (K2 * V2) :=
    (map_insert (fst a) (fst (kv x)) (snd (kv x)), match b x with Some kv => map_insert (snd a) (fst kv) (snd kv) | None => snd a end).
  Lemma fold_insert2 xs a : NoDup (List.map fst (fst a) ++ List.map (fun x => fst (kv x)) xs) ->
    NoDup (List.map fst (snd a) ++ List.map fst (omap b xs)) ->
    fold_left insert2 xs a = (fst a ++ List.map kv xs, snd a ++ omap b xs).
  Proof.
    revert a. induction xs as [|x xs IH]; intros [m1 m2] H1 H2; cbn [fold_left List.map fst snd].
    { cbn. by rewrite !app_nil_r. }
    cbn in H1. assert (Hf : ~ In (fst (kv x)) (List.map fst m1)).
    { intros Hin. apply NoDup_app in H1 as (_ & H1 & _). apply (H1 (fst (kv x))); [by apply elem_of_list_In|left]. }
    assert (Eo : omap b (x :: xs) = match b x with Some y => y :: omap b xs | None => omap b xs end) by done. rewrite Eo in H2 |- *. clear Eo.
    unfold insert2 at 2. cbn [fst snd]. rewrite (map_insert_fresh _ _ _ Hf).
    assert (E : (kv x) = (fst (kv x), snd (kv x))) by (by destruct (kv x)). rewrite <- E.
    destruct (b x) as [[k2 v2]|] eqn:Eb; cbn [fst snd] in *.
    - assert (Hf2 : ~ In k2 (List.map fst m2)).
      { intros Hin. cbn in H2. apply NoDup_app in H2 as (_ & H2 & _). apply (H2 k2); [by apply elem_of_list_In|]. left. }
      rewrite (map_insert_fresh _ _ _ Hf2). rewrite IH; cbn [fst snd].
      + by rewrite <- !app_assoc.
      + rewrite map_app, <- app_assoc. exact H1.
      + rewrite map_app, <- app_assoc. exact H2.
    - rewrite IH; cbn [fst snd].
      + by rewrite <- !app_assoc.
      + rewrite map_app, <- app_assoc. exact H1.
      + exact H2.
  Qed.
  Lemma FOP_omap (R : K2 * V2 -> K2 * V2 -> Prop) xs :
    ForallOrdPairs (fun x y => forall p q, b x = Some p -> b y = Some q -> R p q) xs -> ForallOrdPairs R (omap b xs).
  Proof.
    induction 1 as [|x l Hx Hl IH]; [constructor|]. cbn. destruct (b x) as [p|] eqn:E; [|done]. constructor; [|done].
    apply List.Forall_forall. intros q Hq. apply elem_of_list_In, elem_of_list_omap in Hq as (y & Hy & Eq).
    rewrite List.Forall_forall in Hx. apply (Hx y); [by apply elem_of_list_In|done|done].
  Qed.
End Inserts.
Lemma FOP_of_lookup {A} (R : A -> A -> Prop) l :
  (forall i j x y, (i < j)%nat -> l !! i = Some x -> l !! j = Some y -> R x y) -> ForallOrdPairs R l.
Proof.
  induction l as [|x l IH]; intros H; constructor.
  - apply List.Forall_forall. intros y Hy. apply elem_of_list_In, elem_of_list_lookup in Hy as [j Hj]. apply (H 0%nat (S j)); [lia|done|done].
  - apply IH. intros i j a c Hij Ha Hc. apply (H (S i) (S j)); [lia|done|done].
Qed.
Lemma FOP_NoDup {A B} (R : A -> A -> Prop) (f : A -> B) l :
  ForallOrdPairs R l -> (forall x y, x ∈ l -> y ∈ l -> R x y -> f x <> f y) -> NoDup (List.map f l).
Proof.
  induction 1 as [|x l Hx Hl IH]; intros H; constructor.
  - intros Hin. apply elem_of_list_In, in_map_iff in Hin as (y & E & Hy). rewrite List.Forall_forall in Hx.
    apply (H x y); [left|right; by apply elem_of_list_In|by apply Hx|done].
  - apply IH. intros a b Ha Hb. apply H; by right.
Qed.
