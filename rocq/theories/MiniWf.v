(** The translation of well-typed MIR: expressions. *)
From Verif Require Export MirSpec WfTypesProofs OwnInv.
From Coq Require Import ZifyBool ZifyN ZifyNat.

(** ** Outcomes of the translation: a result, or "not supported" *)
Definition fine {A} (o : Outcome A) (Q : A -> Prop) : Prop :=
  match o with
  | Ret a => Q a
  | Stop (TIllFormed _) => True
  | _ => False
  end.
Lemma fine_ret {A} (a : A) (Q : A -> Prop) : Q a -> fine (Ret a) Q.
Proof. done. Qed.
Lemma fine_bind {A B} (o : Outcome A) (k : A -> Outcome B) (Q : A -> Prop) (Q' : B -> Prop) :
  fine o Q -> (forall a, Q a -> fine (k a) Q') -> fine (obind o k) Q'.
Proof. destruct o as [a|t| |]; cbn; [auto| |done|done]. by destruct t. Qed.
Lemma fine_weak {A} (o : Outcome A) (Q Q' : A -> Prop) : fine o Q -> (forall a, Q a -> Q' a) -> fine o Q'.
Proof. destruct o as [a|t| |]; cbn; auto. Qed.
Lemma fine_bug {A} msg (Q : A -> Prop) : fine (span_bug msg) Q.
Proof. done. Qed.
Lemma fine_ask {A} (o : option A) (Q : A -> Prop) : (forall a, o = Some a -> Q a) -> fine (ask o) Q.
Proof. destruct o; cbn; auto. Qed.
Lemma fine_ask' {A} (o : option A) : fine (ask o) (fun a => o = Some a).
Proof. by destruct o. Qed.
Lemma fine_unwrap {A} (o : option A) (a : A) (Q : A -> Prop) : o = Some a -> Q a -> fine (unwrap o) Q.
Proof. by intros ->. Qed.
Lemma fine_assert b (Q : unit -> Prop) : b = true -> Q tt -> fine (assert_ b) Q.
Proof. by intros ->. Qed.
Lemma fine_map_st {A B S} (f : S -> A -> Outcome (B * S)) (I : S -> Prop) (grow : S -> S -> Prop) (C : A -> Prop) (W : S -> A -> B -> Prop) l s :
  (forall s, grow s s) -> (forall s1 s2 s3, grow s1 s2 -> grow s2 s3 -> grow s1 s3) ->
  (forall s s' a b, grow s s' -> W s a b -> W s' a b) ->
  (forall s a, I s -> C a -> fine (f s a) (fun r => I (snd r) /\ grow s (snd r) /\ W (snd r) a (fst r))) ->
  I s -> Forall C l -> fine (map_st f l s) (fun r => I (snd r) /\ grow s (snd r) /\ Forall2 (W (snd r)) l (fst r)).
Proof.
  intros Hrefl Htrans HW Hf HI Hl. revert s HI. induction Hl as [|x l Hx Hl IH]; intros s HI; cbn [map_st].
  - cbn. by split_and!.
  - eapply fine_bind; [by apply Hf|]. intros [y s1] (HI1 & Hg1 & HW1). cbn [fst snd] in *.
    eapply fine_bind; [by apply IH|]. intros [ys s2] (HI2 & Hg2 & HW2). cbn [fst snd] in *.
    cbn. split_and!; [done|by eapply Htrans|]. constructor; [by eapply HW|done].
Qed.
Lemma fine_fold_m {A S} (f : S -> A -> Outcome S) (I : list A -> S -> Prop) l s :
  (forall x l s, I (x :: l) s -> fine (f s x) (I l)) -> I l s -> fine (fold_m f l s) (I []).
Proof.
  intros Hf. revert s. induction l as [|x l IH]; intros s HI; [done|]. cbn [fold_m].
  eapply fine_bind; [by apply Hf|]. apply IH.
Qed.

Notation T := x86_64.

Section Fine.
  Context (R : Rustc) (HR : rustc_ok T R).

  (** ** Growing contexts *)
  Record ext (c c' : Cx) : Prop := {
    ex_fns : forall i n, map_get (cx_fns c) i = Some n -> map_get (cx_fns c') i = Some n;
    ex_vts : forall k n, map_get (cx_vtable_map c) k = Some n -> map_get (cx_vtable_map c') k = Some n;
    ex_allocs : forall a n, map_get (cx_alloc_map c) a = Some n -> map_get (cx_alloc_map c') a = Some n;
  }.
  Lemma ext_refl c : ext c c.
  Proof. by split. Qed.
  Lemma ext_trans c1 c2 c3 : ext c1 c2 -> ext c2 c3 -> ext c1 c3.
  Proof. intros [] []; split; auto. Qed.

  (** the program has what the context names *)
  Record holds (P : Program) (c : Cx) : Prop := {
    ho_traits : pr_traits P = traits_of R;
    ho_fns : forall i n, map_get (cx_fns c) i = Some n -> map_contains (pr_functions P) n = true;
    ho_vts : forall r tn n, map_get (cx_vtable_map c) (r, tn) = Some n -> exists vt, map_get (pr_vtables P) n = Some vt /\ vt_trait vt = tn;
    ho_allocs : forall a n d, map_get (cx_alloc_map c) a = Some n -> rc_alloc R a = Some d ->
      exists g, map_get (pr_globals P) n = Some g /\ g_bytes g = ra_bytes d;
  }.
  Lemma holds_ext P c c' : ext c c' -> holds P c' -> holds P c.
  Proof.
    intros [Ef Ev Ea] [Ht Hf Hv Ha]. split; [done|..]; intros.
    - eapply Hf. by apply Ef.
    - eapply Hv. by apply Ev.
    - eapply Ha; [by apply Ea|done].
  Qed.

  (** well-formed types in such programs *)
  Lemma wf_in P c t : holds P c -> wf_ty T R t -> ty_check_wf T (has_trait P) t = Ret tt.
  Proof. intros H. unfold has_trait. by rewrite (ho_traits _ _ H). Qed.

  (** types that are well-formed in any program *)
  Lemma wf_raw P mk : ty_check_wf T P (TPtr (PRaw mk)) = Ret tt.
  Proof. destruct mk; vm_compute; reflexivity. Qed.
  Lemma wf_fnptr P : ty_check_wf T P (TPtr PFnPtr) = Ret tt.
  Proof. vm_compute; reflexivity. Qed.
  Lemma wf_unit P : ty_check_wf T P unit_ty = Ret tt.
  Proof. vm_compute; reflexivity. Qed.
  Lemma wf_u8 P : ty_check_wf T P u8_ty = Ret tt.
  Proof. vm_compute; reflexivity. Qed.
  Lemma wf_i32 P : ty_check_wf T P b_i32_ty = Ret tt.
  Proof. vm_compute; reflexivity. Qed.
  Lemma wf_usize P : ty_check_wf T P (TInt (usize_ty T)) = Ret tt.
  Proof. vm_compute; reflexivity. Qed.
  Lemma wf_isize P : ty_check_wf T P (TInt (mkIntTy Signed (PTR_SIZE T))) = Ret tt.
  Proof. vm_compute; reflexivity. Qed.
  Lemma wf_bool P : ty_check_wf T P TBool = Ret tt.
  Proof. vm_compute; reflexivity. Qed.
  Lemma sized_ptr pt : sized_ty T (TPtr pt).
  Proof. unfold sized_ty. cbn [layout]. destruct (ptr_meta_kind pt); eexists; (split; [reflexivity|done]). Qed.
  Lemma sized_bool : sized_ty T TBool.
  Proof. unfold sized_ty. cbn [layout]. eexists. split; [reflexivity|done]. Qed.
  Lemma sized_unit : sized_ty T unit_ty.
  Proof. eexists. split; [vm_compute; reflexivity|done]. Qed.
  Lemma sized_in t : sized_ty T t -> exists l, layout T t = Ret l /\ is_sized l = true.
  Proof. done. Qed.

  (** ** Functions, vtables, allocations *)
  Lemma get_fn_name_ext c f : ext c (snd (get_fn_name c f)) /\ map_get (cx_fns (snd (get_fn_name c f))) f = Some (fst (get_fn_name c f)).
  Proof.
    unfold get_fn_name. destruct (map_get (cx_fns c) f) as [n|] eqn:E; cbn [fst snd cx_fns]; [by split; [apply ext_refl|]|].
    split.
    - split; cbn [cx_fns cx_vtable_map cx_alloc_map]; try done. intros i n Hi. rewrite map_insert_get.
      case_bool_decide; [congruence|done].
    - by rewrite map_insert_get, bool_decide_eq_true_2.
  Qed.
  Lemma fn_ptr_wf P L c f : holds P (snd (get_fn_name c f)) -> value_check_wf T P L (b_fn_ptr (fst (get_fn_name c f))) = Ret (TPtr PFnPtr).
  Proof.
    intros H. destruct (get_fn_name_ext c f) as [_ Hg]. unfold b_fn_ptr. cbn [value_check_wf].
    rewrite wf_fnptr. cbn [obind constant_check_wf]. rewrite bool_decide_eq_true_2 by done. cbn [ensure_wf obind].
    by rewrite (ho_fns _ _ H _ _ Hg).
  Qed.


  (** ** The context stays consistent *)

  (** the relocation that the pointer [p] in the allocation [d] becomes *)
  Definition rel_of (c : Cx) (d : RAllocData) (p : Offset * RAlloc) (r : Offset * Relocation) : Prop :=
    exists m off, r = (fst p, mkReloc m off) /\ map_get (cx_alloc_map c) (snd p) = Some m /\ inner_offset T (ra_bytes d) (fst p) = Ret off.
  (** the global of the allocation [a] *)
  Definition global_of (c : Cx) (a : RAlloc) (g : Global) : Prop :=
    exists d, rc_alloc R a = Some d /\ g_bytes g = ra_bytes d /\ g_align g = ra_align d /\ Forall2 (rel_of c d) (ra_ptrs d) (g_relocations g).
  (** the method [m] of a vtable *)
  Definition method_of (c : Cx) (m : TraitMethodName * Inst) (r : TraitMethodName * FnName) : Prop :=
    fst r = fst m /\ map_get (cx_fns c) (snd m) = Some (snd r).
  Definition vtable_of (c : Cx) (r : RTy) (tn : TraitName) (vt : VTable) : Prop :=
    exists es, rc_vtable R r tn = Some (vt_size vt, vt_align vt, vt_cells vt, es) /\ vt_trait vt = tn /\
      Forall2 (method_of c) (vtable_methods es) (vt_methods vt).

  (** [open]: the allocations whose globals are not complete yet *)
  Record cx_ok (open : list RAlloc) (c : Cx) : Prop := {
    ck_fn : forall i n, map_get (cx_fns c) i = Some n -> (n < N.of_nat (length (cx_fns c)))%N;
    ck_fn_inj : forall i j n, map_get (cx_fns c) i = Some n -> map_get (cx_fns c) j = Some n -> i = j;
    ck_vt : forall r tn n, map_get (cx_vtable_map c) (r, tn) = Some n -> exists vt, map_get (cx_vtables c) n = Some vt /\ vt_trait vt = tn;
    ck_vt_lt : forall k n, map_get (cx_vtable_map c) k = Some n -> (n < N.of_nat (length (cx_vtable_map c)))%N;
    ck_vt_inj : forall k k' n, map_get (cx_vtable_map c) k = Some n -> map_get (cx_vtable_map c) k' = Some n -> k = k';
    ck_vt_nodup : NoDup (List.map fst (cx_vtables c));
    ck_vt_of : forall n vt, map_get (cx_vtables c) n = Some vt -> (n < N.of_nat (length (cx_vtable_map c)))%N /\
      exists r tn, vtable_of c r tn vt /\ map_get (cx_vtable_map c) (r, tn) = Some n;
    ck_alloc : forall a n, map_get (cx_alloc_map c) a = Some n -> exists g, map_get (cx_globals c) n = Some g /\ (a ∈ open \/ global_of c a g);
    ck_alloc_inj : forall a b n, map_get (cx_alloc_map c) a = Some n -> map_get (cx_alloc_map c) b = Some n -> a = b;
    ck_global_nodup : NoDup (List.map fst (cx_globals c));
    ck_global : forall n g, map_get (cx_globals c) n = Some g -> (n < N.of_nat (length (cx_globals c)))%N /\
      exists a, map_get (cx_alloc_map c) a = Some n;
  }.

  Lemma rel_of_ext c c' d p r : ext c c' -> rel_of c d p r -> rel_of c' d p r.
  Proof. intros Hx (m & off & -> & Hm & Ho). exists m, off. split_and!; [done|by apply (ex_allocs _ _ Hx)|done]. Qed.
  Lemma global_of_ext c c' a g : ext c c' -> global_of c a g -> global_of c' a g.
  Proof.
    intros Hx (d & Hd & Hb & Hal & Hr). exists d. split_and!; [done..|]. eapply Forall2_impl; [done|]. intros. by eapply rel_of_ext.
  Qed.
  Lemma vtable_of_ext c c' r tn vt : ext c c' -> vtable_of c r tn vt -> vtable_of c' r tn vt.
  Proof.
    intros Hx (es & He & Ht & Hm). exists es. split_and!; [done..|]. eapply Forall2_impl; [done|].
    intros m q [Hf Hq]. split; [done|]. by apply (ex_fns _ _ Hx).
  Qed.

  Lemma map_insert_length {K V} `{EqDecision K} (l : list (K * V)) k v : map_get l k = None -> length (map_insert l k v) = S (length l).
  Proof. intros H. rewrite map_insert_none by done. rewrite app_length. cbn. lia. Qed.
  Lemma map_insert_length_some {K V} `{EqDecision K} (l : list (K * V)) k v w : map_get l k = Some w -> length (map_insert l k v) = length l.
  Proof.
    induction l as [|[k' x] l IH]; [done|]. rewrite map_get_cons. cbn [map_insert].
    destruct (bool_decide_reflect (k' = k)) as [->|]; [done|]. cbn. intros. f_equal. by apply IH.
  Qed.

  Lemma map_insert_NoDup {K V} `{EqDecision K} (l : list (K * V)) k v : NoDup (List.map fst l) -> NoDup (List.map fst (map_insert l k v)).
  Proof.
    intros Hd. destruct (map_get l k) as [w|] eqn:E.
    - enough (List.map fst (map_insert l k v) = List.map fst l) as -> by done. clear Hd. revert E.
      induction l as [|[k' x] l IH]; [done|]. rewrite map_get_cons. cbn [map_insert].
      destruct (bool_decide_reflect (k' = k)) as [->|]; [done|]. cbn. intros. f_equal. by apply IH.
    - rewrite map_insert_none by done. rewrite List.map_app. apply NoDup_app. split_and!; [done| |apply NoDup_singleton].
      cbn. intros x Hx ->%elem_of_list_singleton. apply map_get_none_in in E. by apply E, elem_of_list_In.
  Qed.

  Lemma get_fn_name_ok o c f : cx_ok o c -> cx_ok o (snd (get_fn_name c f)).
  Proof.
    intros H. destruct (get_fn_name_ext c f) as [Hx _]. revert Hx. unfold get_fn_name.
    destruct (map_get (cx_fns c) f) as [n|] eqn:E; [done|]. cbn [snd]. intros Hx. destruct H. split; cbn [cx_fns cx_vtable_map cx_vtables cx_alloc_map cx_globals] in *; try done.
    - intros i n. rewrite map_insert_get, (map_insert_length _ _ _ E). case_bool_decide; [intros [= <-]; lia|]. intros Hi%ck_fn0. lia.
    - intros i j n. rewrite !map_insert_get. repeat case_bool_decide; subst; try done.
      + intros [= <-] Hj%ck_fn0. lia.
      + intros Hj%ck_fn0 [= <-]. lia.
      + apply ck_fn_inj0.
    - intros n vt Hin. destruct (ck_vt_of0 n vt Hin) as (Hn & r & tn & Hv & Hk). split; [done|]. exists r, tn. split; [by eapply vtable_of_ext|done].
  Qed.

  Lemma get_vtable_fine o c r tn : cx_ok o c ->
    fine (get_vtable R c r tn) (fun x => cx_ok o (snd x) /\ ext c (snd x) /\ map_get (cx_vtable_map (snd x)) (r, tn) = Some (fst x)).
  Proof.
    intros Hc. unfold get_vtable. destruct (map_get (cx_vtable_map c) (r, tn)) as [n|] eqn:E.
    - destruct (ck_vt _ _ Hc _ _ _ E) as (vt & Hvt & _). unfold map_contains. rewrite Hvt. cbn. by split_and!; [|apply ext_refl|].
    - eapply fine_bind; [apply fine_ask'|]. intros [[[size al] cells] es] Hes.
      eapply fine_bind.
      + apply (fine_map_st _ (cx_ok o) (fun c c' => ext c c' /\ cx_vtable_map c' = cx_vtable_map c /\ cx_vtables c' = cx_vtables c)
                 (fun _ => True) method_of).
        * intros s. split; [apply ext_refl|done].
        * intros s1 s2 s3 (H1 & H2 & H2') (H3 & H4 & H4'). split_and!; [by eapply ext_trans|congruence..].
        * intros s s' a b [Hx _] [Hf Hm]. split; [done|]. by apply (ex_fns _ _ Hx).
        * intros c1 [m f] Hc1 _. cbn [snd fst]. pose proof (get_fn_name_ok _ _ f Hc1) as Hok.
          pose proof (get_fn_name_ext c1 f) as [Hx Hg].
          assert (Hsame : cx_vtable_map (snd (get_fn_name c1 f)) = cx_vtable_map c1 /\ cx_vtables (snd (get_fn_name c1 f)) = cx_vtables c1).
          { unfold get_fn_name. by destruct (map_get (cx_fns c1) f). }
          destruct (get_fn_name c1 f) as [n c2]. cbn [fst snd] in *. destruct Hsame. cbn. split_and!; [done..|]. by split.
        * done.
        * by apply Forall_forall.
      + intros [ms c1] (Hok & (Hx & Hs & Hs') & Hms). cbn [fst snd] in *. cbn [fine fst snd].
        rewrite <-Hs in E. rewrite <-Hs.
        set (n := N.of_nat (length (cx_vtable_map c1))). set (vt := mkVTable _ _ _ _ _). set (c2 := mkCx _ _ _ _ _).
        assert (Hx2 : ext c1 c2).
        { split; cbn [c2 cx_fns cx_vtable_map cx_alloc_map]; try done.
          intros k m Hk. rewrite map_insert_get. case_bool_decide; [congruence|done]. }
        split_and!; [|by eapply ext_trans|cbn; by rewrite map_insert_get, bool_decide_eq_true_2].
        destruct Hok. split; cbn [c2 cx_fns cx_vtable_map cx_vtables cx_alloc_map cx_globals] in *; try done.
        * intros r' tn' m. rewrite map_insert_get. case_bool_decide as Hd.
          -- intros [= <-]. exists vt. injection Hd as <- <-. split; [|done]. by rewrite map_insert_get, bool_decide_eq_true_2.
          -- intros Hm. destruct (ck_vt0 _ _ _ Hm) as (vt' & Hv' & Ht'). exists vt'. split; [|done].
             rewrite map_insert_get. rewrite bool_decide_eq_false_2; [done|]. intros <-. apply ck_vt_of0 in Hv' as [Hl _]. lia.
        * intros k m. rewrite map_insert_get, (map_insert_length _ _ _ E). case_bool_decide; [intros [= <-]; lia|]. intros Hk%ck_vt_lt0. lia.
        * intros k k' m. rewrite !map_insert_get. repeat case_bool_decide; subst; try done.
          -- intros [= <-] Hk%ck_vt_lt0. lia.
          -- intros Hk%ck_vt_lt0 [= <-]. lia.
          -- apply ck_vt_inj0.
        * by apply map_insert_NoDup.
        * intros m vt'. rewrite (map_insert_length _ _ _ E), map_insert_get. case_bool_decide as Hd; [intros [= <-]; subst m|intros Hin'].
          -- split; [lia|]. exists r, tn. split; [|by rewrite map_insert_get, bool_decide_eq_true_2]. exists es. cbn. split_and!; [done..|]. done.
          -- destruct (ck_vt_of0 _ _ Hin') as (Hl & r' & tn' & Hv' & Hk). split; [lia|]. exists r', tn'. split; [by eapply vtable_of_ext|]. by apply (ex_vts _ _ Hx2).
  Qed.

  Definition unmapped (all : list RAlloc) (c : Cx) : nat := length (List.filter (fun a => negb (map_contains (cx_alloc_map c) a)) all).
  Lemma unmapped_ext all c c' : ext c c' -> (unmapped all c' <= unmapped all c)%nat.
  Proof.
    intros Hx. unfold unmapped. induction all as [|a all IH]; [done|]. cbn [List.filter]. unfold map_contains in *.
    destruct (map_get (cx_alloc_map c) a) as [n|] eqn:E; [rewrite (ex_allocs _ _ Hx _ _ E); exact IH|].
    destruct (map_get (cx_alloc_map c') a); cbn [negb length]; lia.
  Qed.
  Lemma unmapped_new all c c' a n : ext c c' -> a ∈ all -> map_get (cx_alloc_map c) a = None -> map_get (cx_alloc_map c') a = Some n ->
    (unmapped all c' < unmapped all c)%nat.
  Proof.
    intros Hx Hin E E'. induction Hin as [a all|a b all Hin IH].
    - pose proof (unmapped_ext all c c' Hx) as H. revert H. unfold unmapped. cbn [List.filter]. unfold map_contains. rewrite E, E'. cbn [negb length]. lia.
    - specialize (IH E E'). revert IH. unfold unmapped. cbn [List.filter]. unfold map_contains. 
      destruct (map_get (cx_alloc_map c) b) as [m|] eqn:Eb; [rewrite (ex_allocs _ _ Hx _ _ Eb); done|].
      destruct (map_get (cx_alloc_map c') b); cbn [negb length]; lia.
  Qed.
  Lemma alloc_fine' fuel all o c a d : (forall a d, rc_alloc R a = Some d -> a ∈ all) -> (unmapped all c <= fuel)%nat -> rc_alloc R a = Some d -> cx_ok o c ->
    fine (translate_alloc_id fuel R T c a) (fun x => cx_ok o (snd x) /\ ext c (snd x) /\ map_get (cx_alloc_map (snd x)) a = Some (fst x)).
  Proof.
    intros Hall. revert o c a d. induction fuel as [|fuel IH]; intros o c a d Hfuel Ha Hc; cbn [translate_alloc_id].
    - destruct (map_get (cx_alloc_map c) a) as [n|] eqn:E; [cbn; by split_and!; [|apply ext_refl|]|]. exfalso.
      specialize (Hall _ _ Ha). revert Hfuel Hall E. clear. unfold unmapped. intros Hfuel Hin E. apply elem_of_list_In in Hin.
      assert (Hf : In a (List.filter (fun a => negb (map_contains (cx_alloc_map c) a)) all)) by (apply filter_In; split; [done|]; unfold map_contains; by rewrite E).
      destruct (List.filter _ all); [done|cbn in Hfuel; lia].
    - destruct (map_get (cx_alloc_map c) a) as [n|] eqn:E; [cbn; by split_and!; [|apply ext_refl|]|].
      cbn [fresh_global_name]. rewrite Ha. cbn [ask obind]. cbn [cx_fns cx_vtable_map cx_vtables cx_alloc_map cx_globals].
      set (n := N.of_nat (length (cx_globals c))).
      set (c0 := mkCx _ _ _ _ _).
      assert (Hx0 : ext c c0).
      { split; cbn; try done. intros b m Hb. rewrite map_insert_get. case_bool_decide; [congruence|done]. }
      assert (Hn0 : map_get (cx_alloc_map c0) a = Some n).
      { cbn. by rewrite map_insert_get, bool_decide_eq_true_2. }
      assert (Hgn : map_get (cx_globals c) n = None).
      { destruct (map_get (cx_globals c) n) as [g|] eqn:Eg; [|done]. apply (ck_global _ _ Hc) in Eg as [? _]. lia. }
      assert (Hfresh : forall b m, map_get (cx_alloc_map c) b = Some m -> m <> n).
      { intros b m Hb ->. destruct (ck_alloc _ _ Hc _ _ Hb) as (g & Hg & _). congruence. }
      assert (Hc0 : cx_ok (a :: o) c0).
      { destruct Hc. split; cbn [c0 cx_fns cx_vtable_map cx_vtables cx_alloc_map cx_globals] in *; try done.
        - intros b m. rewrite !map_insert_get. case_bool_decide as Hd.
          + intros [= <-]. rewrite bool_decide_eq_true_2 by done. eexists. split; [done|]. left. subst. left.
          + intros Hb. destruct (ck_alloc0 _ _ Hb) as (g & Hg & Hgo). rewrite bool_decide_eq_false_2 by (intros <-; by eapply Hfresh).
            exists g. split; [done|]. destruct Hgo as [Ho|Hgo]; [left; by right|right]. by eapply global_of_ext.
        - intros b b' m. rewrite !map_insert_get. repeat case_bool_decide; subst; try done.
          + intros [= <-] Hb. by eapply Hfresh in Hb.
          + intros Hb [= <-]. by eapply Hfresh in Hb.
          + apply ck_alloc_inj0.
        - by apply map_insert_NoDup.
        - intros m g. rewrite (map_insert_length _ _ _ Hgn), map_insert_get. case_bool_decide as Hd; [intros [= <-]; subst m|intros Hin].
          + split; [lia|]. exists a. by rewrite map_insert_get, bool_decide_eq_true_2.
          + destruct (ck_global0 _ _ Hin) as (Hl & b & Hb). split; [lia|]. exists b. rewrite map_insert_get, bool_decide_eq_false_2 by congruence. done. }
      pose proof (unmapped_new all _ _ _ _ Hx0 (Hall _ _ Ha) E Hn0) as Hfuel0.
      eapply (fine_bind _ _ (fun r => (cx_ok (a :: o) (snd r) /\ (unmapped all (snd r) <= fuel)%nat) /\ ext c0 (snd r) /\ Forall2 (rel_of (snd r) d) (ra_ptrs d) (fst r))).
      + apply (fine_map_st _ (fun c => cx_ok (a :: o) c /\ (unmapped all c <= fuel)%nat) ext (fun p => p ∈ ra_ptrs d) (fun c => rel_of c d)).
        * apply ext_refl.
        * apply ext_trans.
        * intros. by eapply rel_of_ext.
        * intros c1 [off a'] [Hc1 Hf1] Hin. cbn [fst snd].
          destruct (ro_alloc _ _ HR _ _ _ _ Ha Hin) as (Hb & bs & Hbs & d' & Hd' & _).
          destruct (inner_offset T (ra_bytes d) off) as [off'|t| |] eqn:Eo; cbn [obind].
          -- eapply fine_bind; [by eapply IH|]. intros [m c2] (Hok & Hx & Hm). cbn in *. split_and!; [done| |done|].
             { pose proof (unmapped_ext all _ _ Hx). lia. }
             exists m, off'. by split_and!.
          -- exfalso. revert Eo. unfold inner_offset, subslice. rewrite (proj2 (Nat.leb_le _ _)) by lia. cbn [obind]. rewrite Hbs.
             replace (map_m unwrap (List.map Some bs)) with (Ret bs); [done|].
             clear. induction bs as [|b bs IHb]; [done|]. cbn [List.map map_m unwrap obind]. by rewrite <-IHb.
          -- exfalso. revert Eo. unfold inner_offset, subslice. rewrite (proj2 (Nat.leb_le _ _)) by lia. cbn [obind]. rewrite Hbs.
             replace (map_m unwrap (List.map Some bs)) with (Ret bs); [done|].
             clear. induction bs as [|b bs IHb]; [done|]. cbn [List.map map_m unwrap obind]. by rewrite <-IHb.
          -- exfalso. revert Eo. unfold inner_offset, subslice. rewrite (proj2 (Nat.leb_le _ _)) by lia. cbn [obind]. rewrite Hbs.
             replace (map_m unwrap (List.map Some bs)) with (Ret bs); [done|].
             clear. induction bs as [|b bs IHb]; [done|]. cbn [List.map map_m unwrap obind]. by rewrite <-IHb.
        * split; [done|lia].
        * by apply Forall_forall.
      + intros [rels c1] ((Hc1 & _) & Hx & Hrel). cbn [fst snd] in *. cbn [fine fst snd cx_alloc_map].
        pose proof (ex_allocs _ _ Hx _ _ Hn0) as Hn1.
        set (g := mkGlobal _ _ _). set (c2 := mkCx _ _ _ _ _).
        assert (Hx2 : ext c1 c2) by by split.
        split_and!; [|by eapply ext_trans; [done|]; eapply ext_trans|done].
        assert (exists g0, map_get (cx_globals c1) n = Some g0) as (g0 & Hg0).
        { destruct (ck_alloc _ _ Hc1 _ _ Hn1) as (g0 & Hg0 & _). eauto. }
        destruct Hc1. split; cbn [c2 cx_fns cx_vtable_map cx_vtables cx_alloc_map cx_globals] in *; try done.
        * intros b m Hb. rewrite map_insert_get. case_bool_decide as Hd.
          -- subst m. exists g. split; [done|]. right. rewrite (ck_alloc_inj0 _ _ _ Hb Hn1). exists d. by split_and!.
          -- destruct (ck_alloc0 _ _ Hb) as (gb & Hgb & Hgo). exists gb. split; [done|].
             destruct Hgo as [[->|Ho]%elem_of_cons|Hgo]; [congruence|by left|right]. done.
        * by apply map_insert_NoDup.
        * intros m g'. rewrite (map_insert_length_some _ _ _ _ Hg0), map_insert_get.
          case_bool_decide as Hd; [intros [= <-]; subst m|apply ck_global0]. split; [|eauto]. by apply ck_global0 in Hg0 as [? _].
  Qed.
  Lemma alloc_fine fuel o c a d : enough R fuel -> rc_alloc R a = Some d -> cx_ok o c ->
    fine (translate_alloc_id fuel R T c a) (fun x => cx_ok o (snd x) /\ ext c (snd x) /\ map_get (cx_alloc_map (snd x)) a = Some (fst x)).
  Proof.
    intros (all & Hall & Hlen) Ha Hc. eapply (alloc_fine' fuel all); [done| |done|done].
    enough (unmapped all c <= length all)%nat by lia. unfold unmapped. clear. induction all as [|a all IH]; [done|]. cbn [List.filter]. destruct (negb _); cbn [length]; lia.
  Qed.
End Fine.
