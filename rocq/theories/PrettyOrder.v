(** The text of a program does not depend on the order in which most of its maps are iterated. *)
From Coq Require Import Ascii String DecimalString Sorted.
From Verif Require Export PrettyGives.
Local Open Scope string_scope.

(** ** Specification: the same maps, in any order *)

Definition unique {K V} (m : list (K * V)) : Prop := NoDup (List.map fst m).
(** [same_map R m m']: [m] and [m'] map the same names, to things related by [R] *)
Definition same_map {V} (R : V -> V -> Prop) (m m' : list (N * V)) : Prop :=
  unique m /\ unique m' /\
  forall n, match map_get m n, map_get m' n with Some x, Some y => R x y | None, None => True | _, _ => False end.
Definition same_set (l l' : list N) : Prop := NoDup l /\ NoDup l' /\ forall n, In n l <-> In n l'.
(** the same function, with the locals and the basic blocks in any order *)
Definition same_function (f g : Function) : Prop :=
  fn_args f = fn_args g /\ fn_ret f = fn_ret g /\ fn_start f = fn_start g /\ same_map eq (fn_locals f) (fn_locals g) /\ same_map eq (fn_blocks f) (fn_blocks g).
(** the same program, with the functions, globals, vtables and traits, the locals and basic blocks of each function and the methods
    of each trait in any order *)
Definition same_program (p q : Program) : Prop :=
  pr_start p = pr_start q /\ same_map same_function (pr_functions p) (pr_functions q) /\
  same_map eq (pr_globals p) (pr_globals q) /\ same_map eq (pr_vtables p) (pr_vtables q) /\ same_map same_set (pr_traits p) (pr_traits q).

(** ** Sorting by names *)

Lemma nodup_perm {A} (l l' : list A) : Permutation l l' -> NoDup l -> NoDup l'.
Proof. intros HP. by rewrite HP. Qed.

Definition name_lt {A} (x y : N * A) : Prop := (fst x < fst y)%N.
Global Instance name_le_trans A : Transitive (@name_le A).
Proof. intros x y z. unfold name_le. lia. Qed.
Global Instance name_le_total A : Total (@name_le A).
Proof. intros x y. unfold name_le. lia. Qed.

Lemma sort_strict {A} (l : list (N * A)) : unique l -> StronglySorted name_lt (sort_by_name l).
Proof.
  intros Hu. assert (Hu' : unique (sort_by_name l)). { unfold unique in *. eapply nodup_perm; [|exact Hu]. apply Permutation_map. symmetry. apply merge_sort_Permutation. }
  pose proof (StronglySorted_merge_sort name_le l) as H. fold (sort_by_name l) in H. revert Hu'. unfold unique. induction H as [|x r Hr IH Hx]; cbn; [constructor|].
  intros Hu'. inversion Hu' as [|? ? Hn Hd]; subst. constructor; [auto|]. apply List.Forall_forall. intros y Hy. rewrite List.Forall_forall in Hx. specialize (Hx _ Hy). unfold name_le, name_lt in *.
  assert (fst x <> fst y). { intros E. apply Hn. rewrite E. apply elem_of_list_In, in_map_iff. eauto. } lia.
Qed.

Lemma get_cons {A} (k : N) (v : A) l n : map_get ((k, v) :: l) n = if decide (k = n) then Some v else map_get l n.
Proof. unfold map_get. cbn [List.find fst]. rewrite decide_bool_decide. by destruct (bool_decide (k = n)). Qed.
Lemma get_perm {A} (l l' : list (N * A)) n : Permutation l l' -> unique l -> map_get l n = map_get l' n.
Proof.
  intros HP Hu. unfold unique in Hu. induction HP as [|x l l' HP IH|x y l|l l2 l' HP1 IH1 HP2 IH2]; cbn [List.map] in *.
  - done.
  - inversion Hu; subst. destruct x as [k v]. rewrite !get_cons. case_decide; [done|auto].
  - destruct x as [k v], y as [k' v']. cbn in Hu. apply NoDup_cons in Hu as [Hn _]. rewrite !get_cons. case_decide; case_decide; try done. subst. destruct Hn. by left.
  - rewrite IH1 by done. apply IH2. eapply nodup_perm; [|exact Hu]. by apply Permutation_map.
Qed.

Lemma sorted_get {A} (x : N * A) l n : Forall (name_lt x) l -> (n <= fst x)%N -> map_get l n = None.
Proof. induction 1 as [|[k v] l H _ IH]; intros Hn; [done|]. rewrite get_cons. unfold name_lt in H. cbn in H. case_decide; [lia|auto]. Qed.

Lemma sorted_same {A} (R : A -> A -> Prop) (l l' : list (N * A)) : StronglySorted name_lt l -> StronglySorted name_lt l' ->
  (forall n, match map_get l n, map_get l' n with Some x, Some y => R x y | None, None => True | _, _ => False end) ->
  Forall2 (fun x y => fst x = fst y /\ R (snd x) (snd y)) l l'.
Proof.
  intros H. revert l'. induction H as [|[k v] l Hl IH Hx]; intros l' Hl' HR.
  - destruct l' as [|[k v] l']; [constructor|]. specialize (HR k). rewrite ?get_cons in HR. by case_decide.
  - destruct l' as [|[k' v'] l']; [specialize (HR k); rewrite ?get_cons in HR; by case_decide|]. inversion Hl' as [|? ? Hl2 Hx']; subst.
    assert (E : k = k').
    { destruct (N.lt_trichotomy k k') as [Hlt|[E|Hlt]]; [|done|].
      - specialize (HR k). rewrite ?get_cons in HR. case_decide; [|done]. case_decide; [lia|]. rewrite (sorted_get (k', v') l' k) in HR by (done || cbn; lia). done.
      - specialize (HR k'). rewrite ?get_cons in HR. case_decide; [lia|]. case_decide; [|done]. rewrite (sorted_get (k, v) l k') in HR by (done || cbn; lia). done. }
    subst k'. constructor.
    + split; [done|]. specialize (HR k). rewrite ?get_cons in HR. by case_decide.
    + apply IH; [done|]. intros n. destruct (decide (n = k)) as [->|Hn].
      * rewrite (sorted_get (k, v) l k), (sorted_get (k, v') l' k) by (done || cbn; lia). done.
      * specialize (HR n). rewrite ?get_cons in HR. case_decide; [congruence|]. done.
Qed.

Lemma sort_same {A} (R : A -> A -> Prop) (m m' : list (N * A)) : same_map R m m' -> Forall2 (fun x y => fst x = fst y /\ R (snd x) (snd y)) (sort_by_name m) (sort_by_name m').
Proof.
  intros (Hu & Hu' & HR). apply sorted_same; [by apply sort_strict..|]. intros n.
  rewrite <-(get_perm m (sort_by_name m)), <-(get_perm m' (sort_by_name m')); [apply HR|symmetry; apply merge_sort_Permutation|done|symmetry; apply merge_sort_Permutation|done].
Qed.
Lemma sort_eq {A} (m m' : list (N * A)) : same_map eq m m' -> sort_by_name m = sort_by_name m'.
Proof. intros H. apply sort_same in H. induction H as [|[k v] [k' v'] l l' [H1 H2] _ IH]; [done|]. cbn in *. by subst. Qed.

(** ** Sorting of strings *)

Lemma str_cmp_refl s : String.compare s s = Eq.
Proof. induction s as [|c s IH]; [done|]. cbn. unfold Ascii.compare. by rewrite N.compare_refl. Qed.
Lemma str_lt_trans s t u : String.compare s t <> Gt -> String.compare t u <> Gt -> String.compare s u <> Gt.
Proof.
  revert t u. induction s as [|a s IH]; intros [|b t] [|c u]; cbn; try done. unfold Ascii.compare.
  destruct (N.compare_spec (N_of_ascii a) (N_of_ascii b)) as [E1|E1|E1], (N.compare_spec (N_of_ascii b) (N_of_ascii c)) as [E2|E2|E2], (N.compare_spec (N_of_ascii a) (N_of_ascii c)) as [E3|E3|E3]; try done; try lia.
  apply IH.
Qed.
Lemma str_le_iff s t : str_le s t <-> String.compare s t <> Gt.
Proof. unfold str_le, String.leb. by destruct (String.compare s t). Qed.
Global Instance str_le_trans : Transitive str_le.
Proof. intros s t u. rewrite !str_le_iff. apply str_lt_trans. Qed.
Global Instance str_le_antisym : AntiSymm (=) str_le.
Proof. intros s t. apply String.leb_antisym. Qed.
Global Instance str_le_total : Total str_le.
Proof. intros s t. apply String.leb_total. Qed.

Lemma trait_same n l l' : same_set l l' -> fmt_trait n l = fmt_trait n l'.
Proof.
  intros (H1 & H2 & H3). unfold fmt_trait. f_equal. f_equal. f_equal.
  assert (HP : Permutation (List.map fmt_trait_method_name l) (List.map fmt_trait_method_name l')). { apply Permutation_map. apply NoDup_Permutation; try done. intros x. rewrite !elem_of_list_In. apply H3. }
  f_equal. apply (StronglySorted_unique str_le); [apply StronglySorted_merge_sort; apply _|apply StronglySorted_merge_sort; apply _|]. rewrite !merge_sort_Permutation. done.
Qed.

Lemma map_st_same {A} (f g : Table -> A -> Outcome (string * Table)) (l l' : list A) ct : Forall2 (fun x y => forall ct, f ct x = g ct y) l l' -> map_st f l ct = map_st g l' ct.
Proof. intros H. revert ct. induction H as [|x y l l' Hx _ IH]; intros ct; [done|]. cbn [map_st]. rewrite Hx. destruct (g ct y) as [[s ct1]| | |]; cbn [obind]; try done. by rewrite IH. Qed.

Lemma function_same n f g start ct : same_function f g -> fmt_function n f start ct = fmt_function n g start ct.
Proof. intros (H1 & H2 & H3 & H4 & H5). unfold fmt_function. by rewrite H1, H2, H3, (sort_eq _ _ H4), (sort_eq _ _ H5). Qed.

Lemma program_same T fuel p q : same_program p q -> fmt_program T fuel p = fmt_program T fuel q.
Proof.
  intros (H1 & H2 & H3 & H4 & H5). unfold fmt_program.
  assert (Ef : fmt_functions p [] = fmt_functions q []).
  { unfold fmt_functions. rewrite H1. f_equal. apply map_st_same. eapply Forall2_impl; [apply sort_same, H2|]. intros [n f] [n' g] [E Hfg] ct. cbn in *. subst. by apply function_same. }
  assert (Et : fmt_traits (pr_traits p) = fmt_traits (pr_traits q)).
  { unfold fmt_traits. f_equal. f_equal. apply sort_same in H5. induction H5 as [|[n l] [n' l'] m m' [E Hl] _ IH]; [done|]. cbn [List.map fst snd] in *. subst. by rewrite (trait_same _ _ _ Hl), IH. }
  rewrite Ef, Et. unfold fmt_globals, fmt_vtables. by rewrite (sort_eq _ _ H3), (sort_eq _ _ H4).
Qed.
