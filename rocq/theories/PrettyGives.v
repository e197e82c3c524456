(** When the printer gives a text: exactly, and for programs that the check of well-formedness accepts. *)
From Coq Require Import Ascii String DecimalString.
From Verif Require Export PrettyLoop CheckProofs.
Local Open Scope string_scope.

(** [m] gives something just if [P] *)
Definition Gives {A} (m : Table -> Outcome (A * Table)) (P : Prop) : Prop := forall ct, (exists a ct', m ct = Ret (a, ct')) <-> P.
Lemma gives_ret {A} (a : A) : Gives (fun ct => Ret (a, ct)) True.
Proof. intros ct. split; [done|]. eauto. Qed.
Lemma gives_panic {A} : @Gives A (fun _ => Panic) False.
Proof. intros ct. split; [|done]. by intros (? & ? & ?). Qed.
Lemma gives_bind {A B} (m : Table -> Outcome (A * Table)) (k : A -> Table -> Outcome (B * Table)) P Q :
  Gives m P -> (forall a, Gives (k a) Q) -> Gives (fun ct => obind (m ct) (fun x => let '(a, ct) := x in k a ct)) (P /\ Q).
Proof.
  intros H1 H2 ct. split.
  - intros (b & c2 & H). apply obind_ret in H as ([a c1] & E1 & E2). split; [apply (H1 ct); eauto|apply (H2 a c1); eauto].
  - intros [HP HQ]. apply (H1 ct) in HP as (a & c1 & E1). apply (H2 a c1) in HQ as (b & c2 & E2). exists b, c2. rewrite E1. exact E2.
Qed.
Lemma gives_let {A B} (m : Table -> A * Table) (k : A -> Table -> Outcome (B * Table)) Q :
  (forall a, Gives (k a) Q) -> Gives (fun ct => let '(a, ct) := m ct in k a ct) Q.
Proof. intros H2 ct. destruct (m ct) as [a c1]. apply H2. Qed.
Lemma gives_iff {A} (m : Table -> Outcome (A * Table)) P Q : Gives m P -> (P <-> Q) -> Gives m Q.
Proof. intros H E ct. rewrite (H ct). done. Qed.
Lemma gives_map_st {A B} (f : Table -> A -> Outcome (B * Table)) (P : A -> Prop) l : Forall (fun x => Gives (fun ct => f ct x) (P x)) l -> Gives (map_st f l) (Forall P l).
Proof.
  induction 1 as [|x l Hx Hl IH]; cbn.
  - eapply gives_iff; [apply gives_ret|]. split; [constructor|done].
  - eapply gives_iff; [apply (gives_bind (fun ct => f ct x)); [exact Hx|]; intros y; apply gives_bind; [exact IH|]; intros ys; exact (gives_ret (y :: ys))|].
    rewrite Forall_cons. tauto.
Qed.
Lemma gives_pure {A} (m : Table -> A * Table) : Gives (fun ct => Ret (m ct)) True.
Proof. intros ct. split; [done|]. destruct (m ct). eauto. Qed.

Ltac gv := eapply gives_iff; [|].
Lemma gives_exprs : (forall e, Gives (fmt_value_expr e) (printable_value e)) /\ (forall p, Gives (fmt_place_expr p) (printable_place p)).
Proof.
  apply Expr_ind'; intros; cbn [fmt_value_expr fmt_place_expr printable_value printable_place].
  - apply gives_ret.
  - assert (Hl : Gives (map_st (fun ct x => fmt_value_expr x ct) es) ((fix all l := match l with [] => True | e :: r => printable_value e /\ all r end) es)).
    { eapply gives_iff; [apply gives_map_st; exact H|]. clear. induction es as [|e es IH]; [split; [done|constructor]|]. rewrite Forall_cons, IH. done. }
    destruct ty; try (intros ct; split; [by intros (? & ? & ?)|tauto]).
    all: eapply gives_iff; [cbn [obind]; apply gives_bind; [exact Hl|]; intros l; apply gives_ret|tauto].
  - eapply gives_iff; [apply gives_let; intros t; apply gives_bind; [exact H|]; intros e'; apply gives_ret|tauto].
  - eapply gives_iff; [apply gives_let; intros t; apply gives_bind; [exact H|]; intros e'; apply gives_ret|tauto].
  - eapply gives_iff; [apply gives_bind; [exact H|]; intros e'; apply gives_ret|tauto].
  - eapply gives_iff; [apply gives_bind; [exact H|]; intros e'; apply gives_ret|tauto].
  - destruct pt as [m pi|pi|mk| |tn]; try (intros ct; split; [by intros (? & ? & ?)|tauto]); (eapply gives_iff; [apply gives_bind; [exact H|]; intros e'; apply gives_ret|tauto]).
  - eapply gives_iff; [apply gives_bind; [exact H|]; intros e'; apply gives_pure|tauto].
  - eapply gives_iff; [apply gives_bind; [exact H|]; intros e'; apply gives_bind; [exact H0|]; intros e''; apply gives_ret|tauto].
  - apply gives_ret.
  - eapply gives_iff; [apply gives_let; intros t; apply gives_bind; [exact H|]; intros e'; apply gives_ret|tauto].
  - eapply gives_iff; [apply gives_bind; [exact H|]; intros e'; apply gives_ret|tauto].
  - eapply gives_iff; [apply gives_bind; [exact H|]; intros e'; apply gives_bind; [exact H0|]; intros e''; apply gives_ret|tauto].
  - eapply gives_iff; [apply gives_bind; [exact H|]; intros e'; apply gives_ret|tauto].
Qed.
Lemma gives_value e : Gives (fmt_value_expr e) (printable_value e).
Proof. apply gives_exprs. Qed.
Lemma gives_place e : Gives (fmt_place_expr e) (printable_place e).
Proof. apply gives_exprs. Qed.
Lemma gives_stmt s : Gives (fmt_statement s) (printable_stmt s).
Proof.
  destruct s as [p e|p|p d|p b|p|l|l]; cbn [fmt_statement printable_stmt]; try apply gives_ret.
  - eapply gives_iff; [apply gives_bind; [apply gives_place|]; intros e'; apply gives_bind; [apply gives_value|]; intros e''; apply gives_ret|tauto].
  - eapply gives_iff; [apply gives_bind; [apply gives_place|]; intros e'; apply gives_ret|tauto].
  - eapply gives_iff; [apply gives_bind; [apply gives_place|]; intros e'; apply gives_ret|tauto].
  - eapply gives_iff; [apply gives_bind; [apply gives_place|]; intros e'; apply gives_ret|tauto].
  - eapply gives_iff; [apply gives_bind; [apply gives_place|]; intros e'; apply gives_ret|tauto].
Qed.
Lemma gives_list {A B} (f : Table -> A -> Outcome (B * Table)) (P : A -> Prop) l : (forall x, Gives (fun ct => f ct x) (P x)) -> Gives (map_st f l) (Forall P l).
Proof. intros H. apply gives_map_st, Forall_forall. intros x _. apply H. Qed.
Lemma gives_arg a : Gives (fun ct => fmt_argument ct a) (printable_arg a).
Proof.
  destruct a as [e|p]; cbn [fmt_argument printable_arg].
  - eapply gives_iff; [apply gives_bind; [apply gives_value|]; intros e'; apply gives_ret|tauto].
  - eapply gives_iff; [apply gives_bind; [apply gives_place|]; intros e'; apply gives_ret|tauto].
Qed.
Lemma gives_call callee conv args p nb ub : Gives (fmt_call callee conv args p nb ub) (printable_place p).
Proof. unfold fmt_call. eapply gives_iff; [apply gives_bind; [apply gives_place|]; intros e'; apply gives_ret|tauto]. Qed.
Lemma gives_term t : Gives (fmt_terminator t) (printable_term t).
Proof.
  destruct t as [b|e cases fb| |op es p nb|c conv l p nb ub| |e b|b|]; cbn [fmt_terminator printable_term]; try apply gives_ret.
  - eapply gives_iff; [apply gives_bind; [apply gives_value|]; intros e'; apply gives_ret|tauto].
  - eapply gives_iff; [apply gives_bind; [apply gives_list; intros x; apply gives_value|]; intros e'; apply gives_call|tauto].
  - eapply gives_iff; [apply gives_bind; [apply gives_value|]; intros e'; apply gives_bind; [apply gives_list; intros x; apply gives_arg|]; intros e''; apply gives_call|tauto].
  - eapply gives_iff; [apply gives_bind; [apply gives_value|]; intros e'; apply gives_ret|tauto].
Qed.
Lemma sorted_forall {A} (l : list (N * A)) (P : N * A -> Prop) : Forall P (sort_by_name l) <-> Forall P l.
Proof. unfold sort_by_name. by rewrite (merge_sort_Permutation name_le l). Qed.
Lemma gives_functions prog : Gives (fmt_functions prog) (printable_program prog).
Proof.
  unfold fmt_functions, printable_program. eapply gives_iff; [apply gives_bind; [|intros fs; apply gives_ret]|].
  - apply gives_list with (P := fun f => Forall (fun b => printable_block (snd b)) (fn_blocks (snd f))). intros [n f]. unfold fmt_function. cbn [fst snd].
    eapply gives_iff; [apply gives_bind; [apply gives_list with (P := fun _ => True); intros l; unfold fmt_local; apply gives_let; intros t; apply gives_ret|]; intros ls;
      apply gives_bind; [apply gives_list with (P := fun b => printable_block (snd b)); intros [b blk]; unfold fmt_bb; cbn [fst snd]; unfold printable_block|intros bs; apply gives_ret]|].
    + eapply gives_iff; [apply gives_bind; [apply gives_list with (P := printable_stmt); intros s; eapply gives_iff; [apply gives_bind; [apply gives_stmt|]; intros x; apply gives_ret|tauto]|]; intros ss;
        apply gives_bind; [apply gives_term|]; intros tm; apply gives_ret|tauto].
    + rewrite !sorted_forall. split; [tauto|]. intros H. split_and!; try done. by apply Forall_forall.
  - rewrite sorted_forall. tauto.
Qed.

Section Target.
  Variable T : Target.

  Lemma tops_in_comps ts u : u ∈ all_tops ts -> u ∈ flat_map comps ts.
  Proof.
    intros H. apply in_flat in H as (t & Ht & Hu). apply in_flat. exists t. split; [done|]. apply comps_tops. exists u. split; [done|].
    rewrite comps_comp by (by eapply tops_comp). by left.
  Qed.

  (** the final table *)
  Lemma program_table prog fuel text : fmt_program T fuel prog = Ret text -> exists F functions texts,
    NoDup F /\ (forall t, t ∈ F <-> t ∈ flat_map comps (program_types prog)) /\
    fmt_functions prog F = Ret (functions, F) /\ length texts = length F /\
    (forall i t, F !! i = Some t -> exists txt, texts !! i = Some txt /\ fmt_comptype T i t F = Ret (txt, F)) /\
    text = String.concat "" texts ++ fmt_traits (pr_traits prog) ++ fmt_vtables (pr_vtables prog) ++ functions ++ fmt_globals (pr_globals prog).
  Proof.
    intros H. unfold fmt_program in H. apply obind_ret in H as ([fs ct] & Ef & H). apply obind_ret in H as ([cs F] & Ec & H). injection H as <-.
    destruct (prints_functions prog _ _ _ Ef) as [_ N I FF]. specialize (N (NoDup_nil_2)).
    assert (Hc : forall t, t ∈ ct -> is_comp t). { intros t Ht. apply I in Ht as [Ht|Ht]; [by apply elem_of_nil in Ht|]. apply in_flat in Ht as (x & _ & Ht). by eapply tops_comp. }
    destruct (loop_ok T _ _ _ _ _ Ec Hc) as (A1 & A2 & A3 & A4 & A5 & A6). destruct (A6 ltac:(lia) N) as (texts & -> & Hl & Ht). exists F, fs, texts. split_and!; try done.
    - auto.
    - intros t. split.
      + revert t. apply (A4 (fun t => t ∈ flat_map comps (program_types prog))).
        * intros t' Ht'. apply I in Ht' as [Ht'|Ht']; [by apply elem_of_nil in Ht'|]. by apply tops_in_comps.
        * intros t' u Ht' Hu. apply in_flat in Ht' as (x & Hx & Ht'). apply in_flat. exists x. split; [done|]. by eapply comps_kids.
      + intros H. apply in_flat in H as (x & Hx & H). eapply (comps_closed (fun t => t ∈ F)); [|intros u Hu|exact H].
        * intros t' u Ht' Hu. apply elem_of_list_lookup in Ht' as [k Hk]. apply (A3 k t'); [lia|done|done].
        * destruct A1 as [y ->]. apply elem_of_app. left. apply I. right. apply in_flat. by exists x.
    - apply FF; auto.
  Qed.
  Lemma program_gives prog : (exists fuel text, fmt_program T fuel prog = Ret text) <->
    printable_program prog /\ forall t, t ∈ flat_map comps (program_types prog) -> exists l, layout T t = Ret l.
  Proof.
    split.
    - intros (fuel & text & H). split.
      + apply (gives_functions prog []). unfold fmt_program in H. apply obind_ret in H as ([fs ct] & Ef & _). eauto.
      + destruct (program_table _ _ _ H) as (F & fs & texts & HN & HI & _ & Hl & Ht & _). intros t Hin. apply HI in Hin. apply elem_of_list_lookup in Hin as [i Hi].
        destruct (Ht _ _ Hi) as (txt & _ & E). unfold fmt_comptype in E. apply obind_ret in E as (kw & _ & E). apply obind_ret in E as (l & El & _). eauto.
    - intros [Hp Hl]. apply (gives_functions prog []) in Hp as (fs & ct & Ef). destruct (prints_functions prog _ _ _ Ef) as [_ N I FF]. specialize (N (NoDup_nil_2)).
      destruct (loop_gives T (flat_map comps (program_types prog))) with (fuel := length (flat_map comps (program_types prog))) (i := 0%nat) (ct := ct) as (s & F & E); try done.
      + intros t u Ht Hu. apply in_flat in Ht as (x & Hx & Ht'). apply in_flat. exists x. split; [done|]. by eapply comps_kids.
      + intros t Ht. split; [|auto]. apply in_flat in Ht as (x & Hx & Ht'). by eapply comps_is_comp.
      + intros t Ht. apply I in Ht as [Ht|Ht]; [by apply elem_of_nil in Ht|]. by apply tops_in_comps.
      + lia.
      + do 2 eexists. unfold fmt_program. rewrite Ef. cbn [obind]. rewrite E. reflexivity.
  Qed.
  (** more fuel gives the same *)
  Lemma loop_fuel fuel : forall i ct r, fmt_comptypes T fuel i ct = Ret r -> forall fuel', (fuel <= fuel')%nat -> fmt_comptypes T fuel' i ct = Ret r.
  Proof.
    induction fuel as [|fuel IH]; intros i ct r H fuel' Hf; cbn [fmt_comptypes] in H.
    - destruct fuel'; cbn [fmt_comptypes]; by destruct (ct !! i).
    - destruct fuel' as [|fuel']; [lia|]. cbn [fmt_comptypes]. destruct (ct !! i) as [c|]; [|done]. apply obind_ret in H as ([s1 c1] & E1 & H). rewrite E1. cbn [obind].
      apply obind_ret in H as ([s2 c2] & E2 & H). rewrite (IH _ _ _ E2) by lia. exact H.
  Qed.
  Lemma program_fuel prog fuel fuel' text : fmt_program T fuel prog = Ret text -> (fuel <= fuel')%nat -> fmt_program T fuel' prog = Ret text.
  Proof.
    intros H Hf. unfold fmt_program in *. apply obind_ret in H as ([fs ct] & Ef & H). rewrite Ef. cbn [obind]. apply obind_ret in H as ([s F] & E & H).
    rewrite (loop_fuel _ _ _ _ E) by done. exact H.
  Qed.
End Target.
