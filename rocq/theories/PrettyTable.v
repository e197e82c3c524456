(** The table of composite types: what printing adds to it, and that the text is that of the final table. *)
From Coq Require Import Ascii String DecimalString.
From Verif Require Export PrettyTexts.
Local Open Scope string_scope.

Record prints_at {A} (m : Table -> Outcome (A * Table)) (ts : list Ty) (ct : Table) (a : A) (ct' : Table) : Prop := {
  pa_grows : ct `prefix_of` ct';
  pa_nodup : NoDup ct -> NoDup ct';
  pa_in : forall s, s ∈ ct' <-> s ∈ ct \/ s ∈ ts;
  pa_final : forall F, NoDup F -> ct' `prefix_of` F -> m F = Ret (a, F);
}.
(** printing adds the types of [ts] *)
Definition Prints {A} (m : Table -> Outcome (A * Table)) (ts : list Ty) : Prop :=
  forall ct a ct', m ct = Ret (a, ct') -> prints_at m ts ct a ct'.

Lemma prints_ret {A} (a : A) : Prints (fun ct => Ret (a, ct)) [].
Proof.
  intros ct x ct' H. apply (inj Ret) in H || injection H as <- <-. split; try done. intros s. rewrite elem_of_nil. tauto.
Qed.
Lemma prints_bind {A B} (m : Table -> Outcome (A * Table)) (k : A -> Table -> Outcome (B * Table)) ts1 ts2 :
  Prints m ts1 -> (forall a, Prints (k a) ts2) -> Prints (fun ct => obind (m ct) (fun x => let '(a, ct) := x in k a ct)) (ts1 ++ ts2)%list.
Proof.
  intros H1 H2 ct b ct' H. apply obind_ret in H as ([a c1] & E1 & E2). destruct (H1 _ _ _ E1) as [G1 N1 I1 F1]. destruct (H2 _ _ _ _ E2) as [G2 N2 I2 F2]. split.
  - by etransitivity.
  - auto.
  - intros s. rewrite I2, I1, elem_of_app. tauto.
  - intros F HF HP. rewrite F1; [|done|by etransitivity]. cbn. auto.
Qed.
Lemma prints_let {A B} (m : Table -> A * Table) (k : A -> Table -> Outcome (B * Table)) ts1 ts2 :
  Prints (fun ct => Ret (m ct)) ts1 -> (forall a, Prints (k a) ts2) -> Prints (fun ct => let '(a, ct) := m ct in k a ct) (ts1 ++ ts2)%list.
Proof.
  intros H1 H2. assert (H := prints_bind _ k _ _ H1 H2). intros ct b ct' E. destruct (H ct b ct') as [G N I F].
  - cbn. exact E.
  - split; try done.
Qed.
Lemma prints_weaken {A} (m : Table -> Outcome (A * Table)) ts ts' : Prints m ts -> (forall s, s ∈ ts <-> s ∈ ts') -> Prints m ts'.
Proof. intros H E ct a ct' Hm. destruct (H _ _ _ Hm) as [G N I F]. split; try done. intros s. rewrite I, E. done. Qed.
Lemma prints_nil {A} (m : Table -> Outcome (A * Table)) ts : Prints m (ts ++ [])%list -> Prints m ts.
Proof. by rewrite app_nil_r. Qed.
Lemma prints_none {A} : @Prints A (fun _ => Panic) [].
Proof. done. Qed.
Lemma prints_map_st {A B} (f : Table -> A -> Outcome (B * Table)) (g : A -> list Ty) l : Forall (fun x => Prints (fun ct => f ct x) (g x)) l -> Prints (map_st f l) (flat_map g l).
Proof.
  induction 1 as [|x l Hx Hl IH]; cbn [flat_map].
  - exact (prints_ret []).
  - apply (prints_bind (fun ct => f ct x)); [done|]. intros y. apply prints_nil. apply prints_bind; [done|]. intros ys. exact (prints_ret (y :: ys)).
Qed.

Lemma position_nodup t F i : NoDup F -> F !! i = Some t -> position t F = Some i.
Proof.
  revert i. induction F as [|x F IH]; intros i Hn Hi; [done|]. apply NoDup_cons in Hn as [Hx Hn]. cbn [position]. destruct i as [|i]; cbn in Hi.
  - injection Hi as ->. by rewrite bool_decide_eq_true_2.
  - rewrite bool_decide_eq_false_2; [by rewrite (IH _ Hn Hi)|]. intros ->. apply Hx. by eapply elem_of_list_lookup_2.
Qed.
Lemma prints_index t : Prints (fun ct => Ret (get_comptype_index t ct)) [t].
Proof.
  intros ct i ct' H. injection H as H. pose proof (index_get _ _ _ _ H) as [Hi Hp]. split; [done| | |].
  - unfold get_comptype_index in H. destruct (position t ct) as [j|] eqn:E; injection H as <- <-; [done|]. intros Hn. apply NoDup_app. split; [done|]. split.
    + intros x Hx. rewrite elem_of_list_singleton. intros ->. by apply (position_none _ _ E).
    + apply NoDup_singleton.
  - intros s. unfold get_comptype_index in H. destruct (position t ct) as [j|] eqn:E; injection H as <- <-.
    + rewrite elem_of_list_singleton. split; [tauto|]. intros [Hs| ->]; [done|]. apply position_get in E. by eapply elem_of_list_lookup_2.
    + by rewrite elem_of_app.
  - intros F HF HP. unfold get_comptype_index. by rewrite (position_nodup t F i HF (prefix_get _ _ _ _ HP Hi)).
Qed.
Lemma prints_pure {A B} (m : Table -> A * Table) (h : A -> B) ts : Prints (fun ct => Ret (m ct)) ts -> Prints (fun ct => Ret (let '(a, ct) := m ct in (h a, ct))) ts.
Proof.
  intros H. apply prints_nil. intros ct b ct' E. destruct (prints_let m (fun a ct => Ret (h a, ct)) ts [] H (fun a => prints_ret (h a)) ct b ct') as [G N I F].
  - by destruct (m ct).
  - split; try done. intros G' HG HP. specialize (F G' HG HP). by destruct (m G').
Qed.
Lemma prints_type t : Prints (fun ct => Ret (fmt_type t ct)) (tops t).
Proof.
  induction t as [it| |pt|fs h u IHf IHu|e n IH|e IH|fs ch s a IHf|vs dt d s a IHv|tn] using Ty_ind'; cbn [fmt_type tops]; try exact (prints_ret _).
  all: try exact (prints_pure (get_comptype_index _) (fun i => FAtomic (fmt_comptype_index i)) _ (prints_index _)).
  - exact (prints_pure (fmt_type e) (fun f => FAtomic ("[" ++ to_string f ++ "; " ++ show_int n ++ "]")) _ IH).
  - exact (prints_pure (fmt_type e) (fun f => FAtomic ("[" ++ to_string f ++ "]")) _ IH).
Qed.

(** ** Expressions, statements, terminators *)

Definition all_tops (ts : list Ty) : list Ty := flat_map tops ts.
Lemma all_tops_app a b : all_tops (a ++ b)%list = (all_tops a ++ all_tops b)%list.
Proof. unfold all_tops. apply flat_map_app. Qed.

Ltac pr_eq := intros; unfold all_tops; cbn [flat_map]; rewrite ?flat_map_app, ?elem_of_app, ?elem_of_nil; cbn [flat_map]; rewrite ?elem_of_app, ?elem_of_nil; tauto.
Lemma prints_un op s : Prints (fun ct => Ret (fmt_un_op op s ct)) (all_tops (un_types op)).
Proof.
  destruct op as [[]|[it|ty]| | |ty|ty|m]; cbn [fmt_un_op un_types]; try exact (prints_ret _).
  all: eapply prints_weaken; [apply prints_pure with (h := fun t => FAtomic _); apply prints_type|pr_eq].
Qed.
Lemma prints_exprs : (forall e, Prints (fmt_value_expr e) (all_tops (value_types e))) /\ (forall p, Prints (fmt_place_expr p) (all_tops (place_types p))).
Proof.
  apply Expr_ind'; intros; cbn [fmt_value_expr fmt_place_expr value_types place_types].
  - exact (prints_ret _).
  - assert (Hl : Prints (map_st (fun ct x => fmt_value_expr x ct) es) (all_tops ((fix go l := match l with [] => [] | e :: r => value_types e ++ go r end) es)%list)).
    { eapply prints_weaken; [apply prints_map_st with (g := fun e => all_tops (value_types e)); exact H|]. intros s. clear. induction es as [|e es IH]; cbn [flat_map]; [done|].
      rewrite all_tops_app, !elem_of_app, IH. done. }
    intros ct f ct' E. assert (exists lp rp, (match ty with TArray _ _ => Ret ("[", "]") | TTuple _ _ _ => Ret ("(", ")") | _ => Panic end) = Ret (lp, rp)) as (lp & rp & Ep).
    { apply obind_ret in E as ([lp rp] & E & _). by exists lp, rp. }
    rewrite Ep in E. cbn [obind] in E. pose proof (prints_bind _ (fun l ct => Ret (FAtomic (lp ++ join_str ", " (List.map to_string l) ++ rp), ct)) _ [] Hl (fun l => prints_ret _) _ _ _ E) as [G N I F].
    rewrite app_nil_r in I. split; try done. intros F0 H1 H2. rewrite Ep. exact (F F0 H1 H2).
  - eapply prints_weaken; [apply prints_let; [apply prints_type|]; intros t; apply prints_bind; [exact H|]; intros e'; exact (prints_ret _)|pr_eq].
  - eapply prints_weaken; [apply prints_let; [apply prints_type|]; intros t; apply prints_bind; [exact H|]; intros e'; exact (prints_ret _)|pr_eq].
  - eapply prints_weaken; [apply prints_bind; [exact H|]; intros e'; exact (prints_ret _)|pr_eq].
  - eapply prints_weaken; [apply prints_bind; [exact H|]; intros e'; exact (prints_ret _)|pr_eq].
  - destruct pt as [m pi|pi|mk| |tn]; try done; (eapply prints_weaken; [apply prints_bind; [exact H|]; intros e'; exact (prints_ret _)|pr_eq]).
  - eapply prints_weaken; [apply prints_bind; [exact H|]; intros e'; exact (prints_un _ _)|pr_eq].
  - eapply prints_weaken; [apply prints_bind; [exact H|]; intros e'; apply prints_bind; [exact H0|]; intros e''; exact (prints_ret _)|pr_eq].
  - exact (prints_ret _).
  - eapply prints_weaken; [apply prints_let; [apply prints_type|]; intros t; apply prints_bind; [exact H|]; intros e'; exact (prints_ret _)|pr_eq].
  - eapply prints_weaken; [apply prints_bind; [exact H|]; intros e'; exact (prints_ret _)|pr_eq].
  - eapply prints_weaken; [apply prints_bind; [exact H|]; intros e'; apply prints_bind; [exact H0|]; intros e''; exact (prints_ret _)|pr_eq].
  - eapply prints_weaken; [apply prints_bind; [exact H|]; intros e'; exact (prints_ret _)|pr_eq].
Qed.
Lemma prints_value e : Prints (fmt_value_expr e) (all_tops (value_types e)).
Proof. apply prints_exprs. Qed.
Lemma prints_place p : Prints (fmt_place_expr p) (all_tops (place_types p)).
Proof. apply prints_exprs. Qed.
Lemma prints_stmt st : Prints (fmt_statement st) (all_tops (stmt_types st)).
Proof.
  destruct st as [p e|p|p d|p b|p|l|l]; cbn [fmt_statement stmt_types].
  - eapply prints_weaken; [apply prints_bind; [apply prints_place|]; intros e'; apply prints_bind; [apply prints_value|]; intros e''; exact (prints_ret _)|pr_eq].
  - eapply prints_weaken; [apply prints_bind; [apply prints_place|]; intros e'; exact (prints_ret _)|pr_eq].
  - eapply prints_weaken; [apply prints_bind; [apply prints_place|]; intros e'; exact (prints_ret _)|pr_eq].
  - eapply prints_weaken; [apply prints_bind; [apply prints_place|]; intros e'; exact (prints_ret _)|pr_eq].
  - eapply prints_weaken; [apply prints_bind; [apply prints_place|]; intros e'; exact (prints_ret _)|pr_eq].
  - exact (prints_ret _).
  - exact (prints_ret _).
Qed.
Lemma tops_flat {A} (g : A -> list Ty) l s : s ∈ flat_map (fun x => all_tops (g x)) l <-> s ∈ all_tops (flat_map g l).
Proof. induction l as [|x l IH]; cbn [flat_map]; [done|]. rewrite all_tops_app, !elem_of_app, IH. done. Qed.
Lemma prints_list {A B} (f : Table -> A -> Outcome (B * Table)) (g : A -> list Ty) l : (forall x, Prints (fun ct => f ct x) (all_tops (g x))) -> Prints (map_st f l) (all_tops (flat_map g l)).
Proof. intros H. eapply prints_weaken; [apply prints_map_st with (g := fun x => all_tops (g x)); apply Forall_forall; intros; apply H|]. intros s. apply tops_flat. Qed.
Lemma prints_call callee conv args p nb ub : Prints (fmt_call callee conv args p nb ub) (all_tops (place_types p)).
Proof. unfold fmt_call. eapply prints_weaken; [apply prints_bind; [apply prints_place|]; intros e'; exact (prints_ret _)|pr_eq]. Qed.
Lemma prints_arg a : Prints (fun ct => fmt_argument ct a) (all_tops (arg_types a)).
Proof.
  destruct a as [e|p]; cbn [fmt_argument arg_types].
  - eapply prints_weaken; [apply prints_bind; [apply prints_value|]; intros e'; exact (prints_ret _)|pr_eq].
  - eapply prints_weaken; [apply prints_bind; [apply prints_place|]; intros e'; exact (prints_ret _)|pr_eq].
Qed.
Lemma prints_term t : Prints (fmt_terminator t) (all_tops (term_types t)).
Proof.
  destruct t as [b|e cases fb| |op es p nb|c conv l p nb ub| |e b|b|]; cbn [fmt_terminator term_types]; try exact (prints_ret _).
  - eapply prints_weaken; [apply prints_bind; [apply prints_value|]; intros e'; exact (prints_ret _)|pr_eq].
  - eapply prints_weaken; [apply prints_bind; [apply prints_list; intros x; apply prints_value|]; intros e'; apply prints_call|pr_eq].
  - eapply prints_weaken; [apply prints_bind; [apply prints_value|]; intros e'; apply prints_bind; [apply prints_list; intros x; apply prints_arg|]; intros e''; apply prints_call|pr_eq].
  - eapply prints_weaken; [apply prints_bind; [apply prints_value|]; intros e'; exact (prints_ret _)|pr_eq].
Qed.
Lemma prints_bb name b start : Prints (fmt_bb name b start) (all_tops (block_types b)).
Proof.
  unfold fmt_bb, block_types. eapply prints_weaken; [apply prints_bind; [apply prints_list with (g := stmt_types); intros st; apply prints_nil; apply prints_bind; [apply prints_stmt|]; intros s; exact (prints_ret _)|];
    intros ss; apply prints_bind; [apply prints_term|]; intros tm; exact (prints_ret _)|pr_eq].
Qed.
Lemma prints_local l : Prints (fun ct => fmt_local ct l) (all_tops [snd l]).
Proof. unfold fmt_local. eapply prints_weaken; [apply prints_let; [apply prints_type|]; intros t; exact (prints_ret _)|pr_eq]. Qed.
Lemma sorted_in {A} (l : list (N * A)) (g : N * A -> list Ty) s : s ∈ all_tops (flat_map g (sort_by_name l)) <-> s ∈ all_tops (flat_map g l).
Proof.
  unfold all_tops. rewrite !elem_of_list_In, !in_flat_map.
  assert (E : forall x, In x (flat_map g (sort_by_name l)) <-> In x (flat_map g l)).
  { intros x. rewrite !in_flat_map. assert (Hp : forall y, In y (sort_by_name l) <-> In y l).
    { intros y. rewrite <- !elem_of_list_In. unfold sort_by_name. by rewrite (merge_sort_Permutation name_le l). }
    split; intros (y & Hy & Hx); exists y; (split; [by apply Hp|done]). }
  split; intros (x & Hx & Hs); exists x; (split; [by apply E|done]).
Qed.
Lemma prints_function name f start : Prints (fmt_function name f start) (all_tops (function_types f)).
Proof.
  unfold fmt_function, function_types. eapply prints_weaken; [apply prints_bind; [apply prints_list with (g := fun l => [snd l]); intros l; apply prints_local|];
    intros ls; apply prints_bind; [apply prints_list with (g := fun b => block_types (snd b)); intros b; apply prints_bb|]; intros bs; exact (prints_ret _)|].
  intros s. rewrite all_tops_app, !elem_of_app, !sorted_in, elem_of_nil. replace (flat_map (fun l : N * Ty => [l.2]) (fn_locals f)) with (List.map snd (fn_locals f)); [tauto|].
  induction (fn_locals f) as [|x l IH]; cbn; [done|]. by rewrite IH.
Qed.
Lemma prints_functions prog : Prints (fmt_functions prog) (all_tops (program_types prog)).
Proof.
  unfold fmt_functions, program_types. eapply prints_weaken; [apply prints_bind; [apply prints_list with (g := fun f => function_types (snd f)); intros f; apply prints_function|]; intros fs; exact (prints_ret _)|].
  intros s. rewrite elem_of_app, sorted_in, elem_of_nil. tauto.
Qed.
