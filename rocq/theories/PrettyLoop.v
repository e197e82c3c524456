(** The loop over the table of composite types, and when the printer gives a text. *)
From Coq Require Import Ascii String DecimalString.
From Verif Require Export PrettyTable.
Local Open Scope string_scope.

Lemma ret_inv' {A B} (a c : A) (b d : B) : Ret (a, b) = Ret (c, d) -> a = c /\ b = d.
Proof. by intros [= -> ->]. Qed.

(** the types in the text of a composite type *)
Definition kids (t : Ty) : list Ty :=
  match t with
  | TTuple fields _ unsized => (List.map snd fields ++ match unsized with Some u => [u] | None => [] end)%list
  | TUnion fields _ _ _ => List.map snd fields
  | TEnum variants _ _ _ _ => List.map (fun v => fst (snd v)) variants
  | _ => []
  end.
Definition is_comp (t : Ty) : Prop := match t with TTuple _ _ _ | TUnion _ _ _ _ | TEnum _ _ _ _ _ => True | _ => False end.

Lemma comps_comp t : is_comp t -> comps t = t :: flat_map comps (kids t).
Proof.
  destruct t as [it| |pt|fs h u|e n|e|fs ch s a|vs dt d s a|tn]; try done; intros _; cbn [comps kids]; f_equal.
  - rewrite flat_map_app. f_equal.
    + induction fs as [|f fs IH]; cbn; [done|]. by rewrite IH.
    + destruct u as [u|]; cbn; [by rewrite app_nil_r|done].
  - induction fs as [|f fs IH]; cbn; [done|]. by rewrite IH.
  - induction vs as [|f fs IH]; cbn; [done|]. by rewrite IH.
Qed.
Lemma tops_comp t u : u ∈ tops t -> is_comp u.
Proof.
  induction t as [it| |pt|fs h u' IHf IHu|e n IH|e IH|fs ch s a IHf|vs dt d s a IHv|tn] using Ty_ind'; cbn [tops]; rewrite ?elem_of_nil, ?elem_of_list_singleton; try done; intros ->; done.
Qed.
Lemma comps_tops t s : s ∈ comps t <-> exists u, u ∈ tops t /\ s ∈ comps u.
Proof.
  induction t as [it| |pt|fs h u' IHf IHu|e n IH|e IH|fs ch s' a IHf|vs dt d s' a IHv|tn] using Ty_ind'; try exact IH.
  all: try (cbn [comps tops]; rewrite elem_of_nil; split; [done|]; intros (u & Hu & _); by apply elem_of_nil in Hu).
  all: cbn [tops]; split; [intros H; eexists; split; [by apply elem_of_list_singleton|done]|intros (u & Hu & Hs); apply elem_of_list_singleton in Hu; by subst].
Qed.
(** what is in a type is smaller *)
Lemma in_flat {A} (g : A -> list Ty) l s : s ∈ flat_map g l <-> exists x, x ∈ l /\ s ∈ g x.
Proof. rewrite elem_of_list_In, in_flat_map. split; intros (x & H1 & H2); exists x; rewrite elem_of_list_In in *; rewrite ?elem_of_list_In in *; done. Qed.
Lemma comps_is_comp t : forall s, s ∈ comps t -> is_comp s.
Proof.
  induction t as [it| |pt|fs h u IHf IHu|e n IH|e IH|fs ch s' a IHf|vs dt d s' a IHv|tn] using Ty_ind'; intros x Hx; try (by apply elem_of_nil in Hx); try (by apply IH).
  - rewrite comps_comp in Hx by done. apply elem_of_cons in Hx as [->|Hx]; [done|]. apply in_flat in Hx as (y & Hy & Hx). cbn [kids] in Hy. apply elem_of_app in Hy as [Hy|Hy].
    + apply elem_of_list_fmap in Hy as (f & -> & Hf). rewrite Forall_forall in IHf. by eapply (IHf f).
    + destruct u as [u|]; [|by apply elem_of_nil in Hy]. apply elem_of_list_singleton in Hy as ->. by eapply IHu.
  - rewrite comps_comp in Hx by done. apply elem_of_cons in Hx as [->|Hx]; [done|]. apply in_flat in Hx as (y & Hy & Hx). cbn [kids] in Hy. 
    apply elem_of_list_fmap in Hy as (f & -> & Hf). rewrite Forall_forall in IHf. by eapply (IHf f).
  - rewrite comps_comp in Hx by done. apply elem_of_cons in Hx as [->|Hx]; [done|]. apply in_flat in Hx as (y & Hy & Hx). cbn [kids] in Hy. 
    apply elem_of_list_fmap in Hy as (f & -> & Hf). rewrite Forall_forall in IHv. by eapply (IHv f).
Qed.
(** a set of types with the tops of [t], and of the parts of its composite types, has the composite types in [t] *)
Lemma comps_closed (P : Ty -> Prop) : (forall t u, P t -> u ∈ all_tops (kids t) -> P u) -> forall t, (forall u, u ∈ tops t -> P u) -> forall s, s ∈ comps t -> P s.
Proof.
  intros HP. induction t as [it| |pt|fs h u IHf IHu|e n IH|e IH|fs ch s' a IHf|vs dt d s' a IHv|tn] using Ty_ind'; intros Ht x Hx; try (by apply elem_of_nil in Hx); try (by apply IH).
  - assert (Hp : P (TTuple fs h u)) by (apply Ht; by apply elem_of_list_singleton).
    rewrite comps_comp in Hx by done. apply elem_of_cons in Hx as [->|Hx]; [done|]. apply in_flat in Hx as (y & Hy & Hx).
    assert (Hy' : forall w, w ∈ tops y -> P w) by (intros w Hw; eapply HP; [exact Hp|]; apply in_flat; by exists y).
    cbn [kids] in Hy. apply elem_of_app in Hy as [Hy|Hy].
    + apply elem_of_list_fmap in Hy as (f & -> & Hf). rewrite Forall_forall in IHf. by apply (IHf f).
    + destruct u as [u|]; [|by apply elem_of_nil in Hy]. apply elem_of_list_singleton in Hy as ->. by eapply IHu.
  - assert (Hp : P (TUnion fs ch s' a)) by (apply Ht; by apply elem_of_list_singleton).
    rewrite comps_comp in Hx by done. apply elem_of_cons in Hx as [->|Hx]; [done|]. apply in_flat in Hx as (y & Hy & Hx).
    assert (Hy' : forall w, w ∈ tops y -> P w) by (intros w Hw; eapply HP; [exact Hp|]; apply in_flat; by exists y).
    cbn [kids] in Hy. apply elem_of_list_fmap in Hy as (f & -> & Hf). rewrite Forall_forall in IHf. by apply (IHf f).
  - assert (Hp : P (TEnum vs dt d s' a)) by (apply Ht; by apply elem_of_list_singleton).
    rewrite comps_comp in Hx by done. apply elem_of_cons in Hx as [->|Hx]; [done|]. apply in_flat in Hx as (y & Hy & Hx).
    assert (Hy' : forall w, w ∈ tops y -> P w) by (intros w Hw; eapply HP; [exact Hp|]; apply in_flat; by exists y).
    cbn [kids] in Hy. apply elem_of_list_fmap in Hy as (f & -> & Hf). rewrite Forall_forall in IHv. by apply (IHv f).
Qed.
Lemma comps_kids t : forall s u, s ∈ comps t -> u ∈ all_tops (kids s) -> u ∈ comps t.
Proof.
  assert (Hself : forall s u, is_comp s -> u ∈ all_tops (kids s) -> u ∈ comps s).
  { intros s u Hs Hu. rewrite comps_comp by done. apply elem_of_cons. right. apply in_flat in Hu as (k & Hk & Hu). apply in_flat. exists k. split; [done|].
    apply comps_tops. exists u. split; [done|]. rewrite comps_comp by (by eapply tops_comp). by left. }
  induction t as [it| |pt|fs h u IHf IHu|e n IH|e IH|fs ch s' a IHf|vs dt d s' a IHv|tn] using Ty_ind'; intros x w Hx Hw; try (by apply elem_of_nil in Hx); try (by eapply IH).
  - rewrite comps_comp in Hx by done. apply elem_of_cons in Hx as [->|Hx]; [by apply Hself|]. rewrite comps_comp by done. apply elem_of_cons. right. apply in_flat in Hx as (y & Hy & Hx). apply in_flat. exists y. split; [done|].
    cbn [kids] in Hy. apply elem_of_app in Hy as [Hy|Hy].
    + apply elem_of_list_fmap in Hy as (f & -> & Hf). rewrite Forall_forall in IHf. by eapply (IHf f).
    + destruct u as [u|]; [|by apply elem_of_nil in Hy]. apply elem_of_list_singleton in Hy as ->. by eapply IHu.
  - rewrite comps_comp in Hx by done. apply elem_of_cons in Hx as [->|Hx]; [by apply Hself|]. rewrite comps_comp by done. apply elem_of_cons. right. apply in_flat in Hx as (y & Hy & Hx). apply in_flat. exists y. split; [done|].
    cbn [kids] in Hy. apply elem_of_list_fmap in Hy as (f & -> & Hf). rewrite Forall_forall in IHf. by eapply (IHf f).
  - rewrite comps_comp in Hx by done. apply elem_of_cons in Hx as [->|Hx]; [by apply Hself|]. rewrite comps_comp by done. apply elem_of_cons. right. apply in_flat in Hx as (y & Hy & Hx). apply in_flat. exists y. split; [done|].
    cbn [kids] in Hy. apply elem_of_list_fmap in Hy as (f & -> & Hf). rewrite Forall_forall in IHv. by eapply (IHv f).
Qed.

Section Loop.
  Variable T : Target.

  Lemma prints_fields fs : Prints (fun ct => Ret (fmt_comptype_fields fs ct)) (all_tops (List.map snd fs)).
  Proof.
    induction fs as [|[o f] fs IH]; cbn [fmt_comptype_fields List.map]; [exact (prints_ret _)|].
    intros ct a ct' E. destruct (prints_let (fmt_type f) (fun ty ct => Ret (let '(s, ct) := fmt_comptype_fields fs ct in ("  at byte " ++ show_nat o ++ ": " ++ to_string ty ++ "," ++ newline ++ s, ct)))
      _ _ (prints_type f) (fun ty => prints_pure (fmt_comptype_fields fs) (fun s => "  at byte " ++ show_nat o ++ ": " ++ to_string ty ++ "," ++ newline ++ s) _ IH) ct a ct') as [G N I FF].
    - destruct (fmt_type f ct). exact E.
    - split; try done. intros F HF HP. specialize (FF F HF HP). destruct (fmt_type f F). exact FF.
  Qed.
  Lemma prints_variants vs : Prints (fun ct => Ret (fmt_comptype_variants vs ct)) (all_tops (List.map (fun v => fst (snd v)) vs)).
  Proof.
    induction vs as [|[o f] fs IH]; cbn [fmt_comptype_variants List.map]; [exact (prints_ret _)|].
    intros ct a ct' E. destruct (prints_let (fmt_type (fst f)) (fun ty ct => Ret (let '(s, ct) := fmt_comptype_variants fs ct in ("  Variant " ++ show_int o ++ ": " ++ to_string ty ++ newline ++ s, ct)))
      _ _ (prints_type (fst f)) (fun ty => prints_pure (fmt_comptype_variants fs) (fun s => "  Variant " ++ show_int o ++ ": " ++ to_string ty ++ newline ++ s) _ IH) ct a ct') as [G N I FF].
    - destruct (fmt_type (fst f) ct). exact E.
    - split; try done. intros F HF HP. specialize (FF F HF HP). destruct (fmt_type (fst f) F). exact FF.
  Qed.
  Lemma prints_comptype i t : is_comp t -> Prints (fmt_comptype T i t) (all_tops (kids t)).
  Proof.
    intros Ht ct a ct' E. unfold fmt_comptype in E. apply obind_ret in E as (kw & Ek & E). apply obind_ret in E as (l & El & E).
    assert (Hb : Prints (fun ct => match t with
      | TTuple fields _ unsized =>
          let '(s, ct) := fmt_comptype_fields fields ct in
          match unsized with
          | None => Ret (s, ct)
          | Some u => let '(ty, ct) := fmt_type u ct in Ret (s ++ "  tail: " ++ to_string ty ++ "," ++ newline, ct)
          end
      | TUnion fields chunks _ _ => let '(s, ct) := fmt_comptype_fields fields ct in Ret (s ++ fmt_comptype_chunks chunks, ct)
      | TEnum variants dty _ _ _ =>
          let '(s, ct) := fmt_comptype_variants variants ct in
          Ret ("  Discriminant: " ++ fmt_int_type dty ++ newline ++ s, ct)
      | _ => Panic
      end) (all_tops (kids t))).
    { clear. destruct t as [it| |pt|fs h u|e n|e|fs ch s a|vs dt d s a|tn]; cbn [kids]; try done.
      - destruct u as [u|].
        + eapply prints_weaken; [apply prints_let; [apply prints_fields|]; intros s; apply prints_let; [apply prints_type|]; intros ty; exact (prints_ret _)|pr_eq].
        + eapply prints_weaken; [apply prints_let; [apply prints_fields|]; intros s; exact (prints_ret _)|pr_eq].
      - eapply prints_weaken; [apply prints_let; [apply prints_fields|]; intros s'; exact (prints_ret _)|pr_eq].
      - eapply prints_weaken; [apply prints_let; [apply prints_variants|]; intros s'; exact (prints_ret _)|pr_eq]. }
    destruct (prints_bind _ (fun body ct => Ret ((kw ++ " " ++ fmt_comptype_index i ++ " (" ++ fmt_layout_strategy l ++ ") {" ++ newline) ++ body ++ "}" ++ newline ++ newline, ct)) _ [] Hb (fun b => prints_ret _) ct a ct' E)
      as [G N I FF]. rewrite app_nil_r in I. split; try done. intros F HF HP. unfold fmt_comptype. rewrite Ek. cbn [obind]. rewrite El. cbn [obind]. exact (FF F HF HP).
  Qed.

  (** *** The loop *)
  Lemma loop_ok fuel : forall i ct s F, fmt_comptypes T fuel i ct = Ret (s, F) -> (forall t, t ∈ ct -> is_comp t) ->
    ct `prefix_of` F /\ (NoDup ct -> NoDup F) /\
    (forall k t u, (i <= k)%nat -> F !! k = Some t -> u ∈ all_tops (kids t) -> u ∈ F) /\
    (forall P : Ty -> Prop, (forall t, t ∈ ct -> P t) -> (forall t u, P t -> u ∈ all_tops (kids t) -> P u) -> forall t, t ∈ F -> P t) /\
    (forall t, t ∈ F -> is_comp t) /\
    ((i <= length ct)%nat -> NoDup ct -> exists texts, s = String.concat "" texts /\ (i + length texts = length F)%nat /\
      forall k t, F !! (i + k)%nat = Some t -> exists txt, texts !! k = Some txt /\ fmt_comptype T (i + k)%nat t F = Ret (txt, F)).
  Proof.
    induction fuel as [|fuel IH]; intros i ct s F E Hc; cbn [fmt_comptypes] in E.
    - destruct (ct !! i) as [c|] eqn:Ei; [done|]. injection E as <- <-. apply lookup_ge_None in Ei. split_and!; try done.
      + intros k t u Hk Ht. apply lookup_lt_Some in Ht. lia.
      + intros Hi _. exists []. split; [done|]. split; [cbn; lia|]. intros k t Ht. apply lookup_lt_Some in Ht. lia.
    - destruct (ct !! i) as [c|] eqn:Ei.
      + apply obind_ret in E as ([s1 c1] & E1 & E). apply obind_ret in E as ([s2 c2] & E2 & E). apply ret_inv' in E as [<- <-].
        assert (Hcc : is_comp c) by (apply Hc; by eapply elem_of_list_lookup_2). destruct (prints_comptype i c Hcc _ _ _ E1) as [G1 N1 I1 F1].
        assert (Hc1 : forall t, t ∈ c1 -> is_comp t). { intros t Ht. apply I1 in Ht as [Ht|Ht]; [by apply Hc|]. apply in_flat in Ht as (x & _ & Ht). by eapply tops_comp. }
        destruct (IH _ _ _ _ E2 Hc1) as (A1 & A2 & A3 & A4 & A5 & A6). split_and!.
        * by etransitivity.
        * auto.
        * intros k t u Hk Ht Hu. destruct (Nat.eq_dec k i) as [->|Hne]; [|apply (A3 k t u); [lia|done|done]].
          assert (t = c) as -> by (assert (c2 !! i = Some c) by (eapply prefix_get; [exact A1|]; eapply prefix_get; [exact G1|exact Ei]); congruence).
          destruct A1 as [x ->]. apply elem_of_app. left. apply I1. by right.
        * intros P P1 P2. apply A4; [|done]. intros t Ht. apply I1 in Ht as [Ht|Ht]; [by apply P1|]. eapply P2; [|exact Ht]. apply P1. by eapply elem_of_list_lookup_2.
        * done.
        * intros Hi Hn. apply lookup_lt_Some in Ei as Hlt. destruct A6 as (texts & -> & Hl & Ht); [pose proof (prefix_length _ _ G1); lia|auto|].
          exists (s1 :: texts). split; [|split].
          -- destruct texts; cbn; [|done]. clear. by induction s1 as [|x s1 IH]; cbn; [|rewrite IH].
          -- cbn. lia.
          -- intros k t Hk. destruct k as [|k].
             ++ rewrite Nat.add_0_r in *. exists s1. split; [done|]. assert (t = c) as -> by (assert (c2 !! i = Some c) by (eapply prefix_get; [exact A1|]; eapply prefix_get; [exact G1|exact Ei]); congruence). apply F1; auto.
             ++ replace (i + S k)%nat with (S i + k)%nat in * by lia. by apply Ht.
      + injection E as <- <-. apply lookup_ge_None in Ei. split_and!; try done.
        * intros k t u Hk Ht. apply lookup_lt_Some in Ht. lia.
        * intros Hi _. exists []. split; [done|]. split; [cbn; lia|]. intros k t Ht. apply lookup_lt_Some in Ht. lia.
  Qed.

  Lemma comptype_gives i t ct : is_comp t -> (exists l, layout T t = Ret l) -> exists s ct', fmt_comptype T i t ct = Ret (s, ct').
  Proof.
    intros Ht [l El]. unfold fmt_comptype. rewrite El. destruct t as [it| |pt|fs h u|e n|e|fs ch s a|vs dt d s a|tn]; try done; cbn [obind].
    - destruct (fmt_comptype_fields fs ct) as [s1 c1]. destruct u as [u|]; [destruct (fmt_type u c1)|]; cbn; eauto.
    - destruct (fmt_comptype_fields fs ct) as [s1 c1]. cbn; eauto.
    - destruct (fmt_comptype_variants vs ct) as [s1 c1]. cbn; eauto.
  Qed.
  Lemma loop_gives (S0 : list Ty) : (forall t u, t ∈ S0 -> u ∈ all_tops (kids t) -> u ∈ S0) -> (forall t, t ∈ S0 -> is_comp t /\ exists l, layout T t = Ret l) ->
    forall fuel i ct, NoDup ct -> (forall t, t ∈ ct -> t ∈ S0) -> (length S0 <= fuel + i)%nat -> exists s F, fmt_comptypes T fuel i ct = Ret (s, F).
  Proof.
    intros Hcl Hok. induction fuel as [|fuel IH]; intros i ct Hn Hin Hf; cbn [fmt_comptypes].
    - destruct (ct !! i) as [c|] eqn:Ei; [|eauto]. apply lookup_lt_Some in Ei. assert (length ct <= length S0)%nat by (apply submseteq_length, NoDup_submseteq; done). lia.
    - destruct (ct !! i) as [c|] eqn:Ei; [|eauto]. assert (Hc : c ∈ S0) by (apply Hin; by eapply elem_of_list_lookup_2). destruct (Hok _ Hc) as [Hcc Hl].
      destruct (comptype_gives i c ct Hcc Hl) as (s1 & c1 & E1). rewrite E1. cbn [obind]. destruct (prints_comptype i c Hcc _ _ _ E1) as [G1 N1 I1 F1].
      destruct (IH (S i) c1) as (s2 & c2 & E2); [auto| |lia|].
      + intros t Ht. apply I1 in Ht as [Ht|Ht]; [by apply Hin|]. by eapply Hcl.
      + rewrite E2. cbn. eauto.
  Qed.
  (** a type without a layout stops it *)
  Lemma loop_layouts fuel : forall i ct s F, fmt_comptypes T fuel i ct = Ret (s, F) -> (forall t, t ∈ ct -> is_comp t) ->
    forall k t, (i <= k)%nat -> F !! k = Some t -> exists l, layout T t = Ret l.
  Proof.
    induction fuel as [|fuel IH]; intros i ct s F E Hc k t Hk Ht; pose proof E as E0; cbn [fmt_comptypes] in E.
    - destruct (ct !! i) as [c|] eqn:Ei; [done|]. injection E as <- <-. apply lookup_ge_None in Ei. apply lookup_lt_Some in Ht. lia.
    - destruct (ct !! i) as [c|] eqn:Ei.
      + apply obind_ret in E as ([s1 c1] & E1 & E). apply obind_ret in E as ([s2 c2] & E2 & E). apply ret_inv' in E as [<- <-].
        assert (Hcc : is_comp c) by (apply Hc; by eapply elem_of_list_lookup_2). destruct (prints_comptype i c Hcc _ _ _ E1) as [G1 N1 I1 F1].
        assert (Hc1 : forall t, t ∈ c1 -> is_comp t). { intros t' Ht'. apply I1 in Ht' as [Ht'|Ht']; [by apply Hc|]. apply in_flat in Ht' as (x & _ & Ht'). by eapply tops_comp. }
        destruct (Nat.eq_dec k i) as [->|Hne]; [|eapply (IH _ _ _ _ E2 Hc1 k); [lia|done]].
        destruct (loop_ok _ _ _ _ _ E2 Hc1) as (A1 & _). assert (c2 !! i = Some c) by (eapply prefix_get; [exact A1|]; eapply prefix_get; [exact G1|exact Ei]). assert (t = c) as -> by congruence.
        unfold fmt_comptype in E1. apply obind_ret in E1 as (kw & _ & E1). apply obind_ret in E1 as (l & El & _). eauto.
      + injection E as <- <-. apply lookup_ge_None in Ei. apply lookup_lt_Some in Ht. lia.
  Qed.
End Loop.
