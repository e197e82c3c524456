(** The text of a program determines the program, up to what the text leaves out. *)
From Coq Require Import Ascii String DecimalString.
From Verif Require Export PrettyAlike PrettyStmts PrettyWf.
Local Open Scope string_scope.

(** ** Codes: texts after which one knows what was printed, and where it ended *)

Definition codes {A V} (E : string -> Prop) (R : A -> string -> Prop) (view : A -> V) : Prop :=
  forall x t x' t' r r', R x t -> R x' t' -> E r -> E r' -> t ++ r = t' ++ r' -> view x = view x' /\ r = r'.
Definition any (r : string) : Prop := True.

Lemma app_same (k a b : string) : k ++ a = k ++ b -> a = b.
Proof. induction k as [|c k IH]; cbn; [done|]. intros H. injection H as H. auto. Qed.
Lemma nat_code a b r r' : nodigit r -> nodigit r' -> show_nat a ++ r = show_nat b ++ r' -> a = b /\ r = r'.
Proof. intros H H' E. pose proof (read_nat_ok a r H) as E1. rewrite E, (read_nat_ok b r' H') in E1. by injection E1 as -> ->. Qed.
Lemma align_code a b r r' : nodigit r -> nodigit r' -> show_nat (align_bytes a) ++ r = show_nat (align_bytes b) ++ r' -> a = b /\ r = r'.
Proof. intros H H' E. pose proof (read_align_ok a r H) as E1. rewrite E, (read_align_ok b r' H') in E1. by injection E1 as -> ->. Qed.
Lemma nodigit_newline r : nodigit (newline ++ r).
Proof. done. Qed.

(** a list of texts, one after the other, up to something that is none of them *)
Lemma list_code {A V} (R : A -> string -> Prop) (view : A -> V) l ts l' ts' r r' :
  codes any R view -> Forall2 R l ts -> Forall2 R l' ts' ->
  (forall x t s, R x t -> r <> t ++ s) -> (forall x t s, R x t -> r' <> t ++ s) ->
  String.concat "" ts ++ r = String.concat "" ts' ++ r' -> List.map view l = List.map view l' /\ r = r'.
Proof.
  assert (Hc : forall t ts, String.concat "" (t :: ts) = t ++ String.concat "" ts) by (intros t [|u us]; cbn; [by rewrite str_nil|done]).
  intros HR H. revert l' ts' r r'. induction H as [|x t l ts Hx Hl IH]; intros l' ts' r r' H' Hr Hr' E.
  - destruct H' as [|x' t' l' ts' Hx' Hl']; [done|]. rewrite Hc, str_assoc in E. cbn in E. by destruct (Hr _ _ _ Hx' E).
  - destruct H' as [|x' t' l' ts' Hx' Hl']; rewrite !Hc, ?str_assoc in E.
    + symmetry in E. by destruct (Hr' _ _ _ Hx E).
    + destruct (HR _ _ _ _ _ _ Hx Hx' I I E) as [E1 E2]. destruct (IH _ _ _ _ Hl' Hr Hr' E2) as [E3 E4]. cbn [List.map]. by rewrite E1, E3.
Qed.
(** a list of texts with a separator, up to a closing bracket *)
Lemma join_code {A V} (E : string -> Prop) (R : A -> string -> Prop) (view : A -> V) sep close l ts l' ts' r r' :
  codes E R view -> (forall s, E (sep ++ s)) -> (forall s, E (close ++ s)) -> (forall s s', sep ++ s <> close ++ s') ->
  (forall x t s s', R x t -> t ++ s <> close ++ s') -> Forall2 R l ts -> Forall2 R l' ts' ->
  join_str sep ts ++ close ++ r = join_str sep ts' ++ close ++ r' -> List.map view l = List.map view l' /\ r = r'.
Proof.
  intros HR Es Ec Hsc Hc H. revert l' ts'. induction H as [|x t l ts Hx Hl IH]; intros l' ts' H' EQ.
  - destruct H' as [|x' t' l' ts' Hx' Hl'].
    + cbn [join_str append] in EQ. by apply app_same in EQ.
    + exfalso. symmetry in EQ. destruct ts' as [|u us]; cbn [join_str append] in EQ; rewrite ?str_assoc in EQ; by apply (Hc _ _ _ _ Hx') in EQ.
  - destruct H' as [|x' t' l' ts' Hx' Hl'].
    + exfalso. destruct ts as [|u us]; cbn [join_str append] in EQ; rewrite ?str_assoc in EQ; by apply (Hc _ _ _ _ Hx) in EQ.
    + specialize (IH l' ts' Hl'). destruct Hl as [|y u l ts Hy Hl], Hl' as [|y' u' l' ts' Hy' Hl']; cbn [join_str] in *; rewrite ?str_assoc in *.
      * destruct (HR _ _ _ _ _ _ Hx Hx' (Ec _) (Ec _) EQ) as [E1 E2]. apply app_same in E2. cbn [List.map]. by rewrite E1.
      * destruct (HR _ _ _ _ _ _ Hx Hx' (Ec _) (Es _) EQ) as [E1 E2]. symmetry in E2. by apply Hsc in E2.
      * destruct (HR _ _ _ _ _ _ Hx Hx' (Es _) (Ec _) EQ) as [E1 E2]. by apply Hsc in E2.
      * destruct (HR _ _ _ _ _ _ Hx Hx' (Es _) (Es _) EQ) as [E1 E2]. apply app_same in E2. destruct (IH E2) as [E3 E4]. cbn [List.map] in *. by rewrite E1, E3.
Qed.

(** ** Blocks *)

Section Codes.
  Variable F : list Ty.
  Opaque read_value read_atom read_place read_patom.

  Definition p_stmt (s : Statement) (t : string) : Prop := ok_stmt s /\ fmt_statement s F = Ret (t, F).
  Definition p_term (s : Terminator) (t : string) : Prop := ok_term s /\ fmt_terminator s F = Ret (t, F).

  Lemma stmt_code : codes any p_stmt forget_stmt.
  Proof.
    intros s t s' t' r r' [H E] [H' E'] _ _ Hs. destruct (stmt_back F _ _ _ _ E ltac:(done) H) as [n0 B]. destruct (stmt_back F _ _ _ _ E' ltac:(done) H') as [n1 B'].
    specialize (B (n0 + n1)%nat r ltac:(lia)). specialize (B' (n0 + n1)%nat r' ltac:(lia)). rewrite Hs in B. rewrite B in B'. by injection B'.
  Qed.
  Lemma term_code : codes any p_term forget_term.
  Proof.
    intros s t s' t' r r' [H E] [H' E'] _ _ Hs. destruct (term_back F _ _ _ _ E ltac:(done) H) as [n0 B]. destruct (term_back F _ _ _ _ E' ltac:(done) H') as [n1 B'].
    specialize (B (n0 + n1)%nat r ltac:(lia)). specialize (B' (n0 + n1)%nat r' ltac:(lia)). rewrite Hs in B. rewrite B in B'. by injection B'.
  Qed.

  (** a statement is not a terminator *)
  Lemma value_keys e ct f ct' r : ok_value e -> fmt_value_expr e ct = Ret (f, ct') -> Forall (fun k => eat k (to_string f ++ r) = None) keys.
  Proof.
    assert (K : forall c s, In c ["-"; "!"; "&"; "T"; "("]%char -> Forall (fun k => eat k (String c s) = None) keys).
    { intros c s Hc. cbn [In] in Hc. unfold keys, intrinsics. cbn [List.map]. repeat (destruct Hc as [<-|Hc]; [repeat (constructor; [reflexivity|]); constructor|]). done. }
    intros Hok H. destruct f as [s|s]; [|exact (atom_keys _ _ _ _ r H)]. cbn [to_string].
    destruct e as [c ty|es ty|i e ty|i e ty|p|p|p pt|op e|op e1 e2]; cbn [fmt_value_expr] in H.
    - apply ret_inv in H as [H _]. destruct c as [i|b|g|g|v|a]; cbn [fmt_constant] in H; try done.
      + unfold fmt_relocation in H. destruct (_ =? _)%N; [done|]. injection H as <-. unfold keys, intrinsics. cbn [List.map]. rewrite ?str_assoc; repeat (constructor; [reflexivity|]); constructor.
      + destruct (_ =? _)%Z; done.
    - apply obind_ret in H as ([lp rp0] & Ep & H). apply obind_ret in H as ([l c1] & E & H). apply ret_inv in H as [H _]. done.
    - destruct Hok as [Hc _]. destruct ty; try done; cbn [fmt_type] in H; destruct (get_comptype_index _ ct) as [k c0]; apply obind_ret in H as ([? ?] & _ & H); apply ret_inv in H as [H _]; injection H as <-; apply K; cbn; auto 10.
    - destruct Hok as [Hc _]. destruct ty; try done; cbn [fmt_type] in H; destruct (get_comptype_index _ ct) as [k c0]; apply obind_ret in H as ([? ?] & _ & H); apply ret_inv in H as [H _]; injection H as <-; apply K; cbn; auto 10.
    - apply obind_ret in H as ([? ?] & _ & H). apply ret_inv in H as [H _]. done.
    - apply obind_ret in H as ([? ?] & _ & H). apply ret_inv in H as [H _]. done.
    - destruct pt; try done; apply obind_ret in H as ([? ?] & _ & H); apply ret_inv in H as [H _]; injection H as <-; apply K; cbn; auto 10.
    - apply obind_ret in H as ([g c1] & _ & H). injection H as H. destruct op as [[]|[it|ty]| | |ty|ty|m]; cbn [fmt_un_op] in H; try done; try (injection H as <- _; first [solve [apply K; cbn; auto 10]|unfold keys, intrinsics; cbn [List.map]; rewrite ?str_assoc; repeat (constructor; [reflexivity|]); constructor]).
      all: match type of H with context[fmt_type ?a ?b] => destruct (fmt_type a b) end; done.
    - apply obind_ret in H as ([g1 c1] & E1 & H). apply obind_ret in H as ([g2 c2] & _ & H). apply ret_inv in H as [H _].
      destruct op as [o|o|o|b|b1 b2|pt]; cbn [fmt_bin_op] in H; try done.
      + destruct o; cbn [fmt_int_op] in H; try done; injection H as <-; rewrite str_assoc; by apply (atom_keys _ _ _ _ _ E1).
      + injection H as <-; rewrite str_assoc; by apply (atom_keys _ _ _ _ _ E1).
  Qed.
  Lemma pends_eq s : pends (" = " ++ s).
  Proof. by split. Qed.
  Lemma place_code p f p' f' ct ct1 ct' ct1' r r' : fmt_place_expr p ct = Ret (f, ct1) -> ct1 `prefix_of` F -> ok_place p -> fmt_place_expr p' ct' = Ret (f', ct1') -> ct1' `prefix_of` F -> ok_place p' ->
    pends r -> pends r' -> to_string f ++ r = to_string f' ++ r' -> r = r'.
  Proof.
    intros H HF Hok H' HF' Hok' Hr Hr' EQ. destruct (place_back F _ _ _ _ H HF Hok) as [n0 B]. destruct (place_back F _ _ _ _ H' HF' Hok') as [n1 B'].
    specialize (B (n0 + n1)%nat r ltac:(lia) Hr). specialize (B' (n0 + n1)%nat r' ltac:(lia) Hr'). rewrite EQ, B' in B. by injection B.
  Qed.
  Lemma atom_value e f n0 r : value_text F e f n0 -> no_tuple e -> exists n1 v, forall n, (n1 <= n)%nat -> read_value F n (to_atomic_string f ++ "(" ++ r) = Some (v, "(" ++ r).
  Proof.
    intros H Ht. assert (Hg : good_text F f (forget_value e) n0) by (by destruct e). destruct f as [s|s]; cbn [good_text to_atomic_string] in *.
    - exists (S (S n0)), (ETuple [forget_value e] no_type). intros n Hn. destruct n as [|[|n]]; [lia|lia|]. rewrite !str_assoc, rv_paren. unfold read_list.
      rewrite (items_one _ n ")" _ (forget_value e) ("(" ++ r)); [|apply Hg; [lia|apply ends_paren]|done]. done.
    - destruct Hg as [Hs Hra]. exists (S n0), (forget_value e). intros n Hn. destruct n as [|n]; [lia|]. rewrite value_default by (by apply Hs). rewrite Hra by (lia || done). done.
  Qed.
  Lemma stmt_not_term s t s' t' r r' : p_stmt s t -> p_term s' t' -> t ++ r <> t' ++ r'.
  Proof.
    intros [Hok H] [Hok' H'] EQ.
    assert (Hcall : forall p f ct ct' r0, fmt_place_expr p ct = Ret (f, ct') -> ct' `prefix_of` F -> ok_place p -> t ++ r = "    " ++ to_string f ++ " = " ++ r0 ->
      exists e g ct ct', fmt_value_expr e ct = Ret (g, ct') /\ ct' `prefix_of` F /\ ok_value e /\ r0 = to_string g ++ ";" ++ r).
    { clear EQ. intros p f ct ct' r0 E HF Hp EQ. pose proof (place_head _ _ _ _ (" = " ++ r0) E) as Hh. rewrite <-?str_assoc in EQ, Hh.
      destruct s as [q e|q|q d|q b|q|l|l]; cbn [fmt_statement] in H.
      2-5: apply obind_ret in H as ([f1 c1] & E1 & H); apply ret_inv in H as [<- _].
      6,7: apply ret_inv in H as [<- _].
      1: { apply obind_ret in H as ([f1 c1] & E1 & H). apply obind_ret in H as ([f2 c2] & E2 & H). apply ret_inv in H as [<- ->]. destruct Hok as [Hq He].
        rewrite !str_assoc in EQ. apply app_same in EQ. apply (place_code q f1 p f F c1 ct ct' _ _ E1 ltac:(etransitivity; [eapply (proj1 exprs_grow); eassumption|done]) Hq E HF Hp (pends_eq _) (pends_eq _)) in EQ.
        apply app_same in EQ. exists e, f2, c1, F. by rewrite <- EQ. }
      all: exfalso; rewrite !str_assoc in EQ; destruct Hh as (c & s & Es & Hs); rewrite !str_assoc in Es; rewrite Es in EQ; cbn in EQ.
      all: destruct Hs as [->|[[-> [u ->]]|[-> (c' & u & -> & Hc)]]]; try discriminate EQ.
      injection EQ as <- _. cbn in Hc. repeat (destruct Hc as [Hc|Hc]; [discriminate Hc|]). done. }
    assert (Hhead : exists c1 s1, t ++ r = "    " ++ String c1 s1 /\ In c1 ["("; "_"; "d"; "v"; "s"]%char /\ (c1 = "s"%char -> exists s2, s1 = "torage_" ++ s2)).
    { clear EQ Hcall. destruct s as [q e|q|q d|q b|q|l|l]; cbn [fmt_statement] in H.
      2-5: apply obind_ret in H as ([f1 c1] & E1 & H); apply ret_inv in H as [<- _].
      6,7: apply ret_inv in H as [<- _].
      1: { apply obind_ret in H as ([f1 c1] & E1 & H). apply obind_ret in H as ([f2 c2] & E2 & H). apply ret_inv in H as [<- ->]. rewrite !str_assoc.
        destruct (place_head _ _ _ _ (" = " ++ to_string f2 ++ ";" ++ r) E1) as (c & s & -> & Hs). exists c, s. split; [done|].
        destruct Hs as [->|[[-> _]|[-> _]]]; (split; [cbn; auto 10|done]). }
      all: do 2 eexists; (split; [reflexivity|]); (split; [cbn; auto 10|]); try done; intros _; eexists; reflexivity. }
    assert (Hkeys : forall k e g ct ct' x y, In k keys -> ok_value e -> fmt_value_expr e ct = Ret (g, ct') -> k ++ x = to_string g ++ y -> False).
    { intros k e g ct ct' x y Hk He Ee E0. pose proof (value_keys e _ _ _ y He Ee) as HK. rewrite <- E0 in HK. rewrite List.Forall_forall in HK. specialize (HK _ Hk).
      pose proof (expect_app k x (fun r => Some r)) as E1. unfold expect in E1. rewrite HK in E1. done. }
    destruct s' as [b|e cases fb| |op es p nb|c conv l p nb ub| |e b|b|]; cbn [fmt_terminator ok_term] in *.
    - apply ret_inv in H' as [<- _]. destruct Hhead as (c1 & s1 & Eh & Hc & Hs). rewrite Eh in EQ. cbn in EQ. injection EQ as -> ->. cbn in Hc. intuition discriminate.
    - apply obind_ret in H' as ([f c1] & E & H'). apply ret_inv in H' as [<- _]. destruct Hhead as (c2 & s1 & Eh & Hc & Hs). rewrite Eh in EQ. cbn in EQ. injection EQ as -> ->. destruct (Hs eq_refl) as [s2 E2]. done.
    - apply ret_inv in H' as [<- _]. destruct Hhead as (c1 & s1 & Eh & Hc & Hs). rewrite Eh in EQ. cbn in EQ. injection EQ as -> ->. cbn in Hc. intuition discriminate.
    - destruct Hok' as (Hes & Hp & Hop). apply obind_ret in H' as ([fs c1] & E1 & H'). unfold fmt_call in H'. apply obind_ret in H' as ([f c2] & E2 & H'). apply ret_inv in H' as [<- ->].
      rewrite !str_assoc in EQ. destruct (Hcall _ _ _ _ _ E2 ltac:(done) Hp EQ) as (e & g & ct & ct' & Ee & HF & He & E0).
      eapply (Hkeys (fmt_intrinsic op ++ "(")); [|exact He|exact Ee|]; [right; apply in_map_iff; exists op; done|]. rewrite <- E0. cbn [fmt_conv]. rewrite str_assoc. reflexivity.
    - destruct Hok' as (Hc & Ht & Hl & Hp). apply obind_ret in H' as ([fc c1] & E1 & H'). apply obind_ret in H' as ([ss c2] & E2 & H'). unfold fmt_call in H'. apply obind_ret in H' as ([f c3] & E3 & H'). apply ret_inv in H' as [<- ->].
      assert (HF2 : c2 `prefix_of` F) by (eapply (proj2 exprs_grow); eassumption). assert (HF1 : c1 `prefix_of` F) by (etransitivity; [by eapply args_grow|done]).
      rewrite !str_assoc in EQ. destruct (Hcall _ _ _ _ _ E3 ltac:(done) Hp EQ) as (e & g & ct & ct' & Ee & HF & He & E0).
      destruct conv.
      + match type of E0 with _ ++ ?x = _ => change (fmt_conv CcRust ++ x) with x in E0 end.
        destruct (proj1 (back F) _ _ _ _ E1 HF1 Hc) as [n1 H1]. destruct (value_back F _ _ _ _ Ee HF He) as [n2 H2].
        match type of E0 with _ ++ "(" ++ ?x = _ => destruct (atom_value _ _ _ x H1 Ht) as (n3 & v & H3) end.
        specialize (H3 (n2 + n3)%nat ltac:(lia)). rewrite E0, H2 in H3 by (lia || en). done.
      + eapply (Hkeys (fmt_conv CcC)); [left; reflexivity|exact He|exact Ee|exact E0].
    - apply ret_inv in H' as [<- _]. destruct Hhead as (c1 & s1 & Eh & Hc & Hs). rewrite Eh in EQ. cbn in EQ. injection EQ as -> ->. cbn in Hc. intuition discriminate.
    - apply obind_ret in H' as ([f c1] & E & H'). apply ret_inv in H' as [<- _]. destruct Hhead as (c2 & s1 & Eh & Hc & Hs). rewrite Eh in EQ. cbn in EQ. injection EQ as -> ->. destruct (Hs eq_refl) as [s2 E2]. done.
    - apply ret_inv in H' as [<- _]. destruct Hhead as (c1 & s1 & Eh & Hc & Hs). rewrite Eh in EQ. cbn in EQ. injection EQ as -> ->. destruct (Hs eq_refl) as [s2 E2]. done.
    - apply ret_inv in H' as [<- _]. destruct Hhead as (c1 & s1 & Eh & Hc & Hs). rewrite Eh in EQ. cbn in EQ. injection EQ as -> ->. cbn in Hc. intuition discriminate.
  Qed.

  Lemma map_st_fixed {A B} (f : Table -> A -> Outcome (B * Table)) (g : A -> list Ty) : (forall x, Prints (fun ct => f ct x) (g x)) ->
    forall l ts, map_st f l F = Ret (ts, F) -> Forall2 (fun x t => f F x = Ret (t, F)) l ts.
  Proof.
    intros Hf. induction l as [|x l IH]; intros ts H; [injection H as <-; constructor|]. change (map_st f (x :: l) F) with (let! ' (y, s) := f F x in let! ' (ys, s) := map_st f l s in Ret (y :: ys, s)) in H.
    apply obind_ret in H as ([y c1] & E1 & H). apply obind_ret in H as ([ys c2] & E2 & H). injection H as <- ->.
    assert (H1 : F `prefix_of` c1) by (eapply pa_grows; by eapply Hf). assert (H2 : c1 `prefix_of` F).
    { eapply pa_grows. eapply (prints_map_st f g l); [|exact E2]. apply Forall_forall. intros; apply Hf. }
    assert (c1 = F) as ->. { apply prefix_length in H1 as L1. apply prefix_length in H2 as L2. destruct H1 as [k ->]. rewrite app_length in *. destruct k as [|z k]; [by rewrite app_nil_r|cbn in *; lia]. }
    constructor; [done|]. by apply IH.
  Qed.

  Definition p_line (s : Statement) (t : string) : Prop := exists u, p_stmt s u /\ t = u ++ newline.
  Lemma line_code : codes any p_line forget_stmt.
  Proof.
    intros s t s' t' r r' (u & Hu & ->) (u' & Hu' & ->) _ _ E. rewrite !str_assoc in E. destruct (stmt_code _ _ _ _ _ _ Hu Hu' I I E) as [E1 E2]. split; [done|]. by apply app_same in E2.
  Qed.
  Definition ok_block (b : BasicBlock) : Prop := Forall ok_stmt (bb_statements b) /\ ok_term (bb_terminator b).
  (** a block, with its name and if it is the start block *)
  Definition p_bb (x : (BbName * BasicBlock) * bool) (t : string) : Prop := ok_block (snd (fst x)) /\ fmt_bb (fst (fst x)) (snd (fst x)) (snd x) F = Ret (t, F).
  Definition v_bb (x : (BbName * BasicBlock) * bool) : (BbName * BasicBlock) * bool := ((fst (fst x), forget_block (snd (fst x))), snd x).
  Lemma bb_shape n b start t : p_bb (n, b, start) t -> exists ts tm, Forall2 p_line (bb_statements b) ts /\ p_term (bb_terminator b) tm /\
    t = (if start then "  start bb" else "  bb") ++ show_nat n ++ fmt_bb_kind (bb_kind b) ++ ":" ++ newline ++ String.concat "" ts ++ tm ++ newline.
  Proof.
    intros [[Hs Ht] H]. cbn [fst snd] in *. unfold fmt_bb in H. apply obind_ret in H as ([ts c1] & E1 & H). apply obind_ret in H as ([tm c2] & E2 & H). apply ret_inv in H as [<- ->].
    assert (Hp : forall x, Prints (fun ct => let! ' (s, ct) := fmt_statement x ct in Ret (s ++ newline, ct)) (all_tops (stmt_types x)))
      by (intros x; apply prints_nil; apply prints_bind; [apply prints_stmt|]; intros s; exact (prints_ret _)).
    assert (c1 = F) as ->.
    { assert (H1 : F `prefix_of` c1) by (eapply pa_grows; eapply (prints_map_st (fun ct st => let! ' (s, ct) := fmt_statement st ct in Ret (s ++ newline, ct)) (fun x => all_tops (stmt_types x))); [|exact E1]; apply Forall_forall; intros; apply Hp).
      assert (H2 : c1 `prefix_of` F) by (eapply pa_grows; by eapply prints_term). apply prefix_length in H1 as L1. apply prefix_length in H2 as L2. destruct H1 as [k ->]. rewrite app_length in *. destruct k as [|z k]; [by rewrite app_nil_r|cbn in *; lia]. }
    exists ts, tm. split; [|done]. apply (map_st_fixed _ (fun x => all_tops (stmt_types x)) Hp) in E1. clear - Hs E1. induction E1 as [|x t l ts Hx Hl IH]; [constructor|].
    inversion Hs as [|? ? Hs1 Hs2]; subst. constructor; [|by apply IH]. apply obind_ret in Hx as ([u c] & E & Hx). apply ret_inv in Hx as [<- ->]. by exists u.
  Qed.
  Lemma kind_code k k' r r' : fmt_bb_kind k ++ ":" ++ r = fmt_bb_kind k' ++ ":" ++ r' -> k = k' /\ r = r'.
  Proof. destruct k, k'; intros E; try discriminate E; (split; [done|]); by injection E. Qed.
  Lemma bb_code : codes any p_bb v_bb.
  Proof.
    intros [[n b] st] t [[n' b'] st'] t' r r' H H' _ _ E. apply bb_shape in H as (ts & tm & H1 & H2 & ->). apply bb_shape in H' as (ts' & tm' & H1' & H2' & ->). rewrite !str_assoc in E.
    assert (st = st') as <- by (destruct st, st'; try done; discriminate E). apply app_same in E.
    apply nat_code in E as [<- E]; [|by destruct (bb_kind b)|by destruct (bb_kind b')]. apply kind_code in E as [Ek E]. apply app_same in E.
    destruct (list_code p_line forget_stmt _ _ _ _ (tm ++ newline ++ r) (tm' ++ newline ++ r') line_code H1 H1') as [E1 E2]; [| |exact E|].
    - intros x t s (u & Hu & ->) EQ. rewrite !str_assoc in EQ. symmetry in EQ. by apply (stmt_not_term _ _ _ _ _ _ Hu H2) in EQ.
    - intros x t s (u & Hu & ->) EQ. rewrite !str_assoc in EQ. symmetry in EQ. by apply (stmt_not_term _ _ _ _ _ _ Hu H2') in EQ.
    - destruct (term_code _ _ _ _ _ _ H2 H2' I I E2) as [E3 E4]. apply app_same in E4. split; [|done]. unfold v_bb, forget_block. cbn [fst snd]. by rewrite E1, E3, Ek.
  Qed.

  (** ** Functions *)

  Definition p_local (l : LocalName * Ty) (t : string) : Prop := fmt_local F l = Ret (t, F).
  Definition v_local (l : LocalName * Ty) : LocalName * Ty := (fst l, forget_ty (snd l)).
  Lemma local_shape l t : p_local l t -> exists f, fmt_type (snd l) F = (f, F) /\ t = "  let _" ++ show_nat (fst l) ++ ": " ++ to_string f ++ ";" ++ newline.
  Proof. unfold p_local, fmt_local. intros H. destruct (fmt_type (snd l) F) as [f c]. apply ret_inv in H as [<- ->]. exists f. split; [done|]. unfold fmt_local_name. by rewrite ?str_assoc. Qed.
  Lemma local_code : codes any p_local v_local.
  Proof.
    intros l t l' t' r r' H H' _ _ E. apply local_shape in H as (f & Hf & ->). apply local_shape in H' as (f' & Hf' & ->). rewrite !str_assoc in E. apply app_same in E.
    apply nat_code in E as [E1 E]; [|done|done]. apply app_same in E. destruct (read_ty_ok F _ _ _ _ Hf ltac:(done)) as [n0 B]. destruct (read_ty_ok F _ _ _ _ Hf' ltac:(done)) as [n1 B'].
    specialize (B (n0 + n1)%nat (";" ++ newline ++ r) ltac:(lia) ltac:(done)). specialize (B' (n0 + n1)%nat (";" ++ newline ++ r') ltac:(lia) ltac:(done)).
    rewrite E, B' in B. injection B as E2 E3. unfold v_local. rewrite E1, E2. split; [done|]. by symmetry.
  Qed.

  Definition p_name (l : LocalName) (t : string) : Prop := t = fmt_local_name l.
  Lemma name_code : codes nodigit p_name id.
  Proof. intros l t l' t' r r' -> -> Hr Hr' E. unfold fmt_local_name in E. rewrite !str_assoc in E. apply app_same in E. by apply nat_code in E. Qed.

  Definition ok_function (f : Function) : Prop := Forall (fun b => ok_block (snd b)) (fn_blocks f).
  (** a function, with its name and if it is the start function *)
  Definition p_fn (x : (FnName * Function) * bool) (t : string) : Prop := ok_function (snd (fst x)) /\ fmt_function (fst (fst x)) (snd (fst x)) (snd x) F = Ret (t, F).
  Definition flagged (f : Function) (b : BbName * BasicBlock) : (BbName * BasicBlock) * bool := (b, bool_decide (fn_start f = fst b)).
  Definition v_fn (x : (FnName * Function) * bool) :=
    (fst (fst x), snd x, fn_args (snd (fst x)), fn_ret (snd (fst x)), List.map v_local (sort_by_name (fn_locals (snd (fst x)))),
     List.map v_bb (List.map (flagged (snd (fst x))) (sort_by_name (fn_blocks (snd (fst x)))))).
  Lemma fn_shape n f start t : p_fn (n, f, start) t -> exists ls bs, Forall2 p_local (sort_by_name (fn_locals f)) ls /\ Forall2 p_bb (List.map (flagged f) (sort_by_name (fn_blocks f))) bs /\
    t = (if start then "start fn f" else "fn f") ++ show_nat n ++ "(" ++ join_str ", " (List.map fmt_local_name (fn_args f)) ++ ") -> _" ++ show_nat (fn_ret f) ++ " {" ++ newline ++
      String.concat "" ls ++ String.concat "" bs ++ "}" ++ newline ++ newline.
  Proof.
    intros [Hok H]. cbn [fst snd] in *. unfold fmt_function in H. cbv zeta in H. apply obind_ret in H as ([ls c1] & E1 & H). apply obind_ret in H as ([bs c2] & E2 & H). apply ret_inv in H as [<- ->].
    assert (Hb : forall b : BbName * BasicBlock, Prints (fun ct => fmt_bb (fst b) (snd b) (bool_decide (fn_start f = fst b)) ct) (all_tops (block_types (snd b)))) by (intros b; apply prints_bb).
    assert (c1 = F) as ->.
    { assert (H1 : F `prefix_of` c1) by (eapply pa_grows; eapply (prints_map_st fmt_local (fun l => all_tops [snd l])); [|exact E1]; apply Forall_forall; intros; apply prints_local).
      assert (H2 : c1 `prefix_of` F) by (eapply pa_grows; eapply (prints_map_st (fun ct (b : BbName * BasicBlock) => fmt_bb (fst b) (snd b) (bool_decide (fn_start f = fst b)) ct)); [|exact E2]; apply Forall_forall; intros; apply Hb).
      apply prefix_length in H1 as L1. apply prefix_length in H2 as L2. destruct H1 as [k ->]. rewrite app_length in *. destruct k as [|z k]; [by rewrite app_nil_r|cbn in *; lia]. }
    exists ls, bs. split_and!.
    - by apply (map_st_fixed _ (fun l => all_tops [snd l]) prints_local) in E1.
    - apply (map_st_fixed (fun ct (b : BbName * BasicBlock) => fmt_bb (fst b) (snd b) (bool_decide (fn_start f = fst b)) ct) _ Hb) in E2.
      assert (Hs : Forall (fun b => ok_block (snd b)) (sort_by_name (fn_blocks f))) by (unfold sort_by_name; by rewrite merge_sort_Permutation).
      clear - Hs E2. induction E2 as [|x t l ts Hx Hl IH]; cbn [List.map]; [constructor|]. inversion Hs as [|? ? Hs1 Hs2]; subst. constructor; [|by apply IH]. by split.
    - unfold fmt_fn_name, fmt_local_name. destruct start; by rewrite !str_assoc.
  Qed.
  Lemma fn_code : codes any p_fn v_fn.
  Proof.
    intros [[n f] st] t [[n' f'] st'] t' r r' H H' _ _ E. apply fn_shape in H as (ls & bs & H1 & H2 & ->). apply fn_shape in H' as (ls' & bs' & H1' & H2' & ->). rewrite !str_assoc in E.
    assert (st = st') as <- by (destruct st, st'; try done; discriminate E). apply app_same in E. apply nat_code in E as [<- E]; [|done|done]. apply app_same in E.
    assert (Hn : forall l, Forall2 p_name l (List.map fmt_local_name l)) by (induction l; constructor; done).
    destruct (join_code nodigit p_name id ", " ") -> _" (fn_args f) (List.map fmt_local_name (fn_args f)) (fn_args f') (List.map fmt_local_name (fn_args f')) (show_nat (fn_ret f) ++ " {" ++ newline ++ String.concat "" ls ++ String.concat "" bs ++ "}" ++ newline ++ newline ++ r)
      (show_nat (fn_ret f') ++ " {" ++ newline ++ String.concat "" ls' ++ String.concat "" bs' ++ "}" ++ newline ++ newline ++ r') name_code) as [Ea E2]; try done.
    { by intros x t s s' ->. }
    rewrite !map_id in Ea. clear E. apply nat_code in E2 as [Er E]; [|done|done]. do 2 apply app_same in E.
    assert (Hb : forall x t, p_bb x t -> exists s, t = "  bb" ++ s \/ t = "  start bb" ++ s). { intros [[n0 b0] b1] t Hx. apply bb_shape in Hx as (? & ? & _ & _ & ->). destruct b1; eauto. }
    assert (Hstop : forall bs (l : list ((BbName * BasicBlock) * bool)) r, Forall2 p_bb l bs -> forall x t s, p_local x t -> String.concat "" bs ++ "}" ++ r <> t ++ s).
    { intros zs l z Hz x t s Hx EQ. apply local_shape in Hx as (g & _ & ->). destruct Hz as [|y u l zs Hy Hz]; [discriminate EQ|].
      destruct (Hb _ _ Hy) as [w [->| ->]]; destruct zs; cbn in EQ; discriminate EQ. }
    destruct (list_code p_local v_local _ _ _ _ (String.concat "" bs ++ "}" ++ newline ++ newline ++ r) (String.concat "" bs' ++ "}" ++ newline ++ newline ++ r') local_code H1 H1') as [El E3];
      [by eapply Hstop|by eapply Hstop|exact E|].
    destruct (list_code p_bb v_bb _ _ _ _ ("}" ++ newline ++ newline ++ r) ("}" ++ newline ++ newline ++ r') bb_code H2 H2') as [Eb E4]; [| |exact E3|].
    - intros x t s Hx EQ. by destruct (Hb _ _ Hx) as [w [->| ->]].
    - intros x t s Hx EQ. by destruct (Hb _ _ Hx) as [w [->| ->]].
    - do 3 apply app_same in E4. split; [|done]. unfold v_fn. cbn [fst snd]. by rewrite Ea, Er, El, Eb.
  Qed.
End Codes.

(** ** Globals *)

Definition byte_text (x : option byte) : string := match x with Some u => show_byte u | None => "__" end.
Definition digit_of (c : ascii) : N := match String.index 0 (String c "") "0123456789abcdef" with Some n => N.of_nat n | None => 16 end.
Definition read_byte (c d : ascii) : option byte := if Ascii.eqb c "_" then None else Byte.of_N (16 * digit_of c + digit_of d).
Lemma byte_two x : exists c d, byte_text x = String c (String d "") /\ read_byte c d = x /\ c <> "]"%char.
Proof. destruct x as [b|]; [destruct b|]; do 2 eexists; (split; [reflexivity|]); (split; [reflexivity|]); discriminate. Qed.
Definition p_byte (x : option byte) (t : string) : Prop := t = byte_text x.
Lemma byte_code : codes any p_byte id.
Proof.
  intros x t x' t' r r' -> -> _ _ E. destruct (byte_two x) as (c & d & E1 & E2 & _). destruct (byte_two x') as (c' & d' & E1' & E2' & _). rewrite E1, E1' in E. cbn in E.
  injection E as -> -> E. unfold id. by rewrite <- E2, <- E2'.
Qed.
Definition reloc_text (x : Offset * Relocation) : string := "  at byte " ++ show_nat (fst x) ++ ": " ++ to_string (fmt_relocation (snd x)) ++ "," ++ newline.
Definition p_reloc (x : Offset * Relocation) (t : string) : Prop := t = reloc_text x.
Lemma reloc_code : codes any p_reloc id.
Proof.
  intros [o [g k]] t [o' [g' k']] t' r r' -> -> _ _ E. unfold reloc_text in E. cbn [fst snd] in E. rewrite !str_assoc in E. apply app_same in E. apply nat_code in E as [<- E]; [|done|done]. apply app_same in E.
  assert (Hs : forall g k s, to_string (fmt_relocation (mkReloc g k)) ++ s = "global(" ++ show_nat g ++ ")" ++ (if (k =? 0)%N then "" else " + " ++ show_nat k) ++ s).
  { intros. unfold fmt_relocation, fmt_global_name. cbn [r_offset r_name]. destruct (_ =? _)%N; cbn [to_string]; by rewrite ?str_assoc. }
  rewrite !Hs in E. apply app_same in E. apply nat_code in E as [<- E]; [|done|done]. apply app_same in E.
  destruct (N.eqb_spec k 0) as [->|Hk], (N.eqb_spec k' 0) as [->|Hk']; [|discriminate E|discriminate E|].
  - split; [done|]. by do 3 apply app_same in E.
  - rewrite !str_assoc in E. apply app_same in E. apply nat_code in E as [<- E]; [|done|done]. split; [done|]. by do 2 apply app_same in E.
Qed.
Definition p_global (x : GlobalName * Global) (t : string) : Prop := t = fmt_global (fst x) (snd x).
Lemma global_code : codes any p_global id.
Proof.
  intros [n [bs rs al]] t [n' [bs' rs' al']] t' r r' -> -> _ _ E. unfold fmt_global, fmt_global_name, fmt_bytes in E. cbn [fst snd g_bytes g_relocations g_align] in E. rewrite !str_assoc in E.
  apply app_same in E. apply nat_code in E as [<- E]; [|done|done]. do 4 apply app_same in E.
  change (fun x => match x with Some u => show_byte u | None => "__" end) with byte_text in E.
  change (fun r => _) with reloc_text in E.
  assert (Hb : forall l, Forall2 p_byte l (List.map byte_text l)) by (induction l; constructor; done).
  assert (Hr : forall l, Forall2 p_reloc l (List.map reloc_text l)) by (induction l; constructor; done).
  match type of E with _ ++ _ ++ ?x = _ ++ _ ++ ?y => destruct (join_code any p_byte id " " "]," bs (List.map byte_text bs) bs' (List.map byte_text bs') x y byte_code) as [E1 E2]; try done end.
  { intros x t s s' -> EQ. destruct (byte_two x) as (c & d & Ex & _ & Hc). rewrite Ex in EQ. cbn in EQ. injection EQ as EQ _. done. }
  clear E. do 2 apply app_same in E2. apply align_code in E2 as [E3 E]; [|done|done]. do 2 apply app_same in E.
  destruct (list_code p_reloc id rs (List.map reloc_text rs) rs' (List.map reloc_text rs') ("}" ++ newline ++ newline ++ r) ("}" ++ newline ++ newline ++ r') reloc_code) as [E4 E5]; try done.
  { by intros x t s ->. } { by intros x t s ->. }
  do 3 apply app_same in E5. rewrite !map_id in E1, E4. by subst.
Qed.

(** ** Vtables and traits *)

Definition method_text (m : TraitMethodName * FnName) : string := "  " ++ fmt_trait_method_name (fst m) ++ "() = " ++ fmt_fn_name (snd m) ++ "," ++ newline.
Definition p_method (m : TraitMethodName * FnName) (t : string) : Prop := t = method_text m.
Lemma method_code : codes any p_method id.
Proof.
  intros [m f] t [m' f'] t' r r' -> -> _ _ E. unfold method_text, fmt_trait_method_name, fmt_fn_name in E. cbn [fst snd] in E. rewrite !str_assoc in E. do 2 apply app_same in E.
  apply nat_code in E as [<- E]; [|done|done]. do 2 apply app_same in E. apply nat_code in E as [<- E]; [|done|done]. split; [done|]. by do 2 apply app_same in E.
Qed.
Definition p_vtable (x : VTableName * VTable) (t : string) : Prop := t = fmt_vtable (fst x) (snd x).
Definition v_vtable (x : VTableName * VTable) := (fst x, forget_vtable (snd x)).
Lemma vtable_code : codes any p_vtable v_vtable.
Proof.
  intros [n v] t [n' v'] t' r r' -> -> _ _ E. unfold fmt_vtable, fmt_vtable_name, fmt_trait_name in E. cbn [fst snd] in E. rewrite !str_assoc in E. change (fun m => _) with method_text in E.
  apply app_same in E. apply nat_code in E as [<- E]; [|done|done]. do 4 apply app_same in E. apply nat_code in E as [E1 E]; [|done|done]. do 3 apply app_same in E.
  apply nat_code in E as [E2 E]; [|done|done]. do 3 apply app_same in E. apply align_code in E as [E3 E]; [|done|done]. do 2 apply app_same in E.
  assert (Hm : forall l, Forall2 p_method l (List.map method_text l)) by (induction l; constructor; done).
  destruct (list_code p_method id (vt_methods v) (List.map method_text (vt_methods v)) (vt_methods v') (List.map method_text (vt_methods v')) ("}" ++ newline ++ r) ("}" ++ newline ++ r') method_code) as [E4 E5]; try done.
  { by intros x t s ->. } { by intros x t s ->. }
  do 2 apply app_same in E5. rewrite !map_id in E4. split; [|done]. unfold v_vtable, forget_vtable. cbn [fst snd]. by rewrite E1, E2, E3, E4.
Qed.
Definition methods_of (l : list TraitMethodName) : list string := merge_sort str_le (List.map fmt_trait_method_name l).
Definition p_trait (x : TraitName * list TraitMethodName) (t : string) : Prop := t = fmt_trait (fst x) (snd x).
Definition v_trait (x : TraitName * list TraitMethodName) := (fst x, methods_of (snd x)).
Definition p_mname (s t : string) : Prop := t = s /\ exists m, s = fmt_trait_method_name m.
Lemma mname_code : codes nodigit p_mname id.
Proof.
  intros s t s' t' r r' [-> [m ->]] [-> [m' ->]] Hr Hr' E. unfold fmt_trait_method_name in *. rewrite !str_assoc in E. apply app_same in E. by apply nat_code in E as [<- E].
Qed.
Lemma trait_code : codes any p_trait v_trait.
Proof.
  intros [n l] t [n' l'] t' r r' -> -> _ _ E. unfold fmt_trait, fmt_trait_name in E. cbn [fst snd] in E. rewrite !str_assoc in E. fold (methods_of l) (methods_of l') in E.
  apply app_same in E. apply nat_code in E as [<- E]; [|done|done]. apply app_same in E.
  assert (Hm : forall l, Forall2 p_mname (methods_of l) (methods_of l)).
  { intros k. assert (Hk : Forall (fun s => exists m, s = fmt_trait_method_name m) (methods_of k)).
    { unfold methods_of. rewrite merge_sort_Permutation. induction k; constructor; eauto. }
    induction Hk; constructor; [by split|done]. }
  destruct (join_code nodigit p_mname id ", " " }" (methods_of l) (methods_of l) (methods_of l') (methods_of l') (newline ++ r) (newline ++ r') mname_code) as [E1 E2]; try done.
  { by intros x t s s' [-> [m ->]]. }
  apply app_same in E2. rewrite !map_id in E1. split; [|done]. unfold v_trait. cbn [fst snd]. by rewrite E1.
Qed.
Lemma methods_same l l' : methods_of l = methods_of l' -> forall m, In m l <-> In m l'.
Proof.
  intros E. assert (HP : Permutation (List.map fmt_trait_method_name l) (List.map fmt_trait_method_name l')).
  { transitivity (methods_of l); [symmetry; apply merge_sort_Permutation|]. rewrite E. apply merge_sort_Permutation. }
  assert (Hi : forall l l', Permutation (List.map fmt_trait_method_name l) (List.map fmt_trait_method_name l') -> forall m, In m l -> In m l').
  { clear. intros l l' HP m Hm. assert (H : In (fmt_trait_method_name m) (List.map fmt_trait_method_name l')). { eapply Permutation_in; [exact HP|]. by apply in_map. }
    apply in_map_iff in H as (m' & Em & Hm'). unfold fmt_trait_method_name in Em. apply app_same in Em. destruct (nat_code m' m "" "") as [-> _]; [done|done|by rewrite !str_nil|done]. }
  intros m. split; [by apply Hi|]. apply Hi. by symmetry.
Qed.

(** ** Programs *)

Lemma map_views {A V} (v w : A -> V) l : forall l', List.map v l = List.map w l' -> Forall2 (fun x y => v x = w y) l l'.
Proof. induction l as [|x l IH]; intros [|y l'] H; cbn in H; try done. injection H as H1 H2. constructor; [done|]. by apply IH. Qed.
Lemma sorted_alike {V} (R : V -> V -> Prop) m m' : unique m -> unique m' ->
  Forall2 (fun x y => fst x = fst y /\ R (snd x) (snd y)) (sort_by_name m) (sort_by_name m') -> alike R m m'.
Proof.
  intros Hu Hu' H n. rewrite (get_perm m (sort_by_name m)), (get_perm m' (sort_by_name m')); [|symmetry; apply merge_sort_Permutation|done|symmetry; apply merge_sort_Permutation|done].
  induction H as [|[k x] [k' y] l l' [E Hxy] _ IH]; [done|]. cbn in E, Hxy. subst. rewrite !get_cons. by case_decide.
Qed.
Lemma contains_in {V} (m : list (N * V)) n : map_contains m n = true -> In n (List.map fst m).
Proof.
  unfold map_contains, map_get. destruct (List.find _ m) as [[k v]|] eqn:E; [|done]. apply find_some in E as [Hin Hk]. cbn in Hk. apply bool_decide_eq_true in Hk. subst. intros _. apply in_map_iff. by exists (n, v).
Qed.

Lemma fn_alike n f st n' f' st' : unique (fn_locals f) -> unique (fn_locals f') -> unique (fn_blocks f) -> unique (fn_blocks f') ->
  v_fn (n, f, st) = v_fn (n', f', st') -> n = n' /\ st = st' /\ alike_functions f f'.
Proof.
  intros Hl Hl' Hb Hb' E. unfold v_fn in E. cbn [fst snd] in E. injection E as -> -> Ea Er El Eb. split; [done|]. split; [done|]. split; [done|done| | |].
  - apply sorted_alike; [done|done|]. eapply Forall2_impl; [exact (map_views _ _ _ _ El)|]. intros [a x] [b y] H. unfold v_local in H. cbn in H. by injection H.
  - apply sorted_alike; [done|done|]. rewrite !List.map_map in Eb. eapply Forall2_impl; [exact (map_views _ _ _ _ Eb)|]. intros [a x] [b y] H. unfold v_bb, flagged in H. cbn in H. injection H as -> Hx1 Hx2 Hx3 _. split; [done|]. unfold forget_block. cbn [snd]. by rewrite Hx1, Hx2, Hx3.
  - intros b Hc. apply contains_in in Hc. apply in_map_iff in Hc as ([b0 blk] & Eb0 & Hin). cbn in Eb0. subst b0.
    assert (Hs : In (b, blk) (sort_by_name (fn_blocks f))). { eapply Permutation_in; [symmetry; apply merge_sort_Permutation|done]. }
    rewrite !List.map_map in Eb. apply map_views in Eb. apply elem_of_list_In, elem_of_list_lookup in Hs as [i Hi]. destruct (Forall2_lookup_l _ _ _ _ _ Eb Hi) as ([b' y] & _ & H).
    unfold v_bb, flagged in H. cbn in H. injection H as <- _ _ _ H. destruct (decide (fn_start f = b)) as [E1|E1], (decide (fn_start f' = b)) as [E2|E2]; try tauto.
    + rewrite bool_decide_eq_true_2, bool_decide_eq_false_2 in H by done. done.
    + rewrite bool_decide_eq_false_2, bool_decide_eq_true_2 in H by done. done.
Qed.

Definition fn_flagged (p : Program) (f : FnName * Function) : (FnName * Function) * bool := (f, bool_decide (pr_start p = fst f)).
Lemma functions_shape F p fs : Forall (fun f => ok_function (snd f)) (pr_functions p) -> fmt_functions p F = Ret (fs, F) ->
  exists ts, fs = String.concat "" ts /\ Forall2 (p_fn F) (List.map (fn_flagged p) (sort_by_name (pr_functions p))) ts.
Proof.
  intros Hok H. unfold fmt_functions in H. apply obind_ret in H as ([ts c1] & E1 & H). apply ret_inv in H as [<- ->]. exists ts. split; [done|].
  apply (map_st_fixed F (fun ct (f : FnName * Function) => fmt_function (fst f) (snd f) (bool_decide (pr_start p = fst f)) ct) (fun f => all_tops (function_types (snd f)))) in E1; [|intros f; apply prints_function].
  assert (Hs : Forall (fun f => ok_function (snd f)) (sort_by_name (pr_functions p))) by (unfold sort_by_name; by rewrite merge_sort_Permutation).
  clear - Hs E1. induction E1 as [|x t l ts Hx Hl IH]; cbn [List.map]; [constructor|]. inversion Hs as [|? ? Hs1 Hs2]; subst. constructor; [|by apply IH]. by split.
Qed.

Lemma accepted_ok T p : program_check_wf T p = Ret tt -> Forall (fun f => ok_function (snd f)) (pr_functions p) /\ exists f, map_get (pr_functions p) (pr_start p) = Some f.
Proof.
  intros H. unfold program_check_wf in H. apply obind_ret in H as ([] & _ & H). apply obind_ret in H as ([] & Hf & H). split.
  - apply for_each_ret in Hf. eapply Forall_impl; [exact Hf|]. intros [n f] H1. cbn [snd] in *. unfold function_check_wf in H1.
    apply obind_ret in H1 as (? & _ & H1). apply obind_ret in H1 as (? & _ & H1). apply obind_ret in H1 as (? & _ & H1). apply obind_ret in H1 as (? & _ & H1).
    apply for_each_ret in H1. eapply Forall_impl; [exact H1|]. intros [b blk] H2. cbn [snd] in *. apply obind_ret in H2 as ([] & Hs & Ht). apply for_each_ret in Hs. split.
    + eapply Forall_impl; [exact Hs|]. intros s Hst. by apply fine_stmt in Hst as [Hok _ _].
    + by apply fine_term in Ht as [Hok _ _].
  - destruct (map_get (pr_functions p) (pr_start p)) as [f|]; [by exists f|done].
Qed.

Lemma printed_shape T p F text : printed T p F text -> exists functions declarations,
  fmt_functions p F = Ret (functions, F) /\ text = declarations ++ fmt_traits (pr_traits p) ++ fmt_vtables (pr_vtables p) ++ functions ++ fmt_globals (pr_globals p) /\
  exists texts, declarations = String.concat "" texts /\ length texts = length F /\ forall k t, F !! k = Some t -> exists txt, texts !! k = Some txt /\ fmt_comptype T k t F = Ret (txt, F).
Proof.
  intros (fuel & fs & ct & ds & E1 & E2 & E). unfold fmt_program in E. rewrite E1 in E. cbn [obind] in E. rewrite E2 in E. cbn [obind] in E. injection E as <-.
  destruct (prints_functions p _ _ _ E1) as [_ N1 I1 F1].
  assert (Hc : forall t, t ∈ ct -> is_comp t). { intros t Ht. apply I1 in Ht as [Ht|Ht]; [by apply elem_of_nil in Ht|]. apply in_flat in Ht as (x & _ & Ht). by eapply tops_comp. }
  destruct (loop_ok _ _ _ _ _ _ E2 Hc) as (A1 & A2 & _ & _ & _ & A6). assert (HN : NoDup ct) by (apply N1; constructor). destruct (A6 ltac:(lia) HN) as (texts & -> & Hl & Ht).
  exists fs, (String.concat "" texts). split; [by apply F1; auto|]. split; [done|]. exists texts. done.
Qed.

Theorem programs_alike T p q F text : program_check_wf T p = Ret tt -> program_check_wf T q = Ret tt -> unique_names p -> unique_names q ->
  printed T p F text -> printed T q F text -> alike_programs p q.
Proof.
  intros Wp Wq Up Uq Hp Hq. apply accepted_ok in Wp as [Op [fp Sp]]. apply accepted_ok in Wq as [Oq [fq Sq]].
  apply printed_shape in Hp as (fs & ds & H1 & -> & txs & -> & L & D). apply printed_shape in Hq as (fs' & ds' & H1' & E & txs' & -> & L' & D').
  assert (txs = txs') as <-.
  { apply list_eq. intros i. destruct (F !! i) as [t|] eqn:Ei.
    - destruct (D _ _ Ei) as (x & -> & Ex). destruct (D' _ _ Ei) as (y & -> & Ey). rewrite Ex in Ey. by injection Ey as ->.
    - apply lookup_ge_None in Ei. rewrite !lookup_ge_None_2 by lia. done. }
  apply app_same in E. unfold fmt_traits, fmt_vtables in E. rewrite !str_assoc in E.
  apply functions_shape in H1 as (ts & -> & H1); [|done]. apply functions_shape in H1' as (ts' & -> & H1'); [|done].
  assert (Ht : forall l, Forall2 p_trait l (List.map (fun t : TraitName * list TraitMethodName => fmt_trait (fst t) (snd t)) l)) by (induction l; constructor; done).
  assert (Hv : forall l, Forall2 p_vtable l (List.map (fun v : VTableName * VTable => fmt_vtable (fst v) (snd v)) l)) by (induction l; constructor; done).
  assert (Hg : forall l, Forall2 p_global l (List.map (fun g : GlobalName * Global => fmt_global (fst g) (snd g)) l)) by (induction l; constructor; done).
  match type of E with _ ++ ?x = _ ++ ?y => destruct (list_code _ _ _ _ _ _ x y trait_code (Ht (sort_by_name (pr_traits p))) (Ht (sort_by_name (pr_traits q)))) as [E1 E2]; [by intros z t s ->|by intros z t s ->|exact E|] end.
  clear E. apply app_same in E2.
  match type of E2 with _ ++ ?x = _ ++ ?y => destruct (list_code _ _ _ _ _ _ x y vtable_code (Hv (sort_by_name (pr_vtables p))) (Hv (sort_by_name (pr_vtables q)))) as [E3 E4]; [by intros z t s ->|by intros z t s ->|exact E2|] end.
  clear E2. apply app_same in E4.
  assert (Hstop : forall gs z t s, p_fn F z t -> fmt_globals gs <> t ++ s).
  { intros gs [[n f] b] t s Hz EQ. apply fn_shape in Hz as (? & ? & _ & _ & ->). unfold fmt_globals in EQ. destruct (sort_by_name gs) as [|g [|g' l]]; cbn in EQ; by destruct b. }
  match type of E4 with _ ++ ?x = _ ++ ?y => destruct (list_code _ _ _ _ _ _ x y (fn_code F) H1 H1') as [E5 E6]; [intros z t s Hz; by eapply Hstop|intros z t s Hz; by eapply Hstop|exact E4|] end.
  unfold fmt_globals in E6. rewrite <- (str_nil (String.concat _ _)), <- (str_nil (String.concat _ (List.map _ (sort_by_name (pr_globals q))))) in E6.
  destruct (list_code _ _ _ _ _ _ "" "" global_code (Hg (sort_by_name (pr_globals p))) (Hg (sort_by_name (pr_globals q)))) as [E7 _]; [by intros z t s ->|by intros z t s ->|exact E6|].
  rewrite !List.map_map in E5. apply map_views in E5.
  assert (Hin : forall r (x : FnName * Function), x ∈ sort_by_name (pr_functions r) -> x ∈ pr_functions r) by (intros r x; unfold sort_by_name; by rewrite (merge_sort_Permutation name_le)).
  assert (Hf : Forall2 (fun x y => (fst x = fst y /\ alike_functions (snd x) (snd y)) /\ (pr_start p = fst x <-> pr_start q = fst y)) (sort_by_name (pr_functions p)) (sort_by_name (pr_functions q))).
  { apply Forall2_same_length_lookup_2; [by eapply Forall2_length|]. intros i [n f] [n' f'] Hi Hi'. pose proof (Forall2_lookup_lr _ _ _ _ _ _ E5 Hi Hi') as H. unfold fn_flagged in H. cbn [fst snd] in H.
    apply elem_of_list_lookup_2, Hin, elem_of_list_In in Hi. apply elem_of_list_lookup_2, Hin, elem_of_list_In in Hi'.
    destruct (fn_alike _ _ _ _ _ _ (un_locals _ Up _ _ Hi) (un_locals _ Uq _ _ Hi') (un_blocks _ Up _ _ Hi) (un_blocks _ Uq _ _ Hi') H) as (-> & Hb & Ha). cbn [fst snd]. split; [done|].
    split; intros E0; [apply (bool_decide_eq_true_1 (pr_start q = n')); rewrite <- Hb|apply (bool_decide_eq_true_1 (pr_start p = n')); rewrite Hb]; by apply bool_decide_eq_true_2. }
  split.
  - assert (Hs : In (pr_start p) (List.map fst (pr_functions p))) by (apply contains_in; unfold map_contains; by rewrite Sp).
    apply in_map_iff in Hs as ([n f] & En & Hs). cbn in En. subst n. assert (Hs' : (pr_start p, f) ∈ sort_by_name (pr_functions p)) by (unfold sort_by_name; rewrite (merge_sort_Permutation name_le); by apply elem_of_list_In).
    apply elem_of_list_lookup in Hs' as [i Hi]. destruct (Forall2_lookup_l _ _ _ _ _ Hf Hi) as ([n' f'] & _ & [[En _] Hiff]). cbn in En, Hiff. subst n'. symmetry. by apply Hiff.
  - apply sorted_alike; [apply Up|apply Uq|]. eapply Forall2_impl; [exact Hf|]. by intros x y [H _].
  - apply sorted_alike; [apply Up|apply Uq|]. rewrite !map_id in E7. rewrite E7. clear. induction (sort_by_name (pr_globals q)); constructor; done.
  - apply sorted_alike; [apply Up|apply Uq|]. eapply Forall2_impl; [exact (map_views _ _ _ _ E3)|]. intros [a x] [b y] H. unfold v_vtable in H. cbn [fst snd] in *. apply pair_inv in H as [-> H]. done.
  - apply sorted_alike; [apply Up|apply Uq|]. eapply Forall2_impl; [exact (map_views _ _ _ _ E1)|]. intros [a x] [b y] H. unfold v_trait in H. cbn [fst snd] in *. injection H as -> H. split; [done|]. by apply methods_same.
Qed.
