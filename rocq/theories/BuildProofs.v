(** The control flow of functions made with the builder. *)
From Verif Require Export BuildSpec Wp BaseProofs.

(** ** Maps *)

Section Maps.
  Context {K V : Type} `{EqDecision K}.
  Implicit Types m : list (K * V).

  Lemma get_cons m k k' (v : V) : map_get ((k', v) :: m) k = if bool_decide (k' = k) then Some v else map_get m k.
  Proof. unfold map_get. simpl. case_bool_decide; done. Qed.
  Lemma get_app m1 m2 (k : K) : map_get (m1 ++ m2) k = match map_get m1 k with Some v => Some v | None => map_get m2 k end.
  Proof. induction m1 as [|[k' v] r IH]; [done|]. rewrite <- app_comm_cons, !get_cons. case_bool_decide; done. Qed.
  Lemma get_none_in m (k : K) : map_get m k = None <-> ~ In k (List.map fst m).
  Proof.
    induction m as [|[k' v] r IH]; [simpl; tauto|]. rewrite get_cons. simpl. case_bool_decide as H.
    - split; [done|]. intros N. destruct N. by left.
    - rewrite IH. tauto.
  Qed.
  Lemma insert_fresh m (k : K) (v : V) : map_get m k = None -> map_insert m k v = m ++ [(k, v)].
  Proof.
    induction m as [|[k' v'] r IH]; [done|]. rewrite get_cons. simpl. case_bool_decide; [done|]. intros E. by rewrite IH.
  Qed.
  Lemma try_insert_ret m (k : K) (v : V) m' : try_insert m k v = Ret m' -> map_get m k = None /\ m' = m ++ [(k, v)].
  Proof.
    unfold try_insert, map_contains. destruct (map_get m k) eqn:E; [done|]. intros [= <-]. by rewrite insert_fresh.
  Qed.
  Lemma try_insert_fresh m (k : K) (v : V) : map_get m k = None -> try_insert m k v = Ret (m ++ [(k, v)]).
  Proof. intros E. unfold try_insert, map_contains. by rewrite E, insert_fresh. Qed.
End Maps.

(** ** Builders, as part of what becomes of them *)

Section Final.
  Variable func : Function.

  (** the finished blocks of the builder are blocks of the function, and the current block is the beginning of one *)
  Definition final (b : FnBuilder) : Prop :=
    (forall n blk, map_get (fb_blocks b) n = Some blk -> map_get (fn_blocks func) n = Some blk) /\
    (forall c, fb_cur b = Some c -> exists blk rest, map_get (fn_blocks func) (cb_name c) = Some blk /\
       bb_statements blk = cb_statements c ++ rest /\ bb_kind blk = cb_kind c).

  Lemma final_next b n : final (with_next_block b n) <-> final b.
  Proof. done. Qed.
  Lemma set_cur_ret b n k b' : set_cur_block b n k = Ret b' ->
    fb_cur b = None /\ map_get (fb_blocks b) n = None /\ b' = with_cur b (Some (mkCur [] n k)).
  Proof.
    unfold set_cur_block, map_contains. destruct (map_get (fb_blocks b) n); [done|]. destruct (fb_cur b); [done|].
    by intros [= <-].
  Qed.
  Lemma set_cur_final b n k b' : set_cur_block b n k = Ret b' -> final b' -> final b.
  Proof.
    intros E [H1 _]. apply set_cur_ret in E as (Hc & _ & ->). split; [exact H1|]. by rewrite Hc.
  Qed.
  Lemma finish_ret tm b b' : finish_block tm b = Ret b' -> exists c, fb_cur b = Some c /\ fb_cur b' = None /\
    map_get (fb_blocks b) (cb_name c) = None /\
    fb_blocks b' = fb_blocks b ++ [(cb_name c, mkBlock (cb_statements c) tm (cb_kind c))] /\
    fb_next_block b' = fb_next_block b /\ fb_locals b' = fb_locals b /\ fb_next_local b' = fb_next_local b.
  Proof.
    unfold finish_block. destruct (fb_cur b) as [c|] eqn:Ec; [|done]. simpl.
    destruct (try_insert (fb_blocks b) (cb_name c) _) eqn:E; try done. simpl. intros [= <-].
    apply try_insert_ret in E as [Hn ->]. exists c. repeat split; try done.
  Qed.
  Lemma finish_final tm b b' : finish_block tm b = Ret b' -> final b' -> final b /\
    exists c, fb_cur b = Some c /\ fb_cur b' = None /\ term_at func (cb_name c) (length (cb_statements c)) tm.
  Proof.
    intros E [H1 _]. apply finish_ret in E as (c & Hc & Hc' & Hn & Hb & _).
    assert (Hg : map_get (fn_blocks func) (cb_name c) = Some (mkBlock (cb_statements c) tm (cb_kind c))).
    { apply H1. rewrite Hb, get_app, Hn, get_cons. by rewrite bool_decide_eq_true_2. }
    split; [split|].
    - intros n blk Hg'. apply H1. rewrite Hb, get_app, Hg'. done.
    - intros c0 E0. rewrite Hc in E0. injection E0 as <-. exists (mkBlock (cb_statements c) tm (cb_kind c)), [].
      rewrite app_nil_r. done.
    - exists c. split; [done|]. split; [done|]. exists (mkBlock (cb_statements c) tm (cb_kind c)). done.
  Qed.

  (** [backs g]: if what [g] makes of a builder is part of the function, so is the builder *)
  Definition backs (g : Builder) : Prop := forall b b', g b = Ret b' -> final b' -> final b.

  Lemma backs_finish tm : backs (finish_block tm).
  Proof. intros b b' E H. by apply (finish_final tm b b' E H). Qed.
  Lemma backs_next tm : backs (finish_with_next_block tm).
  Proof.
    intros b b' E H. unfold finish_with_next_block, cur_block, declare_block in E.
    destruct (fb_cur b) as [c|] eqn:Ec; [|done]. simpl in E.
    destruct (finish_block _ _) as [b1| | |] eqn:E1; try discriminate E. simpl in E.
    apply set_cur_final in E; [|done]. exact (backs_finish _ _ _ E1 E).
  Qed.
  Lemma backs_call ret f args conv next unwind : backs (handle_call ret f args conv next unwind).
  Proof.
    intros b b' E H. unfold handle_call, cur_block in E. destruct (fb_cur b) as [c|] eqn:Ec; [|done]. simpl in E.
    destruct (finish_block _ _) as [b1| | |] eqn:E1; try discriminate E. simpl in E.
    assert (H1 : final b1) by (destruct next; [exact (set_cur_final _ _ _ _ E H)|by injection E as ->]). exact (backs_finish _ _ _ E1 H1).
  Qed.
  Lemma backs_push s : backs (push_statement s).
  Proof.
    intros b b' E [H1 H2]. unfold push_statement, cur_block in E. destruct (fb_cur b) as [c|] eqn:Ec; [|done].
    injection E as <-. split; [exact H1|]. intros c0 E0. rewrite Ec in E0. injection E0 as <-.
    destruct (H2 _ eq_refl) as (blk & rest & Hb & Hs & Hk). simpl in *. exists blk, (s :: rest).
    rewrite Hs, <- app_assoc. done.
  Qed.
  Lemma handler_ret k g b n b' : handler_block k g b = Ret (n, b') ->
    exists b1 b2, n = fb_next_block b /\ fb_cur b1 = Some (mkCur [] n k) /\
      b1 = with_cur (with_next_block (with_cur b None) (fb_next_block b + 1)) (Some (mkCur [] n k)) /\
      map_get (fb_blocks b) n = None /\ g b1 = Ret b2 /\ fb_cur b2 = None /\ b' = with_cur b2 (fb_cur b).
  Proof.
    unfold handler_block, declare_block. simpl. destruct (set_cur_block _ _ _) as [b1| | |] eqn:E1; try done. simpl.
    apply set_cur_ret in E1 as (_ & Hn & ->).
    destruct (g _) as [b2| | |] eqn:E2; try done. simpl. destruct (fb_cur b2) eqn:E3; [done|]. simpl. intros [= <- <-].
    eexists _, b2. repeat split; try done.
  Qed.
  Lemma handler_final k g b n b' : backs g -> handler_block k g b = Ret (n, b') -> final b' ->
    final b /\ fb_cur b' = fb_cur b /\
    exists b1 b2, fb_cur b1 = Some (mkCur [] n k) /\ g b1 = Ret b2 /\ fb_cur b2 = None /\ final b2.
  Proof.
    intros Hg E [H1 H2]. apply handler_ret in E as (b1 & b2 & -> & Hc1 & -> & Hn & E & Hc2 & ->). simpl in *.
    assert (Hf : final b2) by (split; [exact H1|by rewrite Hc2]). pose proof (Hg _ _ E Hf) as [G1 _]. simpl in G1.
    split; [by split|]. split; [done|]. refine (ex_intro _ _ (ex_intro _ b2 (conj _ (conj E (conj Hc2 Hf))))). done.
  Qed.

  (** one branch of a switch *)
  Lemma branch_ret k b after g n b' after' : switch_branch k (b, after) (g, n) = Ret (b', after') ->
    exists b1 b2, set_cur_block b n k = Ret b1 /\ g b1 = Ret b2 /\ fb_cur b' = None /\
      match fb_cur b2 with
      | None => b' = b2 /\ after' = after
      | Some _ => exists d b3, after' = Some d /\ fb_goto d b3 = Ret b' /\
          ((after = Some d /\ b3 = b2) \/ (after = None /\ (d, b3) = declare_block b2))
      end.
  Proof.
    unfold switch_branch. simpl. destruct (set_cur_block b n k) as [b1| | |] eqn:E1; try done. simpl.
    destruct (g b1) as [b2| | |] eqn:E2; try done. simpl. destruct (fb_cur b2) as [c|] eqn:E3.
    - destruct (match after with Some n => (n, b2) | None => declare_block b2 end) as [d b3] eqn:Ed.
      destruct (fb_goto d b3) as [b4| | |] eqn:E4; try done. simpl. intros [= <- <-]. exists b1, b2.
      pose proof E4 as E5. apply finish_ret in E5 as (c' & _ & Hc' & _). repeat split; try done. rewrite E3.
      exists d, b3. repeat split; try done. destruct after; [left|right]; injection Ed as <- <-; done.
    - intros [= <- <-]. exists b1, b2. by rewrite E3.
  Qed.
  (** all branches of a switch: each is built, and if it does not leave continues at [after] *)
  Definition built_branch (k : BbKind) (after : option BbName) (gn : Builder * BbName) : Prop :=
    exists b1 b2, fb_cur b1 = Some (mkCur [] (snd gn) k) /\ fst gn b1 = Ret b2 /\ final b2 /\
      (forall c, fb_cur b2 = Some c -> exists d, after = Some d /\ term_at func (cb_name c) (length (cb_statements c)) (TmGoto d)).
  Lemma branches_final k l b after b' after' : (forall g n, In (g, n) l -> backs g) ->
    fold_m (switch_branch k) l (b, after) = Ret (b', after') -> fb_cur b = None -> final b' ->
    final b /\ fb_cur b' = None /\ (forall d, after = Some d -> after' = Some d) /\ Forall (built_branch k after') l.
  Proof.
    revert b after. induction l as [|[g n] r IH]; intros b after Hl E Hb Hf.
    - injection E as <- <-. done.
    - change (fold_m (switch_branch k) ((g, n) :: r) (b, after)) with
        (obind (switch_branch k (b, after) (g, n)) (fold_m (switch_branch k) r)) in E.
      destruct (switch_branch k (b, after) (g, n)) as [[b0 after0]| | |] eqn:E0; try discriminate E. cbn [obind] in E.
      apply branch_ret in E0 as (b1 & b2 & E1 & E2 & Hc0 & E3).
      destruct (IH b0 after0) as (Hf0 & Hc & Ha & Hr); [intros g' n' Hi; apply (Hl g' n'); by right|done|done|done|].
      assert (Hf2 : final b2 /\ (forall d, after = Some d -> after0 = Some d) /\
        (forall c, fb_cur b2 = Some c -> exists d, after0 = Some d /\ term_at func (cb_name c) (length (cb_statements c)) (TmGoto d))).
      { destruct (fb_cur b2) as [c2|] eqn:Ec2.
        - destruct E3 as (d & b3 & -> & E3 & Hd). apply finish_final in E3 as (Hf3 & c & Hc3 & _ & Ht); [|done].
          assert (final b2 /\ fb_cur b3 = fb_cur b2) as [? E4]
            by (destruct Hd as [[-> ->]|[-> [= -> ->]]]; split; done).
          split; [done|]. split; [intros d' ->; by destruct Hd as [[[= ->] ->]|[? _]]|].
          intros c0 [= <-]. exists d. split; [done|]. rewrite E4, Ec2 in Hc3. injection Hc3 as <-. done.
        - destruct E3 as [-> ->]. split; [done|]. split; [done|]. done. }
      destruct Hf2 as (Hf2 & Ha0 & Hg2).
      pose proof (Hl g n (or_introl eq_refl) _ _ E2 Hf2) as Hf1.
      split; [exact (set_cur_final _ _ _ _ E1 Hf1)|]. split; [done|]. split; [intros d Hd; by apply Ha, Ha0|].
      constructor; [|done]. exists b1, b2. apply set_cur_ret in E1 as (_ & _ & ->). repeat split; try done; try apply Hf2.
      intros c Hc2. destruct (Hg2 c Hc2) as (d & -> & Ht). exists d. split; [by apply Ha|done].
  Qed.

  (** the blocks for the cases *)
  Lemma blocks_ret cases b br mp br' mp' b' : switch_blocks cases b br mp = Ret (br', mp', b') ->
    exists ns, length ns = length cases /\ br' = br ++ zip (List.map snd cases) ns /\ mp' = mp ++ zip (List.map fst cases) ns /\
      fb_cur b' = fb_cur b /\ fb_blocks b' = fb_blocks b /\ fb_locals b' = fb_locals b /\ fb_next_local b' = fb_next_local b /\
      ns = List.map (fun i => (fb_next_block b + N.of_nat i)%N) (seq 0 (length cases)) /\
      fb_next_block b' = (fb_next_block b + N.of_nat (length cases))%N.
  Proof.
    revert b br mp. induction cases as [|[i g] r IH]; intros b br mp E; simpl in E.
    - injection E as <- <- <-. exists []. simpl. rewrite !app_nil_r. repeat split; try done. simpl. lia.
    - destruct (try_insert mp i (fb_next_block b)) as [mp1| | |] eqn:E1; try discriminate E. simpl in E.
      apply try_insert_ret in E1 as [_ ->]. apply IH in E as (ns & Hl & -> & -> & Hc & Hb & Hv & Hw & Hns & Hn). simpl in *.
      exists (fb_next_block b :: ns). simpl. rewrite <- !app_assoc. repeat split; try done; try lia.
      f_equal; [lia|]. rewrite Hns. rewrite <- seq_shift, map_map. apply map_ext. intros. lia.
  Qed.

  (** a switch *)
  Lemma switch_final v cases fallback b b' c0 : (forall g, In g (List.map snd cases) \/ g = fallback -> backs g) ->
    switch_int v cases fallback b = Ret b' -> fb_cur b = Some c0 -> final b' ->
    final b /\ exists ns fn after, length ns = length cases /\
      term_at func (cb_name c0) (length (cb_statements c0)) (TmSwitch v (zip (List.map fst cases) ns) fn) /\
      (forall d, after = Some d <-> exists k, fb_cur b' = Some (mkCur [] d k)) /\
      Forall (built_branch (cb_kind c0) after) (zip (List.map snd cases) ns) /\ built_branch (cb_kind c0) after (fallback, fn).
  Proof.
    intros Hg E Hc Hf. unfold switch_int, cur_block in E. rewrite Hc in E. simpl in E.
    destruct (switch_blocks cases b [] []) as [[[br mp] b1]| | |] eqn:E1; try discriminate E. simpl in E.
    apply blocks_ret in E1 as (ns & Hl & -> & -> & Hc1 & Hb1 & _). simpl in E.
    destruct (finish_block _ _) as [b2| | |] eqn:E2; try discriminate E. simpl in E.
    destruct (fold_m _ _ _) as [[b3 after]| | |] eqn:E3; try discriminate E. simpl in E.
    assert (Hf3 : final b3) by (destruct after; [exact (set_cur_final _ _ _ _ E Hf)|by injection E as ->]).
    assert (H2 : fb_cur b2 = None) by (by apply finish_ret in E2 as (? & _ & ? & _)).
    apply branches_final in E3 as (Hf2 & Hc3 & _ & Hbr); [|intros g n Hi|done|done].
    2: { apply Hg. apply in_app_iff in Hi as [Hi|[[= <- <-]|[]]]; [left|by right]. by apply in_combine_l in Hi. }
    apply finish_final in E2 as (Hf1 & c & Hcc & _ & Ht); [|done]. simpl in Hcc. rewrite Hc1, Hc in Hcc. injection Hcc as <-.
    split. { destruct Hf1 as [F1 F2]. simpl in *. rewrite Hb1 in F1. rewrite Hc1 in F2. by split. }
    exists ns, (fb_next_block b1), after. apply Forall_app in Hbr as [Hbr Hbr']. apply Forall_inv in Hbr'.
    repeat split; try done.
    - intros ->. apply set_cur_ret in E as (_ & _ & ->). by exists (cb_kind c0).
    - intros (k & Hk). destruct after as [n|].
      + apply set_cur_ret in E as (_ & _ & ->). simpl in Hk. by injection Hk as ->.
      + injection E as ->. by rewrite Hc3 in Hk.
  Qed.

  Lemma backs_switch v cases fallback : (forall g, In g (List.map snd cases) \/ g = fallback -> backs g) ->
    backs (switch_int v cases fallback).
  Proof.
    intros Hg b b' E Hf. destruct (fb_cur b) as [c0|] eqn:Hc.
    - exact (proj1 (switch_final _ _ _ _ _ _ Hg E Hc Hf)).
    - unfold switch_int, cur_block in E. by rewrite Hc in E.
  Qed.
End Final.

(** ** Induction over commands *)
Section Cmd_ind.
  Variable Q : Cmd -> Prop.
  Hypothesis HSkip : Q CmSkip.
  Hypothesis HSeq : forall c d, Q c -> Q d -> Q (CmSeq c d).
  Hypothesis HLocal : forall ty, Q (CmLocal ty).
  Hypothesis HStmt : forall s, Q (CmStmt s).
  Hypothesis HIntr : forall op args ret, Q (CmIntr op args ret).
  Hypothesis HCall : forall f args ret, Q (CmCall f args ret).
  Hypothesis HTry : forall f conv args ret k h, Q h -> Q (CmTry f conv args ret k h).
  Hypothesis HThrow : forall v k h, Q h -> Q (CmThrow v k h).
  Hypothesis HEnd : forall e, Q (CmEnd e).
  Hypothesis HSwitch : forall v cases fb, Forall (fun ic => Q (snd ic)) cases -> Q fb -> Q (CmSwitch v cases fb).
  Hypothesis HIf : forall c t e, Q t -> Q e -> Q (CmIf c t e).
  Hypothesis HWhile : forall c body, Q body -> Q (CmWhile c body).
  Fixpoint Cmd_ind' (c : Cmd) : Q c.
  Proof.
    destruct c as [|c d|ty|s|op args ret|f args ret|f conv args ret k h|v k h|e|v cases fb|c t e|c body].
    - exact HSkip.
    - apply HSeq; apply Cmd_ind'.
    - apply HLocal.
    - apply HStmt.
    - apply HIntr.
    - apply HCall.
    - apply HTry, Cmd_ind'.
    - apply HThrow, Cmd_ind'.
    - apply HEnd.
    - apply HSwitch; [|apply Cmd_ind']. induction cases as [|x r IH]; constructor; [apply Cmd_ind'|apply IH].
    - apply HIf; apply Cmd_ind'.
    - apply HWhile, Cmd_ind'.
  Defined.
End Cmd_ind.

(** ** Without a current block *)

Lemma handler_cur k g b n b' : fb_handler k g b = Ret (n, b') -> fb_cur b' = fb_cur b.
Proof. intros E. destruct k; apply handler_ret in E as (b1 & b2 & _ & _ & _ & _ & _ & _ & ->); done. Qed.

(** only what does nothing succeeds if there is no current block *)
Lemma emit_closed c : forall b b', emit c b = Ret b' -> fb_cur b = None -> fb_cur b' = None /\ passive c = true.
Proof.
  induction c as [|c d IHc IHd|ty|s|op args ret|f args ret|f conv args ret k h IH|v k h IH|e|v cases fb _ _|c t e _ _|c body _]
    using Cmd_ind'; intros b b' E Hc; cbn [emit] in E.
  - injection E as <-. done.
  - destruct (emit c b) as [b1| | |] eqn:E1; try discriminate E. destruct (IHc b b1 E1 Hc) as [H1 P1].
    destruct (IHd b1 b' E H1) as [H2 P2]. simpl. by rewrite P1, P2.
  - unfold declare_local in E. destruct (try_insert _ _ _); try discriminate E. injection E as <-. done.
  - unfold push_statement, cur_block in E. by rewrite Hc in E.
  - unfold fb_intrinsic, finish_with_next_block, cur_block in E. by rewrite Hc in E.
  - unfold call_nounwind, handle_call, cur_block in E. simpl in E. by rewrite Hc in E.
  - destruct (fb_handler k (emit h) b) as [[n b1]| | |] eqn:E1; try discriminate E. apply handler_cur in E1.
    unfold call_with_conv, handle_call, cur_block in E. simpl in E. by rewrite E1, Hc in E.
  - destruct (fb_handler k (emit h) b) as [[n b1]| | |] eqn:E1; try discriminate E. apply handler_cur in E1.
    unfold fb_start_unwind, finish_block in E. simpl in E. by rewrite E1, Hc in E.
  - destruct e; cbn in E; unfold fb_exit, fb_abort, fb_unreachable, fb_return, fb_resume_unwind, call_noret, handle_call, finish_block,
      cur_block in E; by rewrite Hc in E.
  - unfold switch_int, cur_block in E. by rewrite Hc in E.
  - unfold fb_if, switch_int, cur_block in E. by rewrite Hc in E.
  - unfold fb_while, cur_block in E. simpl in E. by rewrite Hc in E.
Qed.

(** ** Each command only adds to a function *)

Section Emit.
  Variable func : Function.
  Notation final := (final func).
  Notation backs := (backs func).

  Lemma handler_backs k g : backs g -> forall b n b', fb_handler k g b = Ret (n, b') -> final b' -> final b.
  Proof. intros Hg b n b' E Hf. destruct k; by apply (handler_final func _ g b n b' Hg E Hf). Qed.

  Lemma emit_backs c : backs (emit c).
  Proof.
    induction c as [|c d IHc IHd|ty|s|op args ret|f args ret|f conv args ret k h IH|v k h IH|e|v cases fb IHs IHf|c t e IHt IHe|c body IH]
      using Cmd_ind'; intros b b' E Hf; cbn [emit] in E.
    - by injection E as <-.
    - destruct (emit c b) as [b1| | |] eqn:E1; try discriminate E. exact (IHc _ _ E1 (IHd _ _ E Hf)).
    - unfold declare_local in E. destruct (try_insert _ _ _); try discriminate E. injection E as <-. exact Hf.
    - exact (backs_push _ _ _ _ E Hf).
    - exact (backs_next _ _ _ _ E Hf).
    - exact (backs_call _ _ _ _ _ _ _ _ _ E Hf).
    - destruct (fb_handler k (emit h) b) as [[n b1]| | |] eqn:E1; try discriminate E.
      apply (handler_backs _ _ IH _ _ _ E1). exact (backs_call _ _ _ _ _ _ _ _ _ E Hf).
    - destruct (fb_handler k (emit h) b) as [[n b1]| | |] eqn:E1; try discriminate E.
      apply (handler_backs _ _ IH _ _ _ E1). exact (backs_finish _ _ _ _ E Hf).
    - destruct e; first [exact (backs_finish _ _ _ _ E Hf)|exact (backs_call _ _ _ _ _ _ _ _ _ E Hf)].
    - refine (backs_switch _ _ _ _ _ _ _ E Hf). intros g [Hg| ->]; [|exact IHf]. rewrite map_map in Hg.
      apply in_map_iff in Hg as ([i c] & <- & Hi). simpl. rewrite Forall_forall in IHs. apply (IHs (i, c)). by apply elem_of_list_In.
    - refine (backs_switch _ _ _ _ _ _ _ E Hf). intros g [[<-|[]]| ->]; done.
    - unfold fb_while, cur_block in E. simpl in E. destruct (fb_cur b) as [c0|] eqn:Hc; [|done]. simpl in E.
      destruct (fb_goto _ _) as [b1| | |] eqn:E1; try discriminate E. cbn [obind] in E.
      destruct (set_cur_block _ _ _) as [b2| | |] eqn:E2; try discriminate E. cbn [obind] in E.
      apply (backs_finish _ _ _ _ E1). apply (set_cur_final _ _ _ _ _ E2). refine (backs_switch _ _ _ _ _ _ _ E Hf).
      intros g [[<-|[]]| ->]; [|by intros ? ? [= <-]]. intros b3 b4 E3 Hf4. simpl in E3.
      destruct (emit body b3) as [b5| | |] eqn:E5; try discriminate E3. cbn [obind] in E3. apply (IH _ _ E5).
      destruct (fb_cur b5); [exact (backs_finish _ _ _ _ E3 Hf4)|by injection E3 as ->].
  Qed.

  (** ** Following commands for a number of steps *)

  Fixpoint fol (n : nat) (b : BbName) (i : nat) (k : list Cmd) : Prop :=
    match n with 0%nat => True | S n => moves_as func (fol n) b i k end.

  Lemma moves_mono (R R' : BbName -> nat -> list Cmd -> Prop) : (forall b i k, R b i k -> R' b i k) ->
    forall b i k, moves_as func R b i k -> moves_as func R' b i k.
  Proof.
    intros HR b i k. induction 1 as [b i b' k Ht _ IH|b i s k k' Hs Hd Hr|b i op args ret nb k k' Ht Hd Hr|
      b i f conv args ret nb k k' Ht Hd Hr|b i f conv args ret nb ub k k' kh Ht Hd Hr Hd' Hr'|b i v ub k kh Ht Hd Hr|
      b i v cases fb k Ht Hd|b i c bt be k kt ke Ht Hd Hr Hd' Hr'|b i e k Ht Hd].
    - by apply (mo_goto _ _ b i b').
    - apply (mo_stmt _ _ b i s k k'); auto.
    - apply (mo_intr _ _ b i op args ret nb k k'); auto.
    - apply (mo_call _ _ b i f conv args ret nb k k'); auto.
    - apply (mo_try _ _ b i f conv args ret nb ub k k' kh); auto.
    - apply (mo_throw _ _ b i v ub k kh); auto.
    - apply (mo_switch _ _ b i v cases fb k); [done|]. intros z b' Hz. destruct (Hd z b' Hz) as (k' & ? & ?). eauto.
    - apply (mo_test _ _ b i c bt be k kt ke); auto.
    - by apply (mo_end _ _ b i e k).
  Qed.
  Lemma moves_weaken R b i k k2 : (forall a k', does k a k' -> does k2 a k') -> moves_as func R b i k -> moves_as func R b i k2.
  Proof.
    intros HR. induction 1 as [b i b' k Ht _ IH|b i s k k' Hs Hd Hr|b i op args ret nb k k' Ht Hd Hr|
      b i f conv args ret nb k k' Ht Hd Hr|b i f conv args ret nb ub k k' kh Ht Hd Hr Hd' Hr'|b i v ub k kh Ht Hd Hr|
      b i v cases fb k Ht Hd|b i c bt be k kt ke Ht Hd Hr Hd' Hr'|b i e k Ht Hd].
    - apply (mo_goto _ _ b i b'); auto.
    - apply (mo_stmt _ _ b i s k2 k'); auto.
    - apply (mo_intr _ _ b i op args ret nb k2 k'); auto.
    - apply (mo_call _ _ b i f conv args ret nb k2 k'); auto.
    - apply (mo_try _ _ b i f conv args ret nb ub k2 k' kh); auto.
    - apply (mo_throw _ _ b i v ub k2 kh); auto.
    - apply (mo_switch _ _ b i v cases fb k2); [done|]. intros z b' Hz. destruct (Hd z b' Hz) as (k' & ? & ?). eauto.
    - apply (mo_test _ _ b i c bt be k2 kt ke); auto.
    - apply (mo_end _ _ b i e k2); auto.
  Qed.
  Lemma fol_mono n : forall b i k, fol (S n) b i k -> fol n b i k.
  Proof. induction n as [|n IH]; [done|]. intros b i k. apply moves_mono. exact IH. Qed.
  Lemma fol_le n m b i k : (m <= n)%nat -> fol n b i k -> fol m b i k.
  Proof. induction 1; [done|]. intros H1. apply IHle. by apply fol_mono. Qed.
  Lemma fol_weaken n b i k k2 : (forall a k', does k a k' -> does k2 a k') -> fol n b i k -> fol n b i k2.
  Proof. destruct n; [done|]. apply moves_weaken. Qed.
  Lemma fol_goto n b i b' k : term_at func b i (TmGoto b') -> fol n b' 0 k -> fol n b i k.
  Proof. destruct n; [done|]. intros Ht H. by apply (mo_goto _ _ b i b'). Qed.

  (** the blocks of cases, and which of them is selected *)
  Lemma selects_pick (cases : list (Z * Cmd)) fb ns fn z b' : length ns = length cases ->
    selects (zip (List.map fst cases) ns) fn z b' ->
    (pick cases fb z = fb /\ b' = fn) \/
    exists i c, In (i, c) cases /\ pick cases fb z = c /\ In (emit c, b') (zip (List.map (fun ic => emit (snd ic)) cases) ns).
  Proof.
    revert ns. induction cases as [|[j c] r IH]; intros ns Hl Hs.
    - left. destruct Hs as [(l1 & l2 & E & _)|[_ ->]]; [|done]. destruct l1; discriminate E.
    - destruct ns as [|n ns]; [done|]. simpl in Hs. simpl. case_bool_decide as Hj.
      + subst j. right. exists z, c. split; [by left|]. split; [done|]. left. f_equal.
        destruct Hs as [(l1 & l2 & E & Hn)|[Hn _]].
        * destruct l1 as [|[x y] l1]; simpl in E; [by injection E|]. injection E as -> -> _. destruct Hn. by left.
        * destruct Hn. by left.
      + simpl in Hl. destruct (IH ns) as [H0|(i & c' & Hi & Hp & Hin)]; [lia| | |].
        * destruct Hs as [(l1 & l2 & E & Hn)|[Hn ->]].
          -- destruct l1 as [|[x y] l1]; simpl in E; [by injection E|]. injection E as <- <- E. left. exists l1, l2. split; [done|].
             intros Hin. apply Hn. by right.
          -- right. split; [|done]. intros Hin. apply Hn. by right.
        * by left.
        * right. exists i, c'. split; [by right|]. split; [done|]. by right.
  Qed.

  Definition emits (c : Cmd) : Prop := forall n b b' c0 k, emit c b = Ret b' -> fb_cur b = Some c0 -> final b' ->
    (forall c1, fb_cur b' = Some c1 -> fol n (cb_name c1) (length (cb_statements c1)) k) ->
    fol n (cb_name c0) (length (cb_statements c0)) (c :: k).

  (** a command that has been built as a branch *)
  Lemma branch_fol n k c kd after nm : emits c -> built_branch func kd after (emit c, nm) ->
    (forall d, after = Some d -> fol n d 0 k) -> fol n nm 0 (c :: k).
  Proof.
    intros Hc (b1 & b2 & Hb1 & E & Hf & Ha) Hd. apply (Hc n b1 b2 _ k E Hb1 Hf). intros c1 Hc1.
    destruct (Ha c1 Hc1) as (d & -> & Ht). apply (fol_goto _ _ _ d); [done|]. by apply Hd.
  Qed.

  (** the block after a command with a next block *)
  Lemma next_cur tm b b' : finish_with_next_block tm b = Ret b' -> final b' -> exists c n, fb_cur b = Some c /\
    fb_cur b' = Some (mkCur [] n (cb_kind c)) /\ term_at func (cb_name c) (length (cb_statements c)) (tm n).
  Proof.
    intros E Hf. unfold finish_with_next_block, cur_block, declare_block in E. destruct (fb_cur b) as [c|] eqn:Ec; [|done].
    simpl in E. destruct (finish_block _ _) as [b1| | |] eqn:E1; try discriminate E. cbn [obind] in E.
    pose proof (set_cur_final func _ _ _ _ E Hf) as Hf1. apply set_cur_ret in E as (_ & _ & ->).
    apply (finish_final func) in E1 as (_ & c' & Hc' & _ & Ht); [|done]. simpl in Hc'. rewrite Ec in Hc'. injection Hc' as <-.
    by exists c, (fb_next_block b).
  Qed.
  Lemma call_cur ret f args conv n unwind b b' : handle_call ret f args conv (Some n) unwind b = Ret b' -> final b' ->
    exists c, fb_cur b = Some c /\ fb_cur b' = Some (mkCur [] n (cb_kind c)) /\
      term_at func (cb_name c) (length (cb_statements c)) (TmCall f conv args ret (Some n) unwind).
  Proof.
    intros E Hf. unfold handle_call, cur_block in E. destruct (fb_cur b) as [c|] eqn:Ec; [|done].
    simpl in E. destruct (finish_block _ _) as [b1| | |] eqn:E1; try discriminate E. cbn [obind] in E.
    pose proof (set_cur_final func _ _ _ _ E Hf) as Hf1. apply set_cur_ret in E as (_ & _ & ->).
    apply (finish_final func) in E1 as (_ & c' & Hc' & _ & Ht); [|done]. rewrite Ec in Hc'. injection Hc' as <-.
    by exists c.
  Qed.
  (** the block of a handler *)
  Lemma handler_fol n k h b nm b' : emits h -> fb_handler k (emit h) b = Ret (nm, b') -> final b' ->
    fb_cur b' = fb_cur b /\ fol n nm 0 [h].
  Proof.
    intros Hh E Hf.
    assert (exists b1 b2 kd, fb_cur b' = fb_cur b /\ fb_cur b1 = Some (mkCur [] nm kd) /\ emit h b1 = Ret b2 /\ fb_cur b2 = None /\ final b2)
      as (b1 & b2 & kd & Hc & Hc1 & E1 & Hc2 & Hf2).
    { destruct k; apply (handler_final func) in E as (_ & Hc & b1 & b2 & H1 & H2 & H3 & H4); try done; try apply emit_backs;
        by eexists b1, b2, _. }
    split; [done|]. apply (Hh n b1 b2 _ [] E1 Hc1 Hf2). by rewrite Hc2.
  Qed.

  Lemma emit_fol c : emits c.
  Proof.
    induction c as [|c d IHc IHd|ty|s|op args ret|f args ret|f conv args ret kd h IH|v kd h IH|e|v cases fb IHs IHf|c t e IHt IHe|c body IH]
      using Cmd_ind'; intros n b b' c0 k E Hc Hf Hk; cbn [emit] in E.
    - injection E as <-. apply (fol_weaken _ _ _ k); [intros; by constructor|]. by apply Hk.
    - destruct (emit c b) as [b1| | |] eqn:E1; try discriminate E. cbn [obind] in E.
      apply (fol_weaken _ _ _ (c :: d :: k)); [intros; by constructor|].
      apply (IHc n b b1); [done|done|exact (emit_backs _ _ _ E Hf)|]. intros c1 Hc1. by apply (IHd n b1 b').
    - unfold declare_local in E. destruct (try_insert _ _ _); try discriminate E. injection E as <-.
      apply (fol_weaken _ _ _ k); [intros; by constructor|]. by apply Hk.
    - unfold push_statement, cur_block in E. rewrite Hc in E. injection E as <-. destruct n as [|n]; [done|].
      destruct (proj2 Hf _ eq_refl) as (blk & rest & Hb & Hst & _). simpl in Hb, Hst.
      apply (mo_stmt _ _ _ _ s _ k); [|constructor|].
      + exists blk. split; [done|]. rewrite Hst, <- app_assoc. by rewrite lookup_app_r, Nat.sub_diag.
      + apply fol_mono. specialize (Hk _ eq_refl). simpl in Hk. rewrite app_length in Hk. simpl in Hk. by rewrite Nat.add_1_r in Hk.
    - apply next_cur in E as (c & nb & Hc' & Hcn & Ht); [|done]. rewrite Hc in Hc'. injection Hc' as <-. destruct n as [|n]; [done|].
      apply (mo_intr _ _ _ _ op args ret nb _ k); [done|constructor|]. apply fol_mono. exact (Hk _ Hcn).
    - unfold call_nounwind in E. cbn in E. apply call_cur in E as (c & Hc' & Hcn & Ht); [|done]. simpl in Hc'. rewrite Hc in Hc'.
      injection Hc' as <-. destruct n as [|n]; [done|].
      apply (mo_call _ _ _ _ f CcRust args ret _ _ k Ht); [constructor|]. apply fol_mono. exact (Hk _ Hcn).
    - destruct (fb_handler kd (emit h) b) as [[nm b1]| | |] eqn:E1; try discriminate E. cbn [obind] in E.
      unfold call_with_conv in E. cbn in E.
      assert (Hf1 : final b1) by exact (backs_call _ _ _ _ _ _ _ _ _ E Hf).
      destruct (handler_fol n _ _ _ _ _ IH E1 Hf1) as [Hc1 Hh].
      apply call_cur in E as (c & Hc' & Hcn & Ht); [|done]. simpl in Hc'. rewrite Hc1, Hc in Hc'. injection Hc' as <-.
      destruct n as [|n]; [done|]. apply (mo_try _ _ _ _ f conv args ret _ nm _ k [h] Ht); [constructor| |constructor|].
      + apply fol_mono. exact (Hk _ Hcn).
      + by apply fol_mono.
    - destruct (fb_handler kd (emit h) b) as [[nm b1]| | |] eqn:E1; try discriminate E. cbn [obind] in E.
      assert (Hf1 : final b1) by exact (backs_finish _ _ _ _ E Hf).
      destruct (handler_fol n _ _ _ _ _ IH E1 Hf1) as [Hc1 Hh].
      apply (finish_final func) in E as (_ & c & Hc' & _ & Ht); [|done]. rewrite Hc1, Hc in Hc'. injection Hc' as <-.
      destruct n as [|n]; [done|]. apply (mo_throw _ _ _ _ v nm _ [h] Ht); [constructor|]. by apply fol_mono.
    - assert (Ht : term_at func (cb_name c0) (length (cb_statements c0)) (ending_term e)).
      { destruct e as [ | | | | |f args ret];
          try (apply (finish_final func) in E as (_ & c & Hc' & _ & Ht); [|done]; rewrite Hc in Hc'; injection Hc' as <-; exact Ht).
        unfold emit_end, call_noret, handle_call, cur_block in E. rewrite Hc in E. cbn [unwrap obind] in E.
        destruct (finish_block _ b) as [b1| | |] eqn:E1; try discriminate E. cbn [obind] in E. injection E as ->.
        apply (finish_final func) in E1 as (_ & c & Hc' & _ & Ht); [|done]; rewrite Hc in Hc'; injection Hc' as <-; exact Ht. }
      destruct n as [|n]; [done|]. apply (mo_end _ _ _ _ e); [done|constructor].
    - assert (Hg : forall g, In g (List.map snd (List.map (fun ic => (fst ic, emit (snd ic))) cases)) \/ g = emit fb -> backs g).
      { intros g [Hg| ->]; [|apply emit_backs]. rewrite map_map in Hg. apply in_map_iff in Hg as ([i c] & <- & _). apply emit_backs. }
      destruct (switch_final func _ _ _ _ _ c0 Hg E Hc Hf) as (_ & ns & fn & after & Hl & Ht & Ha & Hbr & Hfb).
      rewrite !map_map in *. simpl in *. rewrite map_length in Hl. destruct n as [|n]; [done|].
      apply (mo_switch _ _ _ _ _ _ _ _ Ht). intros z b1 Hz. eexists. split; [constructor|].
      assert (Hd : forall d, after = Some d -> fol n d 0 k).
      { intros d Hd. apply Ha in Hd as (kd & Hkd). apply fol_mono. exact (Hk _ Hkd). }
      apply (selects_pick cases fb) in Hz as [[-> ->]|(i & c & Hi & -> & Hin)]; [| |done].
      + exact (branch_fol _ _ _ _ _ _ IHf Hfb Hd).
      + apply elem_of_list_In in Hi, Hin. pose proof (proj1 (Forall_forall _ _) IHs _ Hi) as Hi'.
        pose proof (proj1 (Forall_forall _ _) Hbr _ Hin) as Hb'. exact (branch_fol _ _ _ _ _ _ Hi' Hb' Hd).
    - assert (Hg : forall g, In g (List.map snd [(1, emit t)]) \/ g = emit e -> backs g) by (intros g [[<-|[]]| ->]; apply emit_backs).
      destruct (switch_final func _ _ _ _ _ c0 Hg E Hc Hf) as (_ & ns & fn & after & Hl & Ht & Ha & Hbr & Hfb).
      destruct n as [|n]; [done|]. simpl in Hl. destruct ns as [|n1 [|]]; try done. simpl in *.
      assert (Hd : forall d, after = Some d -> fol n d 0 k).
      { intros d Hd. apply Ha in Hd as (kd & Hkd). apply fol_mono. exact (Hk _ Hkd). }
      apply Forall_inv in Hbr. apply (mo_test _ _ _ _ _ n1 fn _ (t :: k) (e :: k) Ht).
      + exact (do_if c t e k true).
      + exact (branch_fol _ _ _ _ _ _ IHt Hbr Hd).
      + exact (do_if c t e k false).
      + exact (branch_fol _ _ _ _ _ _ IHe Hfb Hd).
    - unfold fb_while, cur_block in E. simpl in E. rewrite Hc in E. simpl in E.
      destruct (fb_goto _ _) as [b1| | |] eqn:E1; try discriminate E. cbn [obind] in E.
      destruct (set_cur_block _ _ _) as [b2| | |] eqn:E2; try discriminate E. cbn [obind] in E.
      assert (Hg : forall g, In g (List.map snd [(1, fun b3 => let! b4 := emit body b3 in
          match fb_cur b4 with Some _ => fb_goto (fb_next_block b) b4 | None => Ret b4 end)]) \/ g = (fun b3 => Ret b3) -> backs g).
      { intros g [[<-|[]]| ->]; [|by intros ? ? [= <-]]. intros b3 b4 E3 Hf4. simpl in E3.
        destruct (emit body b3) as [b5| | |] eqn:E5; try discriminate E3. cbn [obind] in E3. apply (emit_backs _ _ _ E5).
        destruct (fb_cur b5); [exact (backs_finish _ _ _ _ E3 Hf4)|by injection E3 as ->]. }
      pose proof (set_cur_ret _ _ _ _ E2) as (_ & _ & Hb2).
      assert (Hcb2 : fb_cur b2 = Some (mkCur [] (fb_next_block b) (cb_kind c0))) by (by rewrite Hb2).
      destruct (switch_final func _ _ _ _ _ _ Hg E Hcb2 Hf) as (Hf2 & ns & fn & after & Hl & Ht & Ha & Hbr & Hfb). simpl in Ht, Hl. destruct ns as [|n1 [|]]; try done.
      pose proof (set_cur_final func _ _ _ _ E2 Hf2) as Hf1.
      apply (finish_final func) in E1 as (_ & c' & Hc' & _ & Hg1); [|done]. simpl in Hc'. rewrite Hc in Hc'. injection Hc' as <-.
      apply (fol_goto _ _ _ _ _ Hg1).
      assert (Hall : forall m, (m <= n)%nat -> fol m (fb_next_block b) 0 (CmWhile c body :: k)); [|by apply Hall].
      induction m as [|m IHm]; intros Hm; [done|]. specialize (IHm ltac:(lia)).
      apply (mo_test _ _ _ _ _ n1 fn _ (body :: CmWhile c body :: k) k Ht); [apply do_loop| |apply do_leave|].
      + apply Forall_inv in Hbr. destruct Hbr as (b4 & b5 & Hc4 & E4 & Hf5 & _). simpl in *.
        destruct (emit body b4) as [b6| | |] eqn:E6; try discriminate E4. cbn [obind] in E4.
        destruct (fb_cur b6) as [c6|] eqn:Hc6.
        * apply (finish_final func) in E4 as (Hf6 & c7 & Hc7 & _ & Hg6); [|done]. rewrite Hc6 in Hc7. injection Hc7 as <-.
          apply (IH m b4 b6 _ _ E6 Hc4 Hf6). intros c1 Hc1. rewrite Hc6 in Hc1. injection Hc1 as <-. by apply (fol_goto _ _ _ _ _ Hg6).
        * injection E4 as ->. apply (IH m b4 b5 _ _ E6 Hc4 Hf5). by rewrite Hc6.
      + destruct Hfb as (b4 & b5 & Hc4 & E4 & Hf5 & Ha5). simpl in *. injection E4 as ->.
        destruct (Ha5 _ Hc4) as (d & Hd & Hg5). simpl in Hg5. apply (fol_goto _ _ _ _ _ Hg5). apply Ha in Hd as (kd & Hkd).
        apply (fol_le n); [lia|]. exact (Hk _ Hkd).
  Qed.

  (** ** Following commands for ever *)

  Lemma term_term b i tm tm' : term_at func b i tm -> term_at func b i tm' -> tm = tm'.
  Proof. intros (blk & Hb & _ & <-) (blk' & Hb' & _ & <-). rewrite Hb in Hb'. by injection Hb' as <-. Qed.
  Lemma stmt_stmt b i s s' : stmt_at func b i s -> stmt_at func b i s' -> s = s'.
  Proof. intros (blk & Hb & Hs) (blk' & Hb' & Hs'). rewrite Hb in Hb'. injection Hb' as <-. rewrite Hs in Hs'. by injection Hs'. Qed.
  Lemma stmt_term b i s tm : stmt_at func b i s -> term_at func b i tm -> False.
  Proof.
    intros (blk & Hb & Hs) (blk' & Hb' & -> & _). rewrite Hb in Hb'. injection Hb' as <-. apply lookup_lt_Some in Hs. lia.
  Qed.

  Lemma does_fun k a k1 k2 : does k a k1 -> does k a k2 -> k1 = k2.
  Proof.
    intros H. revert k2. induction H; intros k2 H2; inversion H2; subst; auto.
  Qed.
  Lemma does_branch k v z k1 c t k2 : does k (ABranch v z) k1 -> does k (ATest c t) k2 -> False.
  Proof.
    intros H. remember (ABranch v z) as a eqn:Ea. revert k2. induction H; intros k2 H2; try discriminate Ea; inversion H2; subst; eauto.
  Qed.
  Lemma selects_some (cases : list (Z * BbName)) fb z : exists b, selects cases fb z b.
  Proof.
    induction cases as [|[j b] r (b0 & IH)].
    - exists fb. right. by split; [intros []|].
    - destruct (decide (j = z)) as [->|Hj].
      + exists b. left. exists [], r. split; [done|]. intros [].
      + exists b0. destruct IH as [(l1 & l2 & -> & Hn)|[Hn ->]].
        * left. exists ((j, b) :: l1), l2. split; [done|]. intros [?|?]; [done|]. by apply Hn.
        * right. split; [|done]. intros [?|?]; [done|]. by apply Hn.
  Qed.

  Ltac same := match goal with
    | A : term_at func ?b ?i _, B : term_at func ?b ?i _ |- _ => pose proof (term_term _ _ _ _ A B) as EQ; clear B
    | A : stmt_at func ?b ?i _, B : stmt_at func ?b ?i _ |- _ => pose proof (stmt_stmt _ _ _ _ A B) as EQ; clear B
    | A : stmt_at func ?b ?i _, B : term_at func ?b ?i _ |- _ => destruct (stmt_term _ _ _ _ A B)
    end.
  Lemma moves_all (R : nat -> BbName -> nat -> list Cmd -> Prop) b i k : (forall n, moves_as func (R n) b i k) ->
    moves_as func (fun b i k => forall n, R n b i k) b i k.
  Proof.
    intros H. pose proof (H 0%nat) as H0. revert H.
    induction H0 as [b i b' k Ht _ IH|b i s k k' Hs Hd Hr|b i op args ret nb k k' Ht Hd Hr|
      b i f conv args ret nb k k' Ht Hd Hr|b i f conv args ret nb ub k k' kh Ht Hd Hr Hd' Hr'|b i v ub k kh Ht Hd Hr|
      b i v cases fb k Ht Hd|b i c bt be k kt ke Ht Hd Hr Hd' Hr'|b i e k Ht Hd]; intros H.
    - apply (mo_goto _ _ b i b' k Ht). apply IH. intros n. specialize (H n).
      inversion H; subst; same; try discriminate EQ; [|destruct e; discriminate EQ]. by injection EQ as <-.
    - apply (mo_stmt _ _ b i s k k' Hs Hd). intros n. specialize (H n). inversion H; subst; same. subst.
      by rewrite (does_fun _ _ _ _ Hd H1).
    - apply (mo_intr _ _ b i op args ret nb k k' Ht Hd). intros n. specialize (H n).
      inversion H; subst; same; try discriminate EQ; [|destruct e; discriminate EQ]. injection EQ as <- <- <- <-.
      by rewrite (does_fun _ _ _ _ Hd H1).
    - apply (mo_call _ _ b i f conv args ret nb k k' Ht Hd). intros n. specialize (H n).
      inversion H; subst; same; try discriminate EQ; [|destruct e; discriminate EQ]. injection EQ as <- <- <- <- <-.
      by rewrite (does_fun _ _ _ _ Hd H1).
    - assert (Hn : forall n, R n nb 0%nat k' /\ R n ub 0%nat kh).
      { intros n. specialize (H n). inversion H; subst; same; try discriminate EQ; [|destruct e; discriminate EQ].
        injection EQ as <- <- <- <- <- <-. rewrite (does_fun _ _ _ _ Hd H1), (does_fun _ _ _ _ Hd' H3). done. }
      apply (mo_try _ _ b i f conv args ret nb ub k k' kh); try done; intros n; apply Hn.
    - apply (mo_throw _ _ b i v ub k kh Ht Hd). intros n. specialize (H n).
      inversion H; subst; same; try discriminate EQ; [|destruct e; discriminate EQ]. injection EQ as <- <-.
      by rewrite (does_fun _ _ _ _ Hd H1).
    - apply (mo_switch _ _ b i v cases fb k Ht). intros z b' Hz. destruct (Hd _ _ Hz) as (k' & Hk & _). exists k'. split; [done|].
      intros n. specialize (H n). inversion H; subst; same; try discriminate EQ; [| |destruct e; discriminate EQ].
      + injection EQ as <- <- <-. destruct (H1 _ _ Hz) as (k2 & Hk2 & Hr). by rewrite (does_fun _ _ _ _ Hk Hk2).
      + injection EQ as -> -> ->. destruct (does_branch _ _ _ _ _ _ _ Hk H1).
    - assert (Hn : forall n, R n bt 0%nat kt /\ R n be 0%nat ke).
      { intros n. specialize (H n). inversion H; subst; same; try discriminate EQ; [| |destruct e; discriminate EQ].
        - injection EQ as <- <- <-. destruct (selects_some [(1, bt)] be 1) as (b2 & Hb2). destruct (H1 1 _ Hb2) as (k2 & Hk2 & _).
          destruct (does_branch _ _ _ _ _ _ _ Hk2 Hd).
        - injection EQ as <- <- <-. rewrite (does_fun _ _ _ _ Hd H1), (does_fun _ _ _ _ Hd' H3). done. }
      apply (mo_test _ _ b i c bt be k kt ke); try done; intros n; apply Hn.
    - by apply (mo_end _ _ b i e k).
  Qed.

  Lemma fol_follows b i k : (forall n, fol n b i k) -> follows func b i k.
  Proof.
    intros H. exists (fun b i k => forall n, fol n b i k). split; [|exact H]. clear. intros b i k H.
    apply moves_all. intros n. exact (H (S n)).
  Qed.
End Emit.
