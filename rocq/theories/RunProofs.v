(** Running programs: proofs. *)
From Coq Require Import Ascii String.
From stdpp Require Import relations.
From Verif Require Import Run RunSpec SchedProofs IllProofs EndProofs SimRun TreeRefine.

Lemma after_done {A B} (c : Call A) (k : A -> Call B) b : after c k = Done b <-> exists a, c = Done a /\ k a = Done b.
Proof. destruct c; cbn; split; try done; try (by intros (? & ? & ?)); [by eauto|by intros (? & [= <-] & ?)]. Qed.

Section Runs.
  Context {P F M : Type} `{EqDecision P}.
  Variable T : Target.
  Variable MO : MemOps P F M.
  Notation Mach := (Machine P F M).

  Lemma loop_more r r' k o (m : Mach) c : (r <= r')%nat -> run_loop T MO r k o m = c -> c <> Running -> run_loop T MO r' k o m = c.
  Proof.
    revert r' k m. induction r as [|r IH]; intros r' k m Hle H Hc; cbn in H; [by subst|].
    destruct r' as [|r']; [lia|]. cbn. destruct (step T MO (or_step o k) m); try done. apply IH; [lia|done|done].
  Qed.
  Lemma run_more r r' o prog c : (r <= r')%nat -> run_with T MO r o prog = c -> c <> Running -> run_with T MO r' o prog = c.
  Proof. unfold run_with. intros Hle. destruct (machine_new _ _ _ _) as [[m ?]| | |]; try done. by apply loop_more. Qed.

  (** an oracle that makes the given choices *)
  Definition follows (o : Oracle P) cs0 (css : list (list (Choice P))) : Prop :=
    or_start o = cs0 /\ forall i cs, css !! i = Some cs -> or_step o i = cs.
  Lemma follows_some cs0 css : exists o, follows o cs0 css.
  Proof. exists (mkOracle cs0 (fun i => match css !! i with Some cs => cs | None => [] end)). split; [done|]. intros i cs E. cbn. by rewrite E. Qed.
  Lemma follows_app o cs0 css css' : follows o cs0 (css ++ css') -> follows o cs0 css.
  Proof. intros [H1 H2]. split; [done|]. intros i cs E. apply H2. by apply lookup_app_l_Some. Qed.

  Lemma reach_follow prog (m : Mach) : reachable T MO prog m -> exists cs0 css, forall o, follows o cs0 css ->
    forall r, run_with T MO (length css + r) o prog = run_loop T MO r (length css) o m.
  Proof.
    induction 1 as [m [cs0 [rest Hn]]|m m' _ IH [cs Hs]].
    - exists cs0, []. intros o [Ho _] r. unfold run_with. by rewrite Ho, Hn.
    - destruct IH as (cs0 & css & IH). exists cs0, (css ++ [cs]). intros o Ho r. pose proof (follows_app _ _ _ _ Ho) as Ho'.
      rewrite app_length. cbn [length]. replace (length css + 1 + r)%nat with (length css + S r)%nat by lia. rewrite (IH o Ho'). cbn.
      destruct Ho as [_ Ho]. rewrite (Ho (length css) cs) by (rewrite lookup_app_r, Nat.sub_diag by lia; done). rewrite Hs.
      by rewrite Nat.add_1_r.
  Qed.

  Lemma reach_oracle prog (m : Mach) cs : reachable T MO prog m -> exists o r k, run_with T MO (r + 1) o prog = run_loop T MO 1 k o m /\ or_step o k = cs.
  Proof.
    intros H. destruct (reach_follow prog m H) as (cs0 & css & Hf). destruct (follows_some cs0 (css ++ [cs])) as [o Ho].
    exists o, (length css), (length css). split.
    - apply Hf. by eapply follows_app.
    - destruct Ho as [_ Ho]. apply Ho. by rewrite lookup_app_r, Nat.sub_diag by lia.
  Qed.

  Lemma loop_ends prog r k o (m : Mach) t out err : reachable T MO prog m -> run_loop T MO r k o m = Done (t, out, err) ->
    exists m', reachable T MO prog m' /\ rtc (steps_to T MO) m m' /\ m_stdout m' = out /\ m_stderr m' = err /\ exists cs, step T MO cs m' = Stop t.
  Proof.
    revert k m. induction r as [|r IH]; intros k m Hr H; cbn in H; [done|].
    destruct (step T MO (or_step o k) m) as [m1|t'| |] eqn:E; try done.
    - destruct (IH (S k) m1) as (m' & ? & ? & ? & ? & ?); [|done|].
      + eapply reach_step; [done|]. by eexists.
      + exists m'. split; [done|]. split; [|done]. eapply rtc_l; [|done]. by eexists.
    - injection H as <- <- <-. exists m. repeat split; try done. by eexists.
  Qed.

  Lemma run_ends prog t out err : (exists r o, run_with T MO r o prog = Done (t, out, err)) <->
    can_end T MO prog out err t \/ (refused T MO prog t /\ out = EmptyString /\ err = EmptyString).
  Proof.
    split.
    - intros (r & o & H). unfold run_with in H. destruct (machine_new T MO prog (or_start o)) as [[m rest]|t'| |] eqn:E; try done.
      + left. destruct (loop_ends prog r 0 o m t out err) as (m' & ? & _ & ? & ? & cs & ?); [|done|].
        * constructor. by eexists _, _.
        * by exists m', cs.
      + right. injection H as <- <- <-. split; [|done]. by eexists.
    - intros [(m & cs & Hr & <- & <- & Hs)|([cs Hs] & -> & ->)].
      + destruct (reach_oracle prog m cs Hr) as (o & r & k & H & Ho). exists (r + 1)%nat, o. rewrite H. cbn. by rewrite Ho, Hs.
      + exists 0%nat, (mkOracle cs (fun _ => [])). unfold run_with. cbn. by rewrite Hs.
  Qed.

  Lemma run_crash prog : (exists r o, run_with T MO r o prog = Crashed) <-> can_crash T MO prog.
  Proof.
    split.
    - intros (r & o & H). unfold run_with in H. destruct (machine_new T MO prog (or_start o)) as [[m rest]|t'| |] eqn:E; try done; [|left; by eexists].
      right. assert (Hr : reachable T MO prog m) by (constructor; by eexists _, _). clear E. revert m Hr H. generalize 0%nat as k.
      induction r as [|r IH]; intros k m Hr H; cbn in H; [done|].
      destruct (step T MO (or_step o k) m) as [m1|t'| |] eqn:E; try done.
      + apply (IH (S k) m1); [|done]. eapply reach_step; [done|]. by eexists.
      + by eexists _, _.
    - intros [[cs Hs]|(m & cs & Hr & Hs)].
      + exists 0%nat, (mkOracle cs (fun _ => [])). unfold run_with. cbn. by rewrite Hs.
      + destruct (reach_oracle prog m cs Hr) as (o & r & k & H & Ho). exists (r + 1)%nat, o. rewrite H. cbn. by rewrite Ho, Hs.
  Qed.

  (** the states of a run that does not end *)
  Fixpoint state_at (o : Oracle P) (m : Mach) (k : nat) : Mach :=
    match k with
    | O => m
    | S k => match step T MO (or_step o k) (state_at o m k) with Ret m' => m' | _ => m end
    end.
  Lemma loop_at o (m : Mach) : (forall r, run_loop T MO r 0 o m = Running) -> forall k,
    step T MO (or_step o k) (state_at o m k) = Ret (state_at o m (S k)) /\ forall r, run_loop T MO r (S k) o (state_at o m (S k)) = Running.
  Proof.
    intros H. assert (Hone : forall k m1, (forall r, run_loop T MO r k o m1 = Running) ->
      exists m2, step T MO (or_step o k) m1 = Ret m2 /\ forall r, run_loop T MO r (S k) o m2 = Running).
    { intros k m1 H1. pose proof (H1 1%nat) as Hs. cbn in Hs. destruct (step T MO (or_step o k) m1) as [m2| | |] eqn:E; try done.
      exists m2. split; [done|]. intros r. specialize (H1 (S r)). cbn in H1. by rewrite E in H1. }
    assert (Hgo : forall k, (forall r, run_loop T MO r k o (state_at o m k) = Running) ->
      step T MO (or_step o k) (state_at o m k) = Ret (state_at o m (S k)) /\ forall r, run_loop T MO r (S k) o (state_at o m (S k)) = Running).
    { intros k Hk. destruct (Hone k _ Hk) as (m2 & Hs & H2). cbn [state_at]. rewrite Hs. done. }
    induction k as [|k [_ IH]]; [by apply Hgo|]. by apply Hgo.
  Qed.
  Lemma run_forever prog o : (forall r, run_with T MO r o prog = Running) <->
    exists tr rest, machine_new T MO prog (or_start o) = Ret (tr 0%nat, rest) /\ forall i, step T MO (or_step o i) (tr i) = Ret (tr (S i)).
  Proof.
    unfold run_with. split.
    - intros H. destruct (machine_new T MO prog (or_start o)) as [[m rest]| | |] eqn:E; try by specialize (H 0%nat).
      exists (state_at o m), rest. split; [done|]. intros i. by apply loop_at.
    - intros (tr & rest & -> & Ht) r.
      enough (forall k, run_loop T MO r k o (tr k) = Running) as H by apply H.
      induction r as [|r IH]; intros k; cbn; [done|]. by rewrite Ht, IH.
  Qed.

  (** ** What is printed *)

  Lemma intrinsic_dec (m : Mach) a : let op := InPrintStdout in at_intrinsic m a op \/ ~ at_intrinsic m a op.
  Proof.
    intros op. destruct (m_threads m !! a) as [t|] eqn:Et; [|right; by intros (? & ? & ? & f & b & (? & ? & ? & _) & _); simplify_eq].
    destruct (t_stack t) as [|f fs] eqn:Es; [right; intros (? & ? & ? & f & b & (? & ? & ? & ? & _) & _); simplify_eq; congruence|].
    destruct (map_get (fn_blocks (f_func f)) (f_block f)) as [b|] eqn:Eb;
      [|right; intros (? & ? & ? & f' & b & (t' & ? & ? & ? & ?) & _); assert (t' = t) by congruence; subst; assert (f' = f) by congruence; subst; congruence].
    assert (Hu : forall f' b', in_block m a f' b' -> f' = f /\ b' = b).
    { intros f' b' Hi. eapply in_block_fun; [|exact Hi]. by exists t, fs. }
    destruct (decide (f_stmt f = length (bb_statements b))) as [E|E].
    - destruct (bb_terminator b) as [| | |op' args ret nb| | | | |] eqn:Eq;
        try (right; intros (? & ? & ? & f' & b' & Hi & _ & Hq); destruct (Hu _ _ Hi) as [-> ->]; congruence).
      assert (op' = op \/ op' <> op) as [->|Ho] by (destruct op'; by auto).
      + left. exists args, ret, nb, f, b. split; [|done]. by exists t, fs.
      + right. intros (? & ? & ? & f' & b' & Hi & _ & Hq). destruct (Hu _ _ Hi) as [-> ->]. congruence.
    - right. intros (? & ? & ? & f' & b' & Hi & Hl & _). destruct (Hu _ _ Hi) as [-> ->]. done.
  Qed.

  Lemma prints_of (m m' : Mach) : rtc (steps_to T MO) m m' -> exists vs, prints T MO m m' vs.
  Proof.
    induction 1 as [m|m m1 m' Hs _ [vs IH]]; [eexists; constructor|].
    destruct (intrinsic_dec m (m_active m1)) as [(args & ret & nb & Hat)|Hn].
    - destruct Hs as [cs Hs]. destruct (print_step T MO cs m m1 _ args ret nb Hs Hat (or_introl eq_refl)) as (us & s & Hu & _).
      eexists. eapply prints_line; [by exists cs|done|done|done].
    - exists vs. by eapply prints_other.
  Qed.
  Lemma prints_steps (m m' : Mach) vs : prints T MO m m' vs -> rtc (steps_to T MO) m m'.
  Proof. induction 1; [done| |]; by eapply rtc_l. Qed.
  Lemma reach_from (prog : Program) (m m' : Mach) : reachable T MO prog m -> rtc (steps_to T MO) m m' -> reachable T MO prog m'.
  Proof. intros H Hs. induction Hs as [m|m m1 m' Hs _ IH]; [done|]. apply IH. by eapply reach_step. Qed.

  Definition text (ls : list string) : string := fold_right (fun l s => l ++ line_end ++ s)%string EmptyString ls.
  Lemma text_app a b : text (a ++ b) = (text a ++ text b)%string.
  Proof. induction a as [|l a IH]; [done|]. cbn [text fold_right app] in *. fold (text a) (text (a ++ b)). rewrite IH. by rewrite !string_app_assoc. Qed.
  Lemma lines_text (us : list (Value P * Ty)) s : lines us s -> exists ls, Forall2 shows (List.map fst us) ls /\ s = text ls.
  Proof.
    induction 1 as [|v ty us s r Hl _ (ls & IH & ->)]; [by exists []; split; [constructor|]|].
    destruct Hl as [i s Hd| |]; [exists (s :: ls)|exists ("true"%string :: ls)|exists ("false"%string :: ls)]; (split; [constructor; [by constructor|done]|]);
      cbn [text fold_right]; by rewrite string_app_assoc.
  Qed.

  Lemma operands_fun (m : Mach) a args ret us us' : operands T MO m a args ret us -> operands T MO m a args ret us' -> us' = us.
  Proof. intros (? & ? & ? & ? & H1 & H2) (? & ? & ? & ? & H3 & H4). rewrite H1 in H3. injection H3 as <- <- <-. rewrite H2 in H4. by injection H4. Qed.

  Lemma prints_text (m m' : Mach) vs : prints T MO m m' vs -> exists ls, Forall2 shows vs ls /\ m_stdout m' = (m_stdout m ++ text ls)%string.
  Proof.
    induction 1 as [m|m m1 m2 vs Hs Hn _ (ls & IH & E)|m m1 m2 args ret nb us vs Hs Hat Hu _ (ls & IH & E)].
    - exists []. split; [constructor|]. by rewrite string_app_empty.
    - exists ls. split; [done|]. destruct (step_out T MO _ _ Hs) as (s1 & s2 & E1 & _ & H1 & _).
      assert (s1 = EmptyString) as -> by (destruct s1; [done|]; exfalso; by apply Hn, H1).
      by rewrite E, E1, string_app_empty.
    - destruct Hs as [cs Hs]. destruct (print_step T MO cs m m1 _ args ret nb Hs Hat (or_introl eq_refl)) as (us' & s & Hu' & Hl & Ho & _).
      assert (us' = us) as -> by (by eapply operands_fun). apply lines_text in Hl as (ls' & Hl & ->).
      exists (ls' ++ ls). split; [by apply Forall2_app|]. rewrite E, Ho by done. by rewrite text_app, string_app_assoc.
  Qed.

  Lemma starts_empty prog (m : Mach) : starts T MO prog m -> m_stdout m = EmptyString.
  Proof.
    intros (cs & rest & H). apply new_ctl in H as (_ & func & ls & _ & E). change (c_stdout (ctl m) = EmptyString). by rewrite E.
  Qed.
End Runs.

(** ** Texts *)

(** a text without newlines, carriage returns and other than ASCII characters *)
Fixpoint plain_text (s : string) : Prop :=
  match s with
  | EmptyString => True
  | String c r => is_newline c = false /\ is_return c = false /\ (Ascii.N_of_ascii c < 128)%N /\ plain_text r
  end.

Lemma numeral_plain s acc n : numeral acc s = Some n -> plain_text s.
Proof.
  revert acc. induction s as [|c r IH]; intros acc H; [done|]. cbn [numeral] in H. unfold digit_value in H.
  destruct ((48 <=? N_of_ascii c) && (N_of_ascii c <=? 57))%N eqn:E; [|done]. apply andb_true_iff in E as [E1 E2].
  apply N.leb_le in E1, E2. cbn [plain_text]. unfold is_newline, is_return.
  split; [apply N.eqb_neq; lia|]. split; [apply N.eqb_neq; lia|]. split; [lia|]. by eapply IH.
Qed.
Lemma shows_plain {P} (v : Value P) s : shows v s -> plain_text s.
Proof.
  destruct 1 as [i s [[_ (H & _)]|(_ & r & -> & (H & _))]| |]; try (cbn; repeat split; lia).
  - by eapply numeral_plain.
  - cbn [plain_text]. split; [done|]. split; [done|]. split; [cbn; lia|]. by eapply numeral_plain.
Qed.

Lemma utf8_text ls : Forall plain_text ls -> from_utf8 (text ls) = Some (text ls).
Proof.
  induction 1 as [|l ls Hl _ IH]; [done|]. cbn [text fold_right]. fold (text ls).
  induction l as [|c l IHl]; cbn.
  - by rewrite IH.
  - destruct Hl as (_ & _ & Hc & Hl). apply N.ltb_lt in Hc. rewrite Hc. cbn in IHl. by rewrite IHl.
Qed.
Lemma split_line l s : plain_text l -> split_inclusive (l ++ line_end ++ s) = (l ++ line_end)%string :: split_inclusive s.
Proof.
  induction l as [|c l IH]; intros H; [done|]. destruct H as (Hn & _ & _ & H). change ((String c l ++ line_end ++ s)%string) with (String c (l ++ line_end ++ s)).
  cbn [split_inclusive]. by rewrite Hn, IH by done.
Qed.
Lemma strip_line l : Run.strip_suffix is_newline (l ++ line_end)%string = Some l.
Proof.
  induction l as [|c l IH]; [done|]. change ((String c l ++ line_end)%string) with (String c (l ++ line_end)).
  cbn [Run.strip_suffix]. rewrite IH. by destruct l.
Qed.
Lemma strip_return l : plain_text l -> Run.strip_suffix is_return l = None.
Proof.
  induction l as [|c l IH]; [done|]. intros (_ & Hr & _ & H). cbn. destruct l; [by rewrite Hr|]. by rewrite IH.
Qed.
Lemma lines_of_text ls : Forall plain_text ls -> str_lines (text ls) = ls.
Proof.
  unfold str_lines. induction 1 as [|l ls Hl _ IH]; [done|]. cbn [text fold_right]. fold (text ls).
  rewrite split_line by done. cbn [List.map]. rewrite strip_line, strip_return, IH by done. done.
Qed.
Lemma strings_of_text ls : Forall plain_text ls -> into_strings (text ls) = Ret ls.
Proof. intros H. unfold into_strings. rewrite utf8_text by done. cbn. by rewrite lines_of_text. Qed.
Lemma all_plain {P} (vs : list (Value P)) ls : Forall2 shows vs ls -> Forall plain_text ls.
Proof. induction 1; constructor; [by eapply shows_plain|done]. Qed.

(** numerals are unique *)
Lemma digit_bound c d : digit_value c = Some d -> (d < 10)%N.
Proof.
  unfold digit_value. destruct (_ && _) eqn:E; [|done]. intros [= <-]. apply andb_prop in E as [E1 E2].
  apply N.leb_le in E1, E2. lia.
Qed.
Lemma digit_inj c c' d : digit_value c = Some d -> digit_value c' = Some d -> c = c'.
Proof.
  unfold digit_value. destruct (_ && _) eqn:E; [|done]. intros [= <-]. destruct (_ && _) eqn:E' in |- *; [|done]. intros [= H].
  apply andb_prop in E as [E1 _], E' as [E2 _]. apply N.leb_le in E1, E2.
  rewrite <- (Ascii.ascii_N_embedding c), <- (Ascii.ascii_N_embedding c'). f_equal. lia.
Qed.
Lemma numeral_bound s : forall acc n, numeral acc s = Some n ->
  (acc * 10 ^ N.of_nat (String.length s) <= n < (acc + 1) * 10 ^ N.of_nat (String.length s))%N.
Proof.
  induction s as [|c s IH]; intros acc n; cbn [numeral String.length].
  - intros [= ->]. cbn. lia.
  - destruct (digit_value c) as [d|] eqn:Ed; [|done]. intros H. apply IH in H. apply digit_bound in Ed.
    rewrite Nat2N.inj_succ, N.pow_succ_r'. nia.
Qed.
Lemma numeral_same s : forall s' acc acc' n, String.length s = String.length s' -> numeral acc s = Some n -> numeral acc' s' = Some n ->
  acc = acc' /\ s = s'.
Proof.
  induction s as [|c s IH]; intros [|c' s'] acc acc' n Hl; try done; cbn [numeral].
  - intros [= ->] [= ->]. done.
  - destruct (digit_value c) as [d|] eqn:Ed; [|done]. destruct (digit_value c') as [d'|] eqn:Ed'; [|done]. intros H H'.
    injection Hl as Hl. destruct (IH _ _ _ _ Hl H H') as [E ->]. pose proof (digit_bound _ _ Ed). pose proof (digit_bound _ _ Ed').
    assert (d = d') as <- by lia. rewrite (digit_inj _ _ _ Ed Ed'). split; [lia|done].
Qed.
Lemma leading s n : decimal_nat n s -> (s = "0"%string /\ n = 0%N) \/
  exists k, String.length s = S k /\ (10 ^ N.of_nat k <= n < 10 ^ N.of_nat (S k))%N.
Proof.
  intros (H & Hne & Hz). destruct s as [|c s]; [done|]. destruct (Ascii.eqb_spec c "0"%char) as [->|Hc].
  - destruct Hz as [[= ->]|Hz]; [|by destruct (Hz s)]. left. injection H as <-. done.
  - right. exists (String.length s). split; [done|]. cbn [numeral] in H. destruct (digit_value c) as [d|] eqn:Ed; [|done].
    pose proof (digit_bound _ _ Ed). assert (d <> 0%N).
    { intros ->. apply Hc. by apply (digit_inj _ _ 0%N Ed). }
    apply numeral_bound in H. rewrite Nat2N.inj_succ, N.pow_succ_r'. nia.
Qed.
Lemma decimal_nat_unique n s s' : decimal_nat n s -> decimal_nat n s' -> s = s'.
Proof.
  intros H H'. destruct (leading s n H) as [(-> & ->)|(k & Hk & Hn)], (leading s' _ H') as [(-> & E')|(k' & Hk' & Hn')]; try done.
  - exfalso. pose proof (N.pow_nonzero 10 (N.of_nat k')). lia.
  - exfalso. subst. pose proof (N.pow_nonzero 10 (N.of_nat k)). lia.
  - assert (k = k') as <-.
    { destruct (Nat.lt_trichotomy k k') as [Hlt|[->|Hlt]]; [|done|]; exfalso.
      - pose proof (N.pow_le_mono_r 10 (N.of_nat (S k)) (N.of_nat k')). lia.
      - pose proof (N.pow_le_mono_r 10 (N.of_nat (S k')) (N.of_nat k)). lia. }
    destruct H as (H & _), H' as (H' & _). by destruct (numeral_same s s' 0 0 n) as [_ E]; [congruence|..].
Qed.
Lemma numeral_no_minus acc r n : numeral acc (String "-"%char r) <> Some n.
Proof. done. Qed.
Lemma decimal_unique i s s' : decimal_int i s -> decimal_int i s' -> s = s'.
Proof.
  intros [[H1 H2]|[H1 (r & -> & H2)]] [[H3 H4]|[H3 (r' & -> & H4)]]; try lia.
  - by eapply decimal_nat_unique.
  - f_equal. by eapply decimal_nat_unique.
Qed.
Lemma decimal_value i j s : decimal_int i s -> decimal_int j s -> i = j.
Proof.
  intros [[H1 (H2 & _)]|[H1 (r & -> & (H2 & _))]] [[H3 (H4 & _)]|[H3 (r' & E & (H4 & _))]]; try done.
  - assert (Z.to_N i = Z.to_N j) by congruence. lia.
  - subst. done.
  - injection E as <-. assert (Z.to_N (- i) = Z.to_N (- j)) by congruence. lia.
Qed.
Lemma shows_unique {P} (v : Value P) s s' : shows v s -> shows v s' -> s = s'.
Proof. intros []; inversion 1; subst; try done. by eapply decimal_unique. Qed.
Lemma shows_value {P} (v v' : Value P) s : shows v s -> shows v' s -> v = v'.
Proof.
  intros Hs Hs'. destruct Hs as [i s H| |]; inversion Hs' as [j s' H'| |]; subst; try done.
  - f_equal. by eapply decimal_value.
  - by destruct H as [[_ (H & _)]|[_ (r & H & _)]].
  - by destruct H as [[_ (H & _)]|[_ (r & H & _)]].
  - by destruct H' as [[_ (H & _)]|[_ (r & H & _)]].
  - by destruct H' as [[_ (H & _)]|[_ (r & H & _)]].
Qed.

Section Stdout.
  Context {P F M : Type} `{EqDecision P}.
  Variable T : Target.
  Variable MO : MemOps P F M.
  Notation Mach := (Machine P F M).

  Lemma reach_prints prog (m : Mach) : reachable T MO prog m -> exists m0 vs ls, starts T MO prog m0 /\ prints T MO m0 m vs /\
    Forall2 shows vs ls /\ into_strings (m_stdout m) = Ret ls.
  Proof.
    intros H. assert (exists m0, starts T MO prog m0 /\ rtc (steps_to T MO) m0 m) as (m0 & H0 & Hs).
    { induction H as [m H|m m' _ (m0 & H0 & Hm) Hs]; [by exists m|]. exists m0. split; [done|]. by eapply rtc_r. }
    destruct (prints_of T MO _ _ Hs) as [vs Hv]. destruct (prints_text T MO _ _ _ Hv) as (ls & Hl & E).
    exists m0, vs, ls. split; [done|]. split; [done|]. split; [done|]. rewrite E, (starts_empty T MO _ _ H0). cbn.
    apply strings_of_text. by eapply all_plain.
  Qed.

  Lemma reach_loop prog r k o (m : Mach) t out err : reachable T MO prog m -> run_loop T MO r k o m = Done (t, out, err) ->
    exists m', reachable T MO prog m' /\ m_stdout m' = out /\ exists cs, step T MO cs m' = Stop t.
  Proof. intros H1 H2. destruct (loop_ends T MO prog r k o m t out err H1 H2) as (m' & ? & _ & ? & _ & ?). by exists m'. Qed.

  Hypothesis Hub : ub_ops MO.

  Lemma stdout_sound prog r o ls : get_stdout T MO r o prog = Done (inl ls) ->
    exists m0 m cs vs, starts T MO prog m0 /\ prints T MO m0 m vs /\ step T MO cs m = Stop TMachineStop /\ Forall2 shows vs ls.
  Proof.
    unfold get_stdout, run_with. destruct (machine_new T MO prog (or_start o)) as [[m0 rest]|t'| |] eqn:E; try done.
    - intros H. cbn [after] in H. destruct (run_loop T MO r 0 o m0) as [|[[t out] err]| |] eqn:El; try done. cbn [after] in H.
      destruct t; try done. destruct (into_strings out) as [ls'| | |] eqn:Ei; try done. injection H as ->.
      destruct (reach_loop prog r 0 o m0 TMachineStop out err) as (m & Hr & <- & cs & Hs); [constructor; by eexists _, _|done|].
      destruct (reach_prints prog m Hr) as (m1 & vs & ls' & H1 & H2 & H3 & H4). assert (ls' = ls) as -> by congruence.
      by exists m1, m, cs, vs.
    - cbn. intros H. destruct t'; try done. exfalso. destruct (new_stop T MO Hub _ _ _ E) as [(_ & ? & ?)|(_ & ? & ?)]; done.
  Qed.
  Lemma stdout_complete prog (m0 m : Mach) cs vs : starts T MO prog m0 -> prints T MO m0 m vs -> step T MO cs m = Stop TMachineStop ->
    exists r o ls, get_stdout T MO r o prog = Done (inl ls) /\ Forall2 shows vs ls.
  Proof.
    intros H0 Hp Hs. assert (Hr : reachable T MO prog m) by (eapply reach_from; [by constructor|by eapply prints_steps]).
    destruct (reach_oracle T MO prog m cs Hr) as (o & r & k & H & Ho). destruct (prints_text T MO _ _ _ Hp) as (ls & Hl & E).
    exists (r + 1)%nat, o, ls. split; [|done]. unfold get_stdout. rewrite H. cbn. rewrite Ho, Hs. cbn.
    rewrite E, (starts_empty T MO _ _ H0). cbn. rewrite strings_of_text; [done|]. by eapply all_plain.
  Qed.
  Lemma stdout_other prog r o t : t <> TMachineStop ->
    get_stdout T MO r o prog = Done (inr t) <-> run_program T MO r o prog = Done t.
  Proof.
    intros Ht. unfold get_stdout, run_program. destruct (run_with T MO r o prog) as [|[[t' out] err]| |]; cbn; try done.
    destruct t'; cbn; try (split; intros [= <-]; done). destruct (into_strings out); split; try done; by intros [= <-].
  Qed.
  Lemma stdout_crash prog r o : get_stdout T MO r o prog = Crashed <-> run_with T MO r o prog = Crashed.
  Proof.
    unfold get_stdout. split; [|by intros ->]. unfold run_with.
    destruct (machine_new T MO prog (or_start o)) as [[m0 rest]|t'| |] eqn:E; try done; cbn [after]; [|by destruct t'].
    destruct (run_loop T MO r 0 o m0) as [|[[t out] err]| |] eqn:El; try done. cbn.
    destruct t; try done. destruct (reach_loop prog r 0 o m0 TMachineStop out err) as (m & Hr & <- & cs & Hs); [constructor; by eexists _, _|done|].
    destruct (reach_prints prog m Hr) as (m1 & vs & ls' & H1 & H2 & H3 & H4). by rewrite H4.
  Qed.
End Stdout.

(** ** Endings *)

Section Endings.
  Context {PE AE F : Type} `{EqDecision PE}.
  Variable T : Target.
  Variable MO : MemOps (nat * PE) F (BMem PE AE).
  Hypothesis Hlike : bm_like T MO.
  Hypothesis Hub : ub_ops MO.

  Lemma program_ends prog t : (exists r o, run_program T MO r o prog = Done t) <->
    (exists out err, can_end T MO prog out err t) \/ refused T MO prog t.
  Proof.
    split.
    - intros (r & o & H). unfold run_program in H. destruct (run_with T MO r o prog) as [|[[t' out] err]| |] eqn:E; try done. injection H as ->.
      assert (exists r o, run_with T MO r o prog = Done (t, out, err)) as He by eauto. apply run_ends in He as [He|(He & _)]; eauto.
    - intros [(out & err & He)|He].
      + assert (exists r o, run_with T MO r o prog = Done (t, out, err)) as (r & o & Hr) by (apply run_ends; eauto). exists r, o. unfold run_program. by rewrite Hr.
      + assert (exists r o, run_with T MO r o prog = Done (t, EmptyString, EmptyString)) as (r & o & Hr) by (apply run_ends; eauto). exists r, o. unfold run_program. by rewrite Hr.
  Qed.
  Lemma step_not_ill cs (m : Machine _ F (BMem PE AE)) msg : step T MO cs m <> Stop (TIllFormed msg).
  Proof.
    intros Hs. destruct (end_cases T MO Hlike Hub cs m _ Hs) as [(? & _)|[(? & ?)|(a & rest & _ & _ & [(_ & ?)|[(_ & _ & ?)|(_ & _ & ?)]])]]; done.
  Qed.
  Lemma ill_formed_iff prog msg : (exists r o, run_program T MO r o prog = Done (TIllFormed msg)) <->
    program_check_wf T prog = Stop (TIllFormed msg).
  Proof.
    rewrite program_ends. split.
    - intros [(out & err & m & cs & _ & _ & _ & Hs)|(cs & Hn)]; [by apply step_not_ill in Hs|].
      by destruct (new_stop T MO Hub _ _ _ Hn) as [(? & _)|(_ & ? & ?)].
    - intros Hw. right. exists []. unfold machine_new. by rewrite Hw.
  Qed.
  Lemma stop_iff prog : (exists r o, run_program T MO r o prog = Done TMachineStop) <->
    exists out err, can_end T MO prog out err TMachineStop.
  Proof.
    rewrite program_ends. split; [|by left]. intros [H'|(cs & Hn)]; [done|].
    by destruct (new_stop T MO Hub _ _ _ Hn) as [(_ & ? & ?)|(_ & ? & ?)].
  Qed.
End Endings.

(** ** The command line *)

Lemma strip_prefix_some p s r : Run.strip_prefix p s = Some r <-> s = (p ++ r)%string.
Proof.
  revert s. induction p as [|c p IH]; intros s; [cbn; split; [by intros [= ->]|by intros ->]|].
  destruct s as [|d s]; [done|]. cbn [Run.strip_prefix]. destruct (Ascii.eqb_spec c d) as [->|Hc].
  - rewrite IH. cbn. split; [by intros ->|by intros [= ->]].
  - split; [done|]. intros E. exfalso. apply Hc. cbn in E. congruence.
Qed.
Lemma consume_cases cf a : (~ for_machine a /\ consume_arg cf a = Returns (false, cf)) \/
  (a = tree_borrows_arg /\ consume_arg cf a = Returns (true, mkConfig true)) \/
  (for_machine a /\ a <> tree_borrows_arg /\ exists msg, consume_arg cf a = Fatal msg).
Proof.
  unfold consume_arg. destruct (Run.strip_prefix "--minirust-" a) as [r|] eqn:E.
  - apply strip_prefix_some in E as ->. destruct (String.eqb_spec r "tree-borrows") as [->|Hr]; [right; left; done|].
    right; right. split; [by exists r|]. split; [|by eexists]. unfold tree_borrows_arg. cbn. congruence.
  - left. split; [|done]. intros (r & Hr). apply strip_prefix_some in Hr. congruence.
Qed.
Lemma consume_spec args : forall cf,
  match consume_args cf args with
  | Returns (cf', rest) =>
      Forall (fun a => for_machine a -> a = tree_borrows_arg) args /\
      rest = List.filter (fun a => negb (a =? tree_borrows_arg)%string) args /\
      (cf_tree_borrows cf' = true <-> cf_tree_borrows cf = true \/ tree_borrows_arg ∈ args)
  | Fatal msg => Exists (fun a => for_machine a /\ a <> tree_borrows_arg) args
  end.
Proof.
  induction args as [|a args IH]; intros cf; cbn [consume_args].
  - split; [done|]. split; [done|]. rewrite elem_of_nil. tauto.
  - destruct (consume_cases cf a) as [(Hn & ->)|[(-> & ->)|(Hf & Hn & msg & ->)]].
    + specialize (IH cf). destruct (consume_args cf args) as [[cf' rest]|msg]; [|by right]. destruct IH as (H1 & H2 & H3).
      assert (a <> tree_borrows_arg) as Ha by (intros ->; apply Hn; by exists "tree-borrows"%string).
      split; [constructor; [by intros ?|done]|]. split; [cbn; destruct (String.eqb_spec a tree_borrows_arg); [done|]; cbn; by rewrite H2|].
      rewrite H3, elem_of_cons. split; [tauto|]. intros [?|[?|?]]; [tauto|by subst|tauto].
    + specialize (IH (mkConfig true)). destruct (consume_args (mkConfig true) args) as [[cf' rest]|msg]; [|by right].
      destruct IH as (H1 & H2 & H3). split; [by constructor|]. split; [done|]. rewrite H3. cbn [cf_tree_borrows]. rewrite elem_of_cons. tauto.
    + left. done.
Qed.

Section Tree.
  Variable T : Target.
  (** the same choices, for the machine without Tree Borrows *)
  Definition erase_oracle (o : Oracle (nat * list nat)) : Oracle (nat * unit) :=
    mkOracle (List.map (choice_sim er_prov) (or_start o)) (fun i => List.map (choice_sim er_prov) (or_step o i)).
  Lemma tree_loop r o t out err : proper t -> forall k m n, mach_sim er_prov (bmem_sim er_prov) (fun p => snd p = []) m n ->
    run_loop T (TreeOps T) r k o m = Done (t, out, err) -> run_loop T (BasicOps T) r k (erase_oracle o) n = Done (t, out, err).
  Proof.
    intros Hp. induction r as [|r IH]; intros k m n Hmn; cbn; [done|]. destruct (step T (TreeOps T) (or_step o k) m) as [m'|t'| |] eqn:E; try done.
    - destruct (step_sim T _ _ _ _ _ (tree_basic T) m n (or_step o k) Hmn m' E) as (n' & -> & Hn'). by apply IH.
    - intros [= -> <- <-]. rewrite (stop_sim T _ _ _ _ _ (tree_basic T) m n (or_step o k) t (tree_ub T) Hmn E Hp).
      by rewrite (sim_stdout _ _ _ _ _ Hmn), (sim_stderr _ _ _ _ _ Hmn).
  Qed.
  Lemma tree_run r o prog t out err : proper t -> run_with T (TreeOps T) r o prog = Done (t, out, err) ->
    run_with T (BasicOps T) r (erase_oracle o) prog = Done (t, out, err).
  Proof.
    intros Hp. unfold run_with. destruct (machine_new T (TreeOps T) prog (or_start o)) as [[m rest]|t'| |] eqn:E; try done.
    - destruct (new_sim T _ _ _ _ _ (tree_basic T) prog (or_start o) _ E) as ([n r'] & Hn & Hm & _). cbn [erase_oracle or_start]. rewrite Hn.
      by apply tree_loop.
    - intros [= -> <- <-]. destruct (new_stop T _ (tree_ub T) _ _ _ E) as [(Hc & _)|(_ & msg & ->)]; [|exfalso; by eapply Hp].
      unfold machine_new. by rewrite Hc.
  Qed.
End Tree.

(** what the command reports for an ending *)
Definition report (t : TermInfo) : Command unit := match t with TMachineStop => Returns tt | _ => Fatal (message t) end.
Lemma print_errors T cf r ob ot prog : run_prog_and_print_errors T cf r ob ot prog = after (run_prog T cf r ob ot prog) (fun t => Done (report t)).
Proof. unfold run_prog_and_print_errors. destruct (run_prog T cf r ob ot prog) as [|t| |]; try done. by destruct t. Qed.
Lemma report_inj t t' : report t = report t' -> t = t'.
Proof. destruct t, t'; cbn; intros E; try done; injection E; by intros ->. Qed.
Lemma report_unknown a t : report t <> Fatal ("Unknown argument --minirust-" ++ a ++ "!").
Proof. by destruct t. Qed.
Lemma report_files t : report t <> Fatal "Can not load JSON from more than one file!".
Proof. by destruct t. Qed.
Lemma source_iff l src : source l src <-> program_source l = Returns src.
Proof.
  split; [by intros []|]. destruct l as [|f [|? ?]]; cbn; [intros [= <-]|intros [= <-]|done]; constructor.
Qed.
Lemma consume_fatal args : forall cf msg, consume_args cf args = Fatal msg -> exists a, msg = ("Unknown argument --minirust-" ++ a ++ "!")%string.
Proof.
  induction args as [|a args IH]; intros cf msg; cbn [consume_args]; [done|]. unfold consume_arg.
  destruct (Run.strip_prefix "--minirust-" a) as [r|]; [destruct (r =? "tree-borrows")%string|].
  - destruct (consume_args (mkConfig true) args) as [[? ?]|msg'] eqn:E; [done|]. intros [= <-]. by eapply IH.
  - intros [= <-]. by exists r.
  - destruct (consume_args cf args) as [[? ?]|msg'] eqn:E; [done|]. intros [= <-]. by eapply IH.
Qed.
Lemma minirun_iff T load args t :
  (exists r ob ot, minirun T load args r ob ot = Done (report t)) <-> exists prog, asks load args prog /\ possible T args prog t.
Proof.
  pose proof (consume_spec args config_default) as Hc. unfold minirun. destruct (consume_args config_default args) as [[cf rest]|msg] eqn:Ec.
  - destruct Hc as (H1 & -> & H3). assert (Hcf : cf_tree_borrows cf = true <-> tree_borrows_arg ∈ args) by (rewrite H3; cbn; split; [by intros [?|?]|by right]).
    clear H3. set (rest := List.filter _ args). split.
    + intros (r & ob & ot & E). destruct (program_source rest) as [src|msg] eqn:Es.
      2: { exfalso. destruct rest as [|? [|? ?]]; try done. injection Es as <-. injection E as E. by eapply report_files. }
      destruct (load src) as [prog|] eqn:El; [|done]. exists prog. split; [split; [done|]; exists src; split; [by apply source_iff|done]|].
      rewrite print_errors in E. apply after_done in E as (t' & E & Ht). assert (t' = t) as -> by (apply report_inj; congruence).
      unfold run_prog in E. destruct (cf_tree_borrows cf) eqn:Eb.
      * left. split; [by apply Hcf|]. apply (program_ends T (TreeOps T)). by exists r, ot.
      * right. split; [intros Hin; by apply Hcf in Hin|]. apply (program_ends T (BasicOps T)). by exists r, ob.
    + intros (prog & (_ & src & Hs & Hl) & Hp). apply source_iff in Hs. fold rest in Hs. rewrite Hs, Hl.
      destruct Hp as [(Hin & Hp)|(Hin & Hp)].
      * apply (program_ends T (TreeOps T)) in Hp as (r & o & Hp). exists r, (mkOracle [] (fun _ => [])), o. rewrite print_errors. unfold run_prog.
        apply Hcf in Hin as ->. by rewrite Hp.
      * apply (program_ends T (BasicOps T)) in Hp as (r & o & Hp). exists r, o, (mkOracle [] (fun _ => [])). rewrite print_errors. unfold run_prog.
        destruct (cf_tree_borrows cf); [by destruct Hin; apply Hcf|]. by rewrite Hp.
  - split.
    + intros (_ & _ & _ & E). injection E as E. destruct (consume_fatal _ _ _ Ec) as [a ->]. by destruct (report_unknown a t).
    + intros (prog & (Hf & _) & _). exfalso. apply Exists_exists in Hc as (a & Ha & Hm & Hn). apply Hn. rewrite Forall_forall in Hf. by apply Hf.
Qed.

(** ** Assertions *)

Section Asserts.
  Context {P F M : Type} `{EqDecision P}.
  Variable T : Target.
  Variable MO : MemOps P F M.
  Lemma assert_eq_done t t' : assert_eq t t' = Done tt <-> t = t'.
  Proof. unfold assert_eq. by case_bool_decide. Qed.
  Lemma assert_run r o prog t' : after (run_program T MO r o prog) (fun t => assert_eq t t') = Done tt <-> run_program T MO r o prog = Done t'.
  Proof.
    rewrite after_done. split; [|intros E; exists t'; split; [done|by apply assert_eq_done]].
    intros (t & E & Ht). apply assert_eq_done in Ht. by subst.
  Qed.
  Lemma always_iff r os prog : assert_stop_always T MO r os prog = Done tt <-> Forall (fun o => run_program T MO r o prog = Done TMachineStop) os.
  Proof.
    induction os as [|o os IH]; cbn; [done|]. rewrite after_done, Forall_cons, <- IH. unfold assert_stop.
    rewrite <- (assert_run r o prog TMachineStop). split; [by intros ([] & ? & ?)|intros (? & ?); by exists tt].
  Qed.
  Lemma eventually_iff r os prog msg : assert_ub_eventually T MO r os prog msg = Done tt <->
    exists os1 o os2, os = os1 ++ o :: os2 /\ Forall (fun o => run_program T MO r o prog = Done TMachineStop) os1 /\
      run_program T MO r o prog = Done (TUb msg).
  Proof.
    induction os as [|o os IH]; cbn [assert_ub_eventually].
    - split; [done|]. by intros ([|] & ? & ? & ? & _).
    - rewrite after_done. split.
      + intros (t & Ho & Ht). destruct t as [s| | | | |]; try done.
        * destruct (String.eqb_spec s msg) as [->|]; [|done]. by exists [], o, os.
        * apply IH in Ht as (os1 & o1 & os2 & -> & H1 & H2). exists (o :: os1), o1, os2. split; [done|]. split; [by constructor|done].
      + intros ([|o1 os1] & o2 & os2 & [= -> ->] & H1 & H2).
        * eexists. split; [exact H2|]. cbn. by rewrite String.eqb_refl.
        * inversion H1; subst. exists TMachineStop. split; [done|]. apply IH. by exists os1, o2, os2.
  Qed.
  Lemma race_iff r os prog b : has_data_race T MO r os prog = Done b <->
    if b then assert_ub_eventually T MO r os prog "Data race" = Done tt
    else Forall (fun o => run_program T MO r o prog = Done TMachineStop) os.
  Proof.
    induction os as [|o os IH]; cbn [has_data_race assert_ub_eventually].
    - destruct b; split; done.
    - destruct b.
      + rewrite !after_done. split.
        * intros (t & Ho & Ht). exists t. split; [done|]. destruct t as [s| | | | |]; try done; [by destruct (s =? "Data race")%string|by apply IH].
        * intros (t & Ho & Ht). exists t. split; [done|]. destruct t as [s| | | | |]; try done; [by destruct (s =? "Data race")%string|by apply IH].
      + rewrite after_done, Forall_cons, <- IH. split.
        * intros (t & Ho & Ht). destruct t as [s| | | | |]; try done. by destruct (s =? "Data race")%string.
        * intros (Ho & Ht). by exists TMachineStop.
  Qed.
End Asserts.
