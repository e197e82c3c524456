(** Consequences of the safety invariant for whole programs (C47, C48). *)
From Verif Require Export SafeStart ProgressSpec.
From Coq Require Import ZifyBool ZifyN ZifyNat.
Local Open Scope Z_scope.

(** ** Fewer crashes, fewer causes *)

Section Mono.
  Context {PE AE F : Type} `{EqDecision (nat * PE)}.
  Variable T : Target.
  Variable MO : MemOps (nat * PE) F (BMem PE AE).
  Notation P := (nat * PE)%type.
  Notation Crash := (BMem PE AE -> Pointer P -> PtrType -> (ThinPtr P -> Outcome VTable) -> Prop).
  Variables c1 c2 : Crash.
  Hypothesis Hc : forall m p pt lk, c1 m p pt lk -> c2 m p pt lk.
  Notation Mach := (Machine P F (BMem PE AE)).

  Lemma expr_cause_mono (m : Mach) e : expr_cause T MO c1 m e -> expr_cause T MO c2 m e.
  Proof.
    intros (m1 & e1 & He & [Hb|(p & pt & pl & t & m2 & H1 & H2 & H3)]); exists m1, e1; (split; [done|]); [by left|].
    right. exists p, pt, pl, t, m2. eauto.
  Qed.
  Lemma panic_cause_mono (m : Mach) a : panic_cause T MO c1 m a -> panic_cause T MO c2 m a.
  Proof.
    intros [Hen [(s & Hs & Hx)|(tm & Htm & Hx)]]; (split; [done|]).
    - left. exists s. split; [done|]. destruct Hx; [eapply sc_expr; [done|by apply expr_cause_mono]|eapply sc_validate; eauto].
    - right. exists tm. split; [done|]. destruct Hx.
      + eapply tc_expr; [done|by apply expr_cause_mono].
      + by eapply tc_return.
      + by eapply tc_number.
      + by eapply tc_fetch.
  Qed.
End Mono.

Lemma sized_size {P} (l : LayoutStrategy) s a (meta : option (PtrMeta P)) lk s' a' : l = LSized s a ->
  compute_size_and_align l meta lk = Ret (s', a') -> s' = s /\ a' = a.
Proof. intros ->. cbn. destruct meta; [done|]. by intros [= -> ->]. Qed.
Lemma small_fits T it n : ty_check_wf T any_trait (TInt it) = Ret tt -> (n <= 127)%nat -> can_represent it (Z.of_nat n) = true.
Proof.
  intros Hw Hn. apply wf_int, pow2_nonzero in Hw. unfold can_represent, in_bounds, size_bits. destruct (N.eqb_spec (it_size it) 0); [done|].
  assert (Hp : 2 ^ 7 <= 2 ^ (8 * Z.of_N (it_size it) - 1)) by (apply Z.pow_le_mono_r; lia).
  assert (Hp' : 2 ^ 7 <= 2 ^ (8 * Z.of_N (it_size it))) by (apply Z.pow_le_mono_r; lia).
  change (2 ^ 7) with 128 in *. destruct (it_signed it); apply andb_true_iff; split; lia.
Qed.

(** ** Evaluation *)

Lemma crash_model T {PE AE F} (MO : MemOps (nat * PE) F (BMem PE AE)) crash : retag_crash T MO crash ->
  exists SM : safe_mem T MO, forall m p pt lk, sm_bad SM m p pt lk -> crash m p pt lk.
Proof.
  destruct 1.
  - by exists (basic_safe T).
  - exists (tree_safe T). intros m p pt lk (pi & al & H1 & H2 & H3). unfold not_before in H3.
    destruct (tp_prov (p_thin p)) as [[id path]|] eqn:Ep; [|by destruct H3].
    destruct (m !! id) as [a|] eqn:Ea.
    + destruct (Z.le_gt_cases (al_addr a) (tp_addr (p_thin p))) as [Hle|Hlt].
      * destruct H3. by intros a' [= <-].
      * exists pi, al, id, path, a. split_and!; try done; lia.
    + destruct H3. by intros a' [=].
Qed.
Lemma crash_memory T {PE AE F} (MO : MemOps (nat * PE) F (BMem PE AE)) crash : retag_crash T MO crash -> memory_model T MO.
Proof. destruct 1; constructor. Qed.

Section Prog.
  Context {PE AE F : Type} `{EqDecision (nat * PE)}.
  Variable T : Target.
  Variable MO : MemOps (nat * PE) F (BMem PE AE).
  Notation P := (nat * PE)%type.
  Notation Mach := (Machine P F (BMem PE AE)).
  Variable crash : BMem PE AE -> Pointer P -> PtrType -> (ThinPtr P -> Outcome VTable) -> Prop.
  Hypothesis Hcrash : retag_crash T MO crash.
  Hypothesis Tok : target_ok T.
  Hypothesis Std : target_std T.
  Variable prog : Program.
  Hypothesis Hstrict : strict_program T prog.

  Lemma reach_accepted (m : Mach) : reachable T MO prog m -> program_check_wf T prog = Ret tt.
  Proof.
    intros Hr. destruct (crash_model T MO crash Hcrash) as [SM _].
    pose proof (reach_minv T MO (sm_like SM) Tok prog m Hr) as Hi. apply Hi.
  Qed.

  Lemma new_no_panic cs : program_check_wf T prog = Ret tt -> machine_new T MO prog cs <> Panic.
  Proof.
    intros Hwf Hp. destruct (crash_model T MO crash Hcrash) as [SM _].
    pose proof (machine_new_safe T MO SM Tok Std prog Hwf (st_unique _ _ Hstrict) cs) as Hs. by rewrite Hp in Hs.
  Qed.

  Lemma step_panic (m : Mach) cs : reachable T MO prog m -> step T MO cs m = Panic -> exists a, panic_cause T MO crash m a.
  Proof.
    intros Hr Hp. destruct (crash_model T MO crash Hcrash) as [SM Hsub]. pose proof (reach_accepted m Hr) as Hwf.
    pose proof (reach_sinv T MO SM Tok Std prog Hwf (st_unique _ _ Hstrict) Hstrict m Hr) as Hi.
    pose proof (step_safe T MO SM Tok Std prog (st_methods _ _ Hstrict) Hstrict m cs Hr Hi) as Hs. rewrite Hp in Hs.
    destruct Hs as [a Ha]. exists a. by eapply panic_cause_mono.
  Qed.

  (** the frame on top of the stack of a thread that can run *)
  Lemma reach_top (m : Mach) a f : reachable T MO prog m -> enabled m a -> frame_of m a 0 f ->
    exists n b, map_get (pr_functions prog) n = Some (f_func f) /\ fn_ok T prog (f_func f) /\
      map_get (fn_blocks (f_func f)) (f_block f) = Some b.
  Proof.
    intros Hr Hen (t & Ht & Hk). destruct (crash_model T MO crash Hcrash) as [SM _].
    unfold enabled, state_of in Hen. rewrite Ht in Hen.
    destruct (frame_top T MO SM Tok prog Hstrict m a t Hr Ht ltac:(congruence)) as (f' & r & n & b & Hs & Htop & Hn & Hb & _).
    rewrite Hs in Hk. injection Hk as <-. exists n, b. split_and!; try done. apply Htop.
  Qed.

  Lemma value_sound (m : Mach) a f e ty : reachable T MO prog m -> enabled m a -> frame_of m a 0 f ->
    value_check_wf T prog (fn_locals (f_func f)) e = Ret ty -> gap_free T prog (fn_locals (f_func f)) (inl e) ->
    (eval_value T MO e (starting m a) = Panic -> expr_cause T MO crash (starting m a) (inl e)) /\
    (forall v t m', eval_value T MO e (starting m a) = Ret (v, t, m') ->
       t = ty /\ (expr_cause T MO crash (starting m a) (inl e) \/ valid_value T (chk_env MO m') ty v)).
  Proof.
    intros Hr Hen Hf Hw Hg. destruct (reach_top m a f Hr Hen Hf) as (n & b & _ & Hfok & _).
    destruct (crash_model T MO crash Hcrash) as [SM Hsub]. pose proof (reach_accepted m Hr) as Hwf.
    pose proof (reach_sinv T MO SM Tok Std prog Hwf (st_unique _ _ Hstrict) Hstrict m Hr) as Hi.
    pose proof (start_safe T MO SM prog m a Hi) as Hi'.
    assert (Hrun : running (f_func f) (starting m a)).
    { destruct Hf as (t & Ht & Hk). exists f. split; [|done]. destruct (t_stack t) as [|g r] eqn:Es; [done|]. injection Hk as ->. exact (cur_frame_eq (starting m a) t f r Ht Es). }
    destruct (eval_value_step T MO SM Tok Std prog (st_methods _ _ Hstrict) (f_func f) (fo_locals _ _ _ Hfok) (starting m a) e ty Hi' Hrun Hw Hg) as [_ He].
    split.
    - intros Hp. rewrite Hp in He. by eapply expr_cause_mono.
    - intros v t m' Hv. rewrite Hv in He. cbn [wp fst snd] in He. destruct He as (Et & Hgood & _). split; [done|].
      apply good_vok in Hgood as [Hc|[Hc _]]; [left; by eapply expr_cause_mono|right]. by apply check_value_iff.
  Qed.

  Lemma place_sound (m : Mach) a f p ty : reachable T MO prog m -> enabled m a -> frame_of m a 0 f ->
    place_check_wf T prog (fn_locals (f_func f)) p = Ret ty -> gap_free T prog (fn_locals (f_func f)) (inr p) ->
    (eval_place T MO p (starting m a) = Panic -> expr_cause T MO crash (starting m a) (inr p)) /\
    (forall pl t m', eval_place T MO p (starting m a) = Ret (pl, t, m') ->
       t = ty /\ ty_check_wf T any_trait ty = Ret tt /\ address_ok T (tp_addr (p_thin (pl_ptr pl))) /\
       valid_meta T (chk_env MO m') (ty_meta_kind ty) (p_meta (pl_ptr pl))).
  Proof.
    intros Hr Hen Hf Hw Hg. destruct (reach_top m a f Hr Hen Hf) as (n & b & _ & Hfok & _).
    destruct (crash_model T MO crash Hcrash) as [SM Hsub]. pose proof (reach_accepted m Hr) as Hwf.
    pose proof (reach_sinv T MO SM Tok Std prog Hwf (st_unique _ _ Hstrict) Hstrict m Hr) as Hi.
    pose proof (start_safe T MO SM prog m a Hi) as Hi'.
    assert (Hrun : running (f_func f) (starting m a)).
    { destruct Hf as (t & Ht & Hk). exists f. split; [|done]. destruct (t_stack t) as [|g r] eqn:Es; [done|]. injection Hk as ->. exact (cur_frame_eq (starting m a) t f r Ht Es). }
    destruct (eval_place_step T MO SM Tok Std prog (st_methods _ _ Hstrict) (f_func f) (fo_locals _ _ _ Hfok) (starting m a) p ty Hi' Hrun Hw Hg) as [Hty He].
    split.
    - intros Hp. rewrite Hp in He. by eapply expr_cause_mono.
    - intros v t m' Hv. rewrite Hv in He. cbn [wp fst snd] in He. destruct He as (Et & (Hp & _ & Hmeta) & _). split; [done|]. split; [done|]. split; [apply Hp|done].
  Qed.

  (** ** Programs without causes *)

  Lemma evaluates_occurs (m1 : Mach) e1 m2 e2 : evaluates T MO m1 e1 m2 e2 -> occurs e1 e2.
  Proof.
    induction 1 as [m e|m e m1' e1' m2' e2' Hr He IH]; [constructor|]. econstructor; [|exact IH].
    destruct Hr; constructor. rewrite in_app_iff. right. by left.
  Qed.
  Lemma leaf_in ty (v : Value P) pt q : leaf ty v pt q -> ptr_in ty pt.
  Proof. induction 1; by econstructor. Qed.
  Lemma not_too_big (m : Mach) e : size_known T e -> ~ too_big T MO m e.
  Proof.
    intros Hk Hb. inversion Hb as [ty e0 v t m1 meta l s H1 H2 H3 H4 H5|ty e0 v t m1 meta l al H1 H2 H3 H4 H5]; subst; cbn in Hk; destruct Hk as (s0 & a0 & Hl & Hle);
      rewrite H3 in Hl; injection Hl as Hl.
    - unfold compute_size in H4. apply obind_ret in H4 as ([s1 a1] & H4 & [= ->]). apply (sized_size _ _ _ _ _ _ _ Hl) in H4 as [-> ->]. lia.
    - unfold compute_align in H4. apply obind_ret in H4 as ([s1 a1] & H4 & [= ->]). apply (sized_size _ _ _ _ _ _ _ Hl) in H4 as [-> ->]. lia.
  Qed.

  Hypothesis Hsimple : simple_program T prog.
  Hypothesis Hrefs : (forall m p pt lk, ~ crash m p pt lk) \/ no_empty_refs T prog.
  Lemma crash_small m p pt lk : crash m p pt lk -> big_pointee pt -> False.
  Proof.
    destruct Hcrash as [|]; [done|]. intros (pi & al & id & path & a & H1 & H2 & _) Hb. destruct (Hb pi H1) as (s & a0 & Hl & Hs).
    apply (sized_size _ _ _ _ _ _ _ Hl) in H2 as [<- _]. done.
  Qed.
  Lemma expr_no_cause (m : Mach) n func e b blk : map_get (pr_functions prog) n = Some func -> map_get (fn_blocks func) b = Some blk ->
    ((exists s, In s (bb_statements blk) /\ stmt_expr s e) \/ term_expr (bb_terminator blk) e) -> ~ expr_cause T MO crash m e.
  Proof.
    intros Hn Hb He (m1 & e1 & Hev & Hx). apply evaluates_occurs in Hev.
    assert (Hof : expr_of func e1) by (exists b, blk, e; by split_and!).
    destruct Hx as [Hx|(p & pt & pl & t & m2 & -> & H2 & H3)].
    - eapply not_too_big; [|exact Hx]. by eapply (sp_size _ _ Hsimple).
    - destruct Hrefs as [Hno|Hne]; [by eapply Hno|]. eapply crash_small; [exact H3|]. by eapply (ne_addr _ _ Hne).
  Qed.
  Lemma stmt_runs_expr (m : Mach) s m1 e : stmt_runs T MO m s m1 e -> stmt_expr s e.
  Proof. destruct 1; constructor. Qed.
  Lemma term_runs_expr (m : Mach) tm m1 e : term_runs T MO m tm m1 e -> term_expr tm e.
  Proof. destruct 1; constructor; rewrite in_app_iff; right; by left. Qed.
  Lemma in_block_top (m : Mach) a f b : in_block m a f b -> frame_of m a 0 f /\ map_get (fn_blocks (f_func f)) (f_block f) = Some b.
  Proof. intros (t & r & Ht & Hs & Hb). split; [|done]. exists t. split; [done|]. by rewrite Hs. Qed.

  Lemma simple_no_cause (m : Mach) a : reachable T MO prog m -> (length (m_threads m) <= 127)%nat -> (length (m_locks m) <= 127)%nat ->
    ~ panic_cause T MO crash m a.
  Proof.
    intros Hr Hth Hlk [Hen [(s & (f & b & Hib & Hs) & Hx)|(tm & (f & b & Hib & Hst & Htm) & Hx)]];
      apply in_block_top in Hib as [Hf Hb]; destruct (reach_top m a f Hr Hen Hf) as (n & b' & Hn & Hfok & _).
    - assert (Hin : In s (bb_statements b)) by (by eapply elem_of_list_In, elem_of_list_lookup_2).
      destruct Hx as [s m1 e Hrun Hc|p fe pl ty m1 v m2 pt q Hp Hl Hlf Hc].
      + eapply expr_no_cause; [exact Hn|exact Hb| |exact Hc]. left. exists s. split; [done|]. by eapply stmt_runs_expr.
      + destruct Hrefs as [Hno|Hne]; [by eapply Hno|]. eapply crash_small; [exact Hc|].
        pose proof (fo_stmt _ _ _ Hfok _ _ _ Hb Hin) as Hw. cbn in Hw. apply obind_ret in Hw as (ty' & Hw & _).
        eapply (ne_validate _ _ Hne); [exact Hn|exact Hb|exact Hin|exact Hw|].
        assert (Hg : gap_free T prog (fn_locals (f_func f)) (inr p)).
        { eapply (st_stmt _ _ Hstrict); [exact Hn|exact Hb|exact Hin|constructor]. }
        destruct (place_sound m a f p ty' Hr Hen Hf Hw Hg) as [_ Hps]. destruct (Hps _ _ _ Hp) as [-> _]. by eapply leaf_in.
    - destruct Hx as [tm m1 e Hrun Hc|f' ty p al v m1 pt q pi s al' id pe Hcf Hty Hp Hal Hl Hlf Hpi Hs Hs0 Hid Hown
        |op args ret nb pl it m1 k Hp Hk Hrep|op args ret nb pl it m1 ptr pty other m2 al prev m3 Hp Ha Hl Hrep].
      + eapply expr_no_cause; [exact Hn|exact Hb| |exact Hc]. right. rewrite Htm. by eapply term_runs_expr.
      + assert (f' = f) as ->.
        { destruct Hf as (t & Ht & Hk). destruct (t_stack t) as [|g r] eqn:Es; [done|]. injection Hk as ->.
          rewrite (cur_frame_eq (starting m a) t f r Ht Es) in Hcf. by injection Hcf as ->. }
        apply leaf_in in Hlf. rewrite (sp_ret _ _ Hsimple n _ ty pt Hn Hty Hlf) in Hpi. done.
      + pose proof (fo_term _ _ _ Hfok _ _ Hb) as Hw. rewrite Htm in Hw.
        assert (Hk127 : (k <= 127)%nat).
        { destruct op as [| | | | | | | | | | | | | |lop| | |]; try done; [|destruct lop; try done]; injection Hk as <-; done. }
        cbn in Hw. apply obind_ret in Hw as (rty & Hw & _).
        assert (Hg : gap_free T prog (fn_locals (f_func f)) (inr ret)).
        { eapply (st_term _ _ Hstrict); [exact Hn|exact Hb|rewrite Htm; constructor]. }
        destruct (place_sound m a f ret rty Hr Hen Hf Hw Hg) as [_ Hps]. destruct (Hps _ _ _ Hp) as (<- & Hty & _).
        rewrite (small_fits T it k Hty Hk127) in Hrep. done.
      + by eapply (sp_fetch _ _ Hsimple).
  Qed.
  Lemma simple_no_panic (m : Mach) cs : reachable T MO prog m -> (length (m_threads m) <= 127)%nat -> (length (m_locks m) <= 127)%nat ->
    step T MO cs m <> Panic.
  Proof. intros Hr H1 H2 Hp. destruct (step_panic m cs Hr Hp) as [a Ha]. by eapply simple_no_cause. Qed.

End Prog.
